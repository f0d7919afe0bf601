(** Multisectors of a Hilbert space: the masks built from sector descriptors *)
From Coq Require Import NArith ZArith List Bool Arith Sorted Permutation Lia.
From Verif Require Import BitsModel BitsSpec BitsProofs RankModel RankSpec RankProofs ExprModel ExprSpec ExprOrder HSModel HSSpec HSEnum HSProofs HSMain PropHS
  PropRank LOpModel LOpSpec SectorModel SectorSpec SectorProofs SectorMain SectorGen SectorMulti.
Import ListNotations.
Open Scope N_scope.
Open Scope list_scope.

(** a number given by the positions of its bits *)
Fixpoint bitsum (ks : list nat) : N := match ks with [] => 0 | k :: t => 2 ^ N.of_nat k + bitsum t end.
Lemma pow_disj k x : N.testbit x (N.of_nat k) = false -> N.land (2 ^ N.of_nat k) x = 0.
Proof. intros h. apply disj_bits. intros n. rewrite N.pow2_bits_eqb. intros E. apply N.eqb_eq in E. now subst. Qed.
Lemma bitsum_bits ks : NoDup ks -> forall k, N.testbit (bitsum ks) (N.of_nat k) = existsb (Nat.eqb k) ks.
Proof.
  induction 1 as [|a ks na ND IH]; intros k; [apply N.bits_0|]. cbn [bitsum existsb].
  assert (E : N.testbit (bitsum ks) (N.of_nat a) = false).
  { rewrite IH. destruct (existsb (Nat.eqb a) ks) eqn:Q; auto. apply existsb_exists in Q. destruct Q as [b [Hb E]]. apply Nat.eqb_eq in E. subst. contradiction. }
  rewrite add_disj by (now apply pow_disj). rewrite N.lor_spec, IH, N.pow2_bits_eqb. f_equal.
  destruct (Nat.eqb_spec k a), (N.eqb_spec (N.of_nat a) (N.of_nat k)); auto; lia.
Qed.
Lemma bitsum_ones ks : NoDup ks -> Permutation (ones (bitsum ks)) ks.
Proof.
  intros ND. apply NoDup_Permutation; auto.
  - unfold ones. apply NoDup_filter, seq_NoDup.
  - intros k. rewrite in_ones. rewrite bitsum_bits by auto. rewrite existsb_exists. split.
    + intros [b [Hb E]]. apply Nat.eqb_eq in E. now subst.
    + intros h. exists k. split; auto. apply Nat.eqb_refl.
Qed.
Lemma bitsum_lt ks n : NoDup ks -> (forall k, In k ks -> (k < n)%nat) -> bitsum ks < 2 ^ N.of_nat n.
Proof.
  intros ND H. apply bits_lt_pow. intros i hi. rewrite <- (N2Nat.id i). rewrite bitsum_bits by auto.
  destruct (existsb (Nat.eqb (N.to_nat i)) ks) eqn:Q; auto. apply existsb_exists in Q. destruct Q as [b [Hb E]]. apply Nat.eqb_eq in E. subst b.
  specialize (H _ Hb). lia.
Qed.
Lemma bitsum_sub ks ls : NoDup ks -> NoDup ls -> incl ks ls -> sub (bitsum ks) (bitsum ls).
Proof.
  intros h1 h2 hi. apply sub_bits. intros n. rewrite <- (N2Nat.id n), !bitsum_bits by auto. rewrite !existsb_exists. intros [b [Hb E]]. exists b. auto.
Qed.
Lemma bitsum_disj ks ls : NoDup ks -> NoDup ls -> (forall k, In k ks -> ~ In k ls) -> N.land (bitsum ks) (bitsum ls) = 0.
Proof.
  intros h1 h2 hi. apply disj_bits. intros n. rewrite <- (N2Nat.id n), !bitsum_bits by auto. rewrite existsb_exists. intros [b [Hb E]].
  apply Nat.eqb_eq in E. subst b. destruct (existsb _ ls) eqn:Q; auto. apply existsb_exists in Q. destruct Q as [c [Hc E]]. apply Nat.eqb_eq in E. subst c.
  exfalso. eapply hi; eauto.
Qed.
Lemma bitsum_app ks ls : NoDup (ks ++ ls) -> bitsum (ks ++ ls) = N.lor (bitsum ks) (bitsum ls).
Proof.
  intros ND. assert (Ha : NoDup ks /\ NoDup ls /\ forall k, In k ks -> ~ In k ls).
  { clear - ND. induction ks as [|a ks IH]; cbn in *; [repeat split; auto; constructor|]. inversion ND as [|? ? na ND']; subst. destruct (IH ND') as [h1 [h2 h3]].
    rewrite in_app_iff in na. repeat split; auto; [constructor; tauto|]. intros k [<-|i]; auto. }
  destruct Ha as [h1 [h2 h3]]. rewrite <- add_disj by (now apply bitsum_disj). clear. induction ks; cbn; auto. rewrite IHks. lia.
Qed.
Lemma filter_perm_length {A} (f : A -> bool) l l' : Permutation l l' -> length (filter f l) = length (filter f l').
Proof. induction 1; cbn; auto; try (destruct (f x)); try (destruct (f y)); cbn; auto; congruence. Qed.
Lemma bitsum_weight ks : NoDup ks -> weight (bitsum ks) = length ks.
Proof. intros ND. unfold weight. now apply Permutation_length, bitsum_ones. Qed.

Lemma Forall2_len {A B} {P : A -> B -> Prop} {l l'} : Forall2 P l l' -> length l = length l'.
Proof. induction 1; cbn; auto. Qed.

Section Space.
Context {I : Type} (io : index_ops I) (Hio : index_order io).
Notation desc := (@sector_desc I).

(** the position of a mode *)
Definition pos_in (l : list I) (i : I) (k : nat) : Prop := nth_error l k = Some i.
Lemma pos_exists (l : list I) is n : (forall i, In i is -> In i (firstn n l)) -> exists ks, Forall2 (pos_in l) is ks /\ forall k, In k ks -> (k < n)%nat.
Proof.
  induction is as [|i is IH]; intros H; [exists []; split; [constructor|intros k []]|].
  destruct (IH (fun j h => H j (or_intror h))) as [ks [F B]]. pose proof (H i (or_introl eq_refl)) as Hi. apply In_nth_error in Hi. destruct Hi as [k Ek].
  assert (hk : (k < length (firstn n l))%nat) by (apply nth_error_Some; congruence). rewrite firstn_length in hk.
  exists (k :: ks). split.
  - constructor; auto. unfold pos_in. rewrite <- Ek. symmetry. clear - hk. revert n hk. revert k. induction l as [|a l IH]; intros k n hk; [cbn in hk; lia|].
    destruct n; [cbn in hk; lia|]. destruct k; cbn; auto. apply IH. cbn in hk. lia.
  - intros j [<-|Hj]; [lia|auto].
Qed.
Lemma pos_nodup (l : list I) is ks : Forall2 (pos_in l) is ks -> NoDup is -> NoDup ks.
Proof.
  induction 1 as [|i k is ks P F IH]; intros ND; [constructor|]. inversion ND as [|? ? na ND']; subst. constructor; auto.
  intros Hk. apply na. clear - F Hk P. induction F as [|j k' is ks P' F IH]; [destruct Hk|]. destruct Hk as [->|Hk]; [left; unfold pos_in in *; congruence|right; auto].
Qed.
Lemma pos_app (l : list I) is js ks : Forall2 (pos_in l) (is ++ js) ks -> exists k1 k2, ks = k1 ++ k2 /\ Forall2 (pos_in l) is k1 /\ Forall2 (pos_in l) js k2.
Proof. intros F. apply Forall2_app_inv_l in F. destruct F as [k1 [k2 [F1 [F2 E]]]]. eauto. Qed.

Lemma reach_split h : hs_reachable io h -> exists rest, spaces h = map ESFermion (modes (spaces h)) ++ rest /\ no_fermion rest.
Proof. intros R. apply (modes_split io). apply (reachable_inv io Hio h R). Qed.
Lemma offset_modes (ms : list I) rest k : (k <= length ms)%nat -> offset (map ESFermion ms ++ rest) k = k.
Proof.
  revert k. induction ms as [|i ms IH]; intros [|k] hk; auto; [cbn in hk; lia|]. cbn in hk. unfold offset in *. cbn [map app firstn total_bits]. rewrite IH by lia. reflexivity.
Qed.
Lemma mode_range h i k : hs_reachable io h -> pos_in (modes (spaces h)) i k ->
  exists e, hs_bit_range io h (ESFermion i) = Some (Z.of_nat k, e) /\ hs_has io h (ESFermion i) = true.
Proof.
  intros R P. destruct (reach_split h R) as [rest [E N0]]. unfold pos_in in P.
  assert (hk : (k < length (modes (spaces h)))%nat) by (apply nth_error_Some; congruence).
  assert (En : nth_error (spaces h) k = Some (ESFermion i)).
  { rewrite E. rewrite nth_error_app1 by (rewrite map_length; auto). rewrite nth_error_map, P. reflexivity. }
  pose proof (find_nth io Hio h k _ (reachable_inv io Hio h R) En) as Q. unfold hs_bit_range, hs_has. rewrite Q. cbn [option_map snd].
  eexists. split; [|reflexivity]. f_equal. f_equal. rewrite E. rewrite offset_modes by lia. reflexivity.
Qed.
Lemma mask_loop_spec h : hs_reachable io h -> forall is ks m, Forall2 (pos_in (modes (spaces h))) is ks ->
  m + bitsum ks < 2 ^ 64 -> mask_loop io h is m = SOk (m + bitsum ks).
Proof.
  intros R is ks m F. revert m. induction F as [|i k is ks P F IH]; intros m hm; cbn [mask_loop bitsum] in *; [now rewrite N.add_0_r|].
  destruct (mode_range h i k R P) as [e [-> _]]. rewrite Nat2Z.id. unfold pos_in in P.
  assert (hk : (k < length (modes (spaces h)))%nat) by (apply nth_error_Some; congruence).
  destruct (reach_total io Hio h R) as [_ hT]. pose proof (modes_le (spaces h)). rewrite pow2_some by lia. cbn [of_opt sbind].
  rewrite w64_small by lia. rewrite IH by lia. f_equal. lia.
Qed.
Lemma mode_occupied h x i k : hs_reachable io h -> pos_in (modes (spaces h)) i k -> occupied io (spaces h) x i = N.testbit x (N.of_nat k).
Proof.
  intros R P. destruct (reach_split h R) as [rest [E N0]]. unfold occupied. rewrite E. rewrite (occupied_nth io Hio _ rest k); auto.
  apply (modes_nodup io Hio). apply (reachable_inv io Hio h R).
Qed.
Lemma particles_pos h x is ks : hs_reachable io h -> Forall2 (pos_in (modes (spaces h))) is ks ->
  particles io (spaces h) x is = length (filter (fun k => N.testbit x (N.of_nat k)) ks).
Proof.
  intros R F. unfold particles. induction F as [|i k is ks P F IH]; auto. cbn [filter]. rewrite (mode_occupied h x i k R P).
  destruct (N.testbit x (N.of_nat k)); cbn [length]; now rewrite IH.
Qed.
Lemma particles_ext h x is ks : hs_reachable io h -> Forall2 (pos_in (modes (spaces h))) is ks -> NoDup is -> u64 (bitsum ks) -> u64 x ->
  particles io (spaces h) x is = weight (ext (bitsum ks) x).
Proof.
  intros R F ND Ub Ux. rewrite (particles_pos h x is ks R F), ext_weight by auto. symmetry. apply filter_perm_length, bitsum_ones. eapply pos_nodup; eauto.
Qed.

(** *** validate_sectors *)
Lemma set_insert_NoDup l : forall acc, NoDup acc ->
  (NoDup (l ++ acc) <-> length (fold_left (fun acc i => set_insert io i acc) l acc) = (length l + length acc)%nat) /\
  (length (fold_left (fun acc i => set_insert io i acc) l acc) <= length l + length acc)%nat.
Proof.
  induction l as [|i l IH]; intros acc ND; [cbn; split; [tauto|auto]|]. cbn [fold_left length]. unfold set_insert at 2 4.
  assert (Q : existsb (i_eq io i) acc = true <-> In i acc).
  { rewrite existsb_exists. split; [intros [j [Hj E]]; apply (sto_eq _ _ _ Hio) in E; now subst|]. intros h. exists i. split; auto. apply (i_eqb_refl io Hio). }
  destruct (existsb (i_eq io i) acc) eqn:E.
  - destruct (IH acc ND) as [_ L]. split; [|lia]. split.
    + intros N0. exfalso. cbn in N0. inversion N0 as [|? ? na _]; subst. apply na. apply in_or_app. right. now apply Q.
    + intros E2. lia.
  - assert (ni : ~ In i acc) by (intros h; apply Q in h; discriminate). assert (ND2 : NoDup (i :: acc)) by (constructor; auto).
    destruct (IH (i :: acc) ND2) as [I1 I2]. cbn [length] in *. split; [|lia].
    assert (P : Permutation (l ++ i :: acc) ((i :: l) ++ acc)) by (cbn; symmetry; apply Permutation_middle).
    split.
    + intros N0. replace (Datatypes.S (length l) + length acc)%nat with (length l + Datatypes.S (length acc))%nat by lia. apply I1.
      eapply Permutation_NoDup; [symmetry; exact P|exact N0].
    + intros E2. eapply Permutation_NoDup; [exact P|]. apply I1. lia.
Qed.
Lemma validate_spec h (ss : list desc) : validate_sectors io h ss = true <->
  ((forall s i, In s ss -> In i (sd_indices s) -> hs_has io h (ESFermion i) = true) /\ NoDup (flat_map sd_indices ss)).
Proof.
  unfold validate_sectors. rewrite andb_true_iff, forallb_forall.
  destruct (set_insert_NoDup (flat_map sd_indices ss) [] (NoDup_nil _)) as [Q _]. rewrite app_nil_r in Q. cbn [length] in Q. rewrite Nat.add_0_r in Q.
  rewrite Nat.eqb_eq, <- Q. split; intros [A B]; split; auto.
  - intros s i Hs Hi. specialize (A s Hs). rewrite forallb_forall in A. now apply A.
  - intros s Hs. apply forallb_forall. intros i Hi. eapply A; eauto.
Qed.

(** the parameters of one sector *)
Lemma ms_params_spec h s ks : hs_reachable io h -> Forall2 (pos_in (modes (spaces h))) (sd_indices s) ks -> NoDup (sd_indices s) ->
  (forall k, In k ks -> (k < 32)%nat) -> (sd_N s <= length (sd_indices s))%nat ->
  ms_params io h s = SOk {| pM := length ks; pmask := bitsum ks; pN := sd_N s |} /\
  (par_full {| pM := length ks; pmask := bitsum ks; pN := sd_N s |}) /\ bitsum ks < 2 ^ 32.
Proof.
  intros R F ND hk hN. pose proof (pos_nodup _ _ _ F ND) as NDk. pose proof (bitsum_lt ks 32 NDk hk) as hb. change (N.of_nat 32) with 32 in hb.
  assert (U : u64 (bitsum ks)) by (eapply N.lt_trans; [exact hb|reflexivity]).
  pose proof (Forall2_len F) as L. split; [|split; [split; [split; [|split]|]|]]; auto.
  - unfold ms_params, init_mask. rewrite (mask_loop_spec h R _ ks 0 F) by exact U. cbn [sbind]. rewrite N.add_0_l, N.mod_small by auto.
    unfold validated_n. destruct (Nat.ltb_spec (length (sd_indices s)) (sd_N s)); [lia|]. cbn [sbind]. now rewrite L.
  - cbn [pM]. assert (Hl : (length ks <= 32)%nat); [|lia]. rewrite <- (seq_length 32 0). apply NoDup_incl_length; auto. intros k Hk. apply in_seq. specialize (hk k Hk). lia.
  - cbn [pM pN]. lia.
  - cbn [pM pmask]. now apply bitsum_weight.
Qed.

Definition sumM (ps : list sector_params) : nat := fold_right (fun p a => (pM p + a)%nat) 0%nat ps.

Lemma ms_all_spec h (ss : list desc) ks : hs_reachable io h -> Forall2 (pos_in (modes (spaces h))) (flat_map sd_indices ss) ks ->
  NoDup (flat_map sd_indices ss) -> (forall k, In k ks -> (k < 32)%nat) -> (forall s, In s ss -> (sd_N s <= length (sd_indices s))%nat) ->
  exists ps, ms_params_all io h ss = SOk ps /\ Forall par_full ps /\ disj (map pmask ps) /\ orall (map pmask ps) = bitsum ks /\ sumM ps = length ks /\
    prodb ps = fold_right (fun s a => binom (length (sd_indices s)) (sd_N s) * a) 1 ss /\
    (forall x, u64 x -> ((forall s, In s ss -> particles io (spaces h) x (sd_indices s) = sd_N s) <->
                Forall (fun p => in_sector (pM p) (pN p) (ext (pmask p) x) = true) ps)).
Proof.
  intros R. revert ks. induction ss as [|s ss IH]; intros ks F ND hk hN.
  - cbn in F. inversion F; subst. exists []. cbn. repeat split; auto; try constructor. intros _ s [].
  - cbn [flat_map] in F, ND. destruct (pos_app _ _ _ _ F) as [k1 [k2 [-> [F1 F2]]]].
    assert (ND1 : NoDup (sd_indices s) /\ NoDup (flat_map sd_indices ss)).
    { clear - ND. induction (sd_indices s) as [|a l IH]; cbn in *; [split; auto; constructor|]. inversion ND; subst. destruct (IH H2). split; auto.
      constructor; auto. intros h. apply H1. apply in_or_app. now left. }
    destruct ND1 as [ND1 ND2]. pose proof (pos_nodup _ _ _ F ND) as NDk.
    destruct (IH k2 F2 ND2) as [ps [E [P [D [O [Sm [Pr Q]]]]]]]; [intros k hk0; apply hk; apply in_or_app; now right|intros s' hs'; apply hN; now right|].
    destruct (ms_params_spec h s k1 R F1 ND1) as [E1 [P1 B1]]; [intros k hk0; apply hk; apply in_or_app; now left|apply hN; now left|].
    pose proof (Forall2_len F1) as L1. cbn [ms_params_all]. rewrite E1. cbn [sbind pM]. rewrite E. cbn [sbind].
    assert (U1 : u64 (bitsum k1)) by (eapply N.lt_trans; [exact B1|reflexivity]).
    assert (Pe : forall x, u64 x -> particles io (spaces h) x (sd_indices s) = weight (ext (bitsum k1) x)) by (intros; now apply particles_ext).
    destruct (Nat.eqb_spec (length k1) 0) as [z|nz].
    + destruct k1; [|discriminate]. cbn [app] in *. assert (Es : sd_indices s = []) by (destruct (sd_indices s); auto; discriminate).
      exists ps. cbn [fold_right]. rewrite Es. assert (N0 : sd_N s = 0%nat) by (specialize (hN s (or_introl eq_refl)); rewrite Es in hN; cbn in hN; lia).
      rewrite N0. cbn [length binom]. rewrite N.mul_1_l. repeat split; auto.
      * intros H1. apply Q; auto. intros s' hs'. apply H1. now right.
      * intros H1 s' [<-|hs']; [rewrite Es, N0; reflexivity|]. now apply (Q x).
    + eexists. split; [reflexivity|]. split; [now constructor|]. cbn [map orall pmask]. rewrite O.
      split; [|split; [|split; [|split]]].
      * constructor; [|exact D]. rewrite O. apply bitsum_disj.
        -- eapply pos_nodup; eauto.
        -- eapply pos_nodup; eauto.
        -- clear - NDk. induction k1 as [|a l IHl]; cbn in *; [tauto|]. inversion NDk as [|? ? na ND']; subst. rewrite in_app_iff in na. intros k [<-|i]; [tauto|now apply IHl].
      * symmetry. now apply bitsum_app.
      * cbn [sumM fold_right pM]. fold (sumM ps). rewrite Sm, app_length. reflexivity.
      * rewrite prodb_cons, Pr. cbn [pM pN fold_right]. now rewrite L1.
      * intros x Ux. split.
        -- intros H. constructor.
           ++ cbn [pM pN pmask]. unfold in_sector. rewrite <- (Pe x Ux), (H s (or_introl eq_refl)), Nat.eqb_refl, andb_true_r.
              apply N.ltb_lt. pose proof (ext_lt (bitsum k1) x U1 Ux) as Q1. rewrite bitsum_weight in Q1; [exact Q1|eapply pos_nodup; eauto].
           ++ apply Q; auto. intros s' hs'. apply H. now right.
        -- intros H. inversion H as [|? ? h1 h2]; subst. intros s' [<-|hs']; [|now apply (Q x)].
           cbn [pM pN pmask] in h1. rewrite (Pe x Ux). now apply in_sector_weight in h1.
Qed.
End Space.
