(** Application of a linear operator to a state vector. *)
From Coq Require Import NArith ZArith List Bool Sorted Permutation Lia.
From Verif Require Import BitsModel BitsSpec BitsProofs ExprModel ExprSpec ExprOrder HSModel HSSpec HSEnum
  HSProofs HSMain PropHS LOpModel LOpSpec LOpFermion LOpSite LOpActF LOpActB LOpActS LOpComm.
Import ListNotations.
Open Scope N_scope.
Open Scope list_scope.

Lemma NoDup_app' {A} (a b : list A) : NoDup a -> NoDup b -> (forall x, In x a -> ~ In x b) -> NoDup (a ++ b).
Proof.
  induction 1 as [|x a n ND IH]; cbn; intros NB D; auto. constructor.
  - rewrite in_app_iff. intros [i|i]; auto. apply (D x); cbn; auto.
  - apply IH; auto.
Qed.

Section Sums.
Context {S : Type} (so : scalar_ops S) (L : scalar_laws so).
Notation "x + y" := (s_add so x y).
Notation "x * y" := (s_mul so x y).
Notation "0" := (s_zero so).
Lemma sadd_0_r x : x + 0 = x. Proof. now rewrite (sl_add_comm so L), (sl_add_0 so L). Qed.
Lemma sadd_4 a b c d : (a + b) + (c + d) = (a + c) + (b + d).
Proof.
  rewrite <- !(sl_add_assoc so L). f_equal. rewrite !(sl_add_assoc so L). f_equal. apply (sl_add_comm so L).
Qed.
Lemma ssum_ext f g l : (forall x, In x l -> f x = g x) -> ssum so f l = ssum so g l.
Proof. intros H. induction l as [|a l IH]; cbn; auto. rewrite H, IH; cbn; auto. intros; apply H; cbn; auto. Qed.
Lemma ssum_0 l : ssum so (fun _ => 0) l = 0.
Proof. induction l; cbn; auto. now rewrite IHl, (sl_add_0 so L). Qed.
Lemma ssum_add f g l : ssum so (fun x => f x + g x) l = ssum so f l + ssum so g l.
Proof. induction l as [|a l IH]; cbn; [now rewrite sadd_0_r|]. rewrite IH. apply sadd_4. Qed.
Lemma ssum_mul_l c f l : ssum so (fun x => c * f x) l = c * ssum so f l.
Proof. induction l as [|a l IH]; cbn; [now rewrite (mul_0_r so L)|]. now rewrite IH, (sl_dist_l so L). Qed.
Lemma ssum_mul_r c f l : ssum so (fun x => f x * c) l = ssum so f l * c.
Proof. induction l as [|a l IH]; cbn; [now rewrite (mul_0_l so L)|]. now rewrite IH, (sl_dist_r so L). Qed.
Lemma ssum_swap (f : N -> N -> S) a b : ssum so (fun x => ssum so (f x) b) a = ssum so (fun y => ssum so (fun x => f x y) a) b.
Proof.
  induction a as [|x a IH]; cbn; [now rewrite ssum_0|]. rewrite IH. now rewrite <- ssum_add.
Qed.
Lemma ssum_single l x (f : N -> S) : NoDup l -> In x l -> (forall y, In y l -> y <> x -> f y = 0) -> ssum so f l = f x.
Proof.
  intros ND. induction ND as [|a l na ND IH]; cbn [In ssum]; intros i H; [contradiction|].
  destruct i as [->|i].
  - rewrite (ssum_ext f (fun _ => 0)), ssum_0, sadd_0_r; auto. intros y iy. apply H; auto. now intros ->.
  - rewrite (H a), (sl_add_0 so L); auto. now intros ->.
Qed.
Lemma ssum_perm f a b : Permutation a b -> ssum so f a = ssum so f b.
Proof.
  induction 1; cbn; auto.
  - now rewrite IHPermutation.
  - rewrite !(sl_add_assoc so L). f_equal. apply (sl_add_comm so L).
  - congruence.
Qed.
Lemma ssum_app f a b : ssum so f (a ++ b) = ssum so f a + ssum so f b.
Proof. induction a as [|x a IH]; cbn; [now rewrite (sl_add_0 so L)|]. now rewrite IH, (sl_add_assoc so L). Qed.
Lemma ssum_map (f : N -> S) (g : N -> N) l : ssum so f (map g l) = ssum so (fun x => f (g x)) l.
Proof. induction l; cbn; auto. now rewrite IHl. Qed.
(** sums over the visited entries *)
Fixpoint esum (f : N -> S) (l : list (N * S)) : S :=
  match l with [] => 0 | (x, a) :: t => f x * a + esum f t end.
Lemma esum_basis (f amp : N -> S) l bas : NoDup bas -> NoDup (map fst l) -> (forall x a, In (x, a) l -> a = amp x) ->
  (forall x, amp x <> 0 -> In x (map fst l)) -> (forall x, In x (map fst l) -> In x bas) ->
  esum f l = ssum so (fun x => f x * amp x) bas.
Proof.
  intros NB NL HA HS HI.
  assert (E1 : esum f l = ssum so (fun x => f x * amp x) (map fst l)).
  { clear -HA. induction l as [|[x a] l IH]; cbn; auto. rewrite (HA x a) by (cbn; auto). rewrite IH; auto.
    intros y b i. apply HA. cbn; auto. }
  rewrite E1.
  set (ks := map fst l) in *.
  assert (P : Permutation bas (ks ++ filter (fun x => negb (existsb (N.eqb x) ks)) bas)).
  { apply NoDup_Permutation; auto.
    - apply NoDup_app'; auto; [now apply NoDup_filter|]. intros x i j. apply filter_In in j. destruct j as [_ j].
      apply negb_true_iff in j. rewrite <- not_true_iff_false, existsb_exists in j. apply j. exists x. split; auto. apply N.eqb_refl.
    - intros x. rewrite in_app_iff, filter_In. split.
      + intros i. destruct (existsb (N.eqb x) ks) eqn:E; [left|right; auto].
        apply existsb_exists in E. destruct E as [y [i2 e]]. apply N.eqb_eq in e. now subst.
      + intros [i|[i _]]; auto. }
  rewrite (ssum_perm _ _ _ P), ssum_app.
  rewrite (ssum_ext _ (fun _ => 0) (filter _ _)), ssum_0, sadd_0_r; auto.
  intros x i. apply filter_In in i. destruct i as [_ i]. apply negb_true_iff in i.
  destruct (s_is_zero so (amp x)) eqn:Z.
  - apply (sl_is_zero so L) in Z. rewrite Z. apply (mul_0_r so L).
  - exfalso. rewrite <- not_true_iff_false, existsb_exists in i. apply i. exists x. split; [|apply N.eqb_refl].
    apply HS. intros C. apply (sl_is_zero so L) in C. congruence.
Qed.
End Sums.

Section Apply.
Context {I S V : Type} (io : index_ops I) (Hio : index_order io).
Context (so : scalar_ops S) (L : scalar_laws so) (sq : N -> S) (half : Z -> S).
Context (MC : forall x y, s_mul so x y = s_mul so y x).
Context (H0 : half 0%Z = s_zero so).
Context (sv : sv_ops V S) (ok : V -> Prop) (amp : V -> N -> S) (size : V -> N).
Context (SV : sv_laws so sv ok amp size).
Notation mel := (mel io so sq half).

(** an operator all whose monomials implement those of e *)
Definition lop_impl (l : list (espace I)) (e : list (list (gen I) * S)) (Lp : lop S) : Prop :=
  Forall2 (fun mc ac => implements io so sq half l (mono_run so sq half (fst ac)) (fst mc) /\ snd mc = snd ac) e Lp.

Lemma act_monos_spec l e Lp : StronglySorted (es_before io) l -> Forall es_wf l -> lop_impl l e Lp ->
  forall x a dst, valid_state l x -> ok dst -> 2 ^ N.of_nat (total_bits l) <= size dst ->
  exists dst', act_monos so sq half sv Lp x a dst = Some dst' /\ ok dst' /\ size dst' = size dst /\
    forall y, amp dst' y = s_add so (amp dst y) (s_mul so (mel l e y x) a).
Proof.
  intros S0 W. induction 1 as [|[m c] [acts c'] e Lp [Hm Hc] F IH]; intros x a dst V0 O Sz; cbn [act_monos].
  - exists dst. repeat split; auto. intros y. cbn. now rewrite (mul_0_l so L), (sadd_0_r so L).
  - cbn [fst snd] in *. subst c'. destruct (Hm x (s_one so) V0) as [[k [z [E1 E2]]]|[E1 E2]].
    + rewrite E2. rewrite (sl_mul_1_l so L).
      assert (Vz : valid_state l z) by (eapply mono_act_valid; eauto).
      destruct (svl_add _ _ _ _ _ SV dst z (s_mul so (s_mul so c k) a) O) as [d1 [-> [O1 [Z1 A1]]]].
      { destruct Vz as [hz _]. lia. }
      destruct (IH x a d1 V0 O1) as [d2 [-> [O2 [Z2 A2]]]]; [lia|].
      exists d2. repeat split; auto; [congruence|]. intros y. rewrite A2, A1. cbn [LOpSpec.mel]. rewrite E1. cbn [amp1].
      rewrite (sl_dist_r so L), (sl_add_assoc so L). f_equal.
      destruct (N.eqb_spec z y); auto. rewrite (mul_0_r so L), (mul_0_l so L), (sadd_0_r so L). reflexivity.
    + rewrite E1. destruct (IH x a dst V0 O Sz) as [d2 [-> [O2 [Z2 A2]]]].
      exists d2. repeat split; auto. intros y. rewrite A2. cbn [LOpSpec.mel]. rewrite (E2 y).
      now rewrite (mul_0_r so L), (sl_add_0 so L).
Qed.
Lemma act_entries_spec l e Lp : StronglySorted (es_before io) l -> Forall es_wf l -> lop_impl l e Lp ->
  forall ent dst, Forall (fun p => valid_state l (fst p)) ent -> ok dst -> 2 ^ N.of_nat (total_bits l) <= size dst ->
  exists dst', act_entries so sq half sv Lp ent dst = Some dst' /\ ok dst' /\ size dst' = size dst /\
    forall y, amp dst' y = s_add so (amp dst y) (esum so (mel l e y) ent).
Proof.
  intros S0 W HL. induction ent as [|[x a] ent IH]; intros dst F O Sz; cbn [act_entries].
  - exists dst. repeat split; auto. intros y. cbn. now rewrite (sadd_0_r so L).
  - inversion F as [|? ? Vx F']; subst. cbn [fst] in Vx.
    destruct (act_monos_spec l e Lp S0 W HL x a dst Vx O Sz) as [d1 [-> [O1 [Z1 A1]]]].
    destruct (IH d1 F' O1) as [d2 [-> [O2 [Z2 A2]]]]; [lia|].
    exists d2. repeat split; auto; [congruence|]. intros y. rewrite A2, A1. cbn [esum]. now rewrite (sl_add_assoc so L).
Qed.

Lemma lop_make_impl (h : hspace I) e Lp : hs_inv io h -> hs_algs_ok h -> Forall int_mult (spaces h) ->
  (forall m c, In (m, c) e -> canonical_mono io m) -> make_loperator io e h = LOk Lp -> lop_impl (spaces h) e Lp.
Proof.
  intros Hi HA IM. unfold make_loperator. revert Lp. induction e as [|[m c] e IH]; intros Lp C E; cbn [lop_make] in E.
  - inversion E; subst. constructor.
  - destruct (mono_make io h [-3; -2; -1]%Z m) as [acts| | |] eqn:Em; try discriminate. cbn [lbind] in E.
    destruct (lop_make io h [-3; -2; -1]%Z e) as [Lt| | |] eqn:El; try discriminate. cbn [lbind] in E. inversion E; subst.
    constructor.
    + cbn [fst snd]. split; auto. eapply (mono_correct io Hio so L sq half MC H0); eauto. eapply C; cbn; eauto.
    + apply IH; auto. intros m' c' i. eapply C; cbn; eauto.
Qed.

(** the application formula *)
Theorem apply_spec (h : hspace I) e Lp bas v ent dst : hs_inv io h -> hs_algs_ok h -> Forall int_mult (spaces h) ->
  (forall m c, In (m, c) e -> canonical_mono io m) -> make_loperator io e h = LOk Lp ->
  basis_of (spaces h) bas -> ok v -> ok dst -> 2 ^ N.of_nat (total_bits (spaces h)) <= size dst ->
  sv_entries sv v ent -> Forall (fun p => valid_state (spaces h) (fst p)) ent ->
  exists w, act_entries so sq half sv Lp ent (sv_zero sv dst) = Some w /\ ok w /\ size w = size dst /\
    forall y, amp w y = ssum so (fun x => s_mul so (mel (spaces h) e y x) (amp v x)) bas.
Proof.
  intros Hi HA IM C E [NB B] Ov Od Sz Ee Fv. pose proof Hi as [S0 [W _]].
  pose proof (lop_make_impl h e Lp Hi HA IM C E) as LI.
  destruct (svl_zero _ _ _ _ _ SV dst Od) as [Oz [Zz Az]].
  destruct (act_entries_spec (spaces h) e Lp S0 W LI ent (sv_zero sv dst) Fv Oz) as [w [E1 [E2 [E3 E4]]]]; [lia|].
  exists w. repeat split; auto; [congruence|]. intros y. rewrite E4, Az, (sl_add_0 so L).
  destruct (svl_entries _ _ _ _ _ SV v ent Ov Ee) as [N1 [_ [N2 N3]]].
  apply (esum_basis so L _ (amp v) ent bas NB N1 N2 N3). intros x i. apply B.
  apply in_map_iff in i. destruct i as [p [<- i]]. rewrite Forall_forall in Fv. now apply Fv.
Qed.
End Apply.

(** ** The two implementations of the StateVector interface *)
Section Vectors.
Context {S : Type} (so : scalar_ops S) (L : scalar_laws so).

Definition dense_amp (v : dense) (n : N) : S := nth (N.to_nat n) v (s_zero so).
Definition dense_size (v : @dense S) : N := N.of_nat (length v).
Lemma list_update_spec (v : @dense S) n x : (n < length v)%nat -> exists v', list_update so v n x = Some v' /\
  length v' = length v /\ forall k, nth k v' (s_zero so) = if Nat.eqb n k then s_add so (nth k v (s_zero so)) x else nth k v (s_zero so).
Proof.
  revert n. induction v as [|a v IH]; intros n h; cbn in h; [lia|]. destruct n as [|n]; cbn [list_update].
  - eexists. split; [reflexivity|]. split; auto. intros [|k]; reflexivity.
  - destruct (IH n) as [v' [-> [E1 E2]]]; [lia|]. cbn [option_map]. eexists. split; [reflexivity|]. split; [cbn; lia|].
    intros [|k]; cbn; auto.
Qed.
Lemma dense_entries_spec (v : @dense S) : forall n0,
  StronglySorted N.lt (map fst (dense_entries_from so v n0)) /\
  (forall x a, In (x, a) (dense_entries_from so v n0) -> n0 <= x < n0 + N.of_nat (length v) /\ a = dense_amp v (x - n0) /\ a <> s_zero so) /\
  (forall k, (k < length v)%nat -> nth k v (s_zero so) <> s_zero so -> In (n0 + N.of_nat k) (map fst (dense_entries_from so v n0))).
Proof.
  induction v as [|a v IH]; intros n0; cbn [dense_entries_from].
  - split; [constructor|]. split; [intros x b []|]. cbn. lia.
  - destruct (IH (n0 + 1)) as [A [B C]].
    assert (B' : forall x b, In (x, b) (dense_entries_from so v (n0 + 1)) ->
       n0 <= x < n0 + N.of_nat (length (a :: v)) /\ b = dense_amp (a :: v) (x - n0) /\ b <> s_zero so).
    { intros x b i. destruct (B x b i) as [h1 [h2 h3]]. split; [cbn [length]; lia|]. split; auto.
      rewrite h2. unfold dense_amp. replace (N.to_nat (x - n0)) with (Datatypes.S (N.to_nat (x - (n0 + 1)))) by lia. reflexivity. }
    assert (C' : forall k, (k < length v)%nat -> nth k v (s_zero so) <> s_zero so ->
       In (n0 + N.of_nat (Datatypes.S k)) (map fst (dense_entries_from so v (n0 + 1)))).
    { intros k hk nz. replace (n0 + N.of_nat (Datatypes.S k)) with (n0 + 1 + N.of_nat k) by lia. auto. }
    destruct (s_is_zero so a) eqn:Z.
    + split; auto. split; auto. intros [|k] hk nz; cbn in nz.
      * exfalso. apply nz. now apply (sl_is_zero so L).
      * apply C'; auto. cbn in hk. lia.
    + split; [|split].
      * cbn [map fst]. constructor; auto. rewrite Forall_forall. intros x i. apply in_map_iff in i. destruct i as [[y b] [<- i]].
        apply B in i. cbn. lia.
      * intros x b [E|i]; auto. inversion E; subst. split; [cbn [length]; lia|]. rewrite N.sub_diag. split; auto.
        intros ->. rewrite (proj2 (sl_is_zero so L _) eq_refl) in Z. discriminate.
      * intros [|k] hk nz; [left; cbn; lia|]. right. apply C'; auto. cbn in hk. lia.
Qed.
Theorem dense_sv_laws : sv_laws so (dense_sv so) (fun _ => True) dense_amp dense_size.
Proof.
  constructor.
  - intros v. eexists. reflexivity.
  - intros v l _ E. cbn in E. subst l. destruct (dense_entries_spec v 0) as [A [B C]]. split; [|split; [|split]].
    + clear -A. induction A as [|x t St IH F]; constructor; auto. rewrite Forall_forall in F. intros i. apply F in i. lia.
    + rewrite Forall_forall. intros [x a] i. apply B in i. cbn. unfold dense_size. lia.
    + intros x a i. destruct (B x a i) as [_ [h _]]. now rewrite N.sub_0_r in h.
    + intros x nz. destruct (Nat.lt_ge_cases (N.to_nat x) (length v)) as [h|h].
      * specialize (C (N.to_nat x) h nz). now rewrite N2Nat.id in C.
      * exfalso. apply nz. unfold dense_amp. now apply nth_overflow.
  - intros v n _ h. cbn. unfold dense_get, dense_amp. unfold dense_size in h. rewrite nth_error_nth' with (d := s_zero so); auto. lia.
  - intros v n x _ h. unfold dense_size in *. destruct (list_update_spec v (N.to_nat n) x) as [v' [E1 [E2 E3]]]; [lia|].
    exists v'. split; [exact E1|]. split; auto. split; [lia|]. intros y. unfold dense_amp. rewrite E3.
    destruct (Nat.eqb_spec (N.to_nat n) (N.to_nat y)), (N.eqb_spec n y); auto; try lia; subst; contradiction.
  - intros v _. cbn. unfold dense_zero, dense_size, dense_amp. rewrite map_length. repeat split; auto. intros y.
    destruct (nth_in_or_default (N.to_nat y) (map (fun _ => s_zero so) v) (s_zero so)) as [i|]; auto.
    apply in_map_iff in i. destruct i as [? [<- _]]. reflexivity.
Qed.

(** sparse vectors *)
Definition sparse_ok (v : @sparse S) : Prop := NoDup (map fst (sp_data v)) /\ Forall (fun p => fst p < sp_size v) (sp_data v).
Definition dat_amp (d : list (N * S)) (n : N) : S := match sp_find n d with None => s_zero so | Some a => a end.
Definition sparse_amp (v : @sparse S) (n : N) : S := dat_amp (sp_data v) n.
Lemma sp_find_In (d : list (N * S)) n a : NoDup (map fst d) -> (sp_find n d = Some a <-> In (n, a) d).
Proof.
  induction d as [|[k b] d IH]; cbn; intros ND; [split; [discriminate|tauto]|]. inversion ND as [|? ? na ND']; subst.
  destruct (N.eqb_spec n k) as [->|ne].
  - split; [inversion 1; auto|]. intros [E|i]; [inversion E; auto|]. exfalso. apply na. apply in_map_iff. now exists (k, a).
  - rewrite IH by auto. split; auto. intros [E|i]; auto. inversion E; subst. contradiction.
Qed.
Lemma sp_find_None (d : list (N * S)) n : sp_find n d = None <-> ~ In n (map fst d).
Proof.
  induction d as [|[k b] d IH]; cbn; [tauto|]. destruct (N.eqb_spec n k) as [->|ne].
  - split; [discriminate|]. intros H. exfalso. auto.
  - rewrite IH. split; intros H; [|tauto]. intros [E|i]; auto.
Qed.
Lemma sp_set_keys (d : list (N * S)) n x k : In k (map fst (sp_set n x d)) <-> k = n \/ In k (map fst d).
Proof.
  induction d as [|[j b] d IH]; cbn; [intuition|]. destruct (N.eqb_spec n j) as [->|ne]; cbn; [intuition|]. rewrite IH. intuition.
Qed.
Lemma sp_set_nodup (d : list (N * S)) n x : NoDup (map fst d) -> NoDup (map fst (sp_set n x d)).
Proof.
  induction d as [|[j b] d IH]; cbn; intros ND; [repeat constructor; auto|]. inversion ND; subst.
  destruct (N.eqb_spec n j) as [->|ne]; cbn; constructor; auto. rewrite sp_set_keys. intuition.
Qed.
Lemma sp_find_set (d : list (N * S)) n x k : sp_find k (sp_set n x d) = if N.eqb n k then Some x else sp_find k d.
Proof.
  induction d as [|[j b] d IH]; cbn.
  - destruct (N.eqb_spec k n), (N.eqb_spec n k); auto; congruence.
  - destruct (N.eqb_spec n j) as [->|ne]; cbn.
    + destruct (N.eqb_spec k j), (N.eqb_spec j k); auto; congruence.
    + rewrite IH. destruct (N.eqb_spec k j), (N.eqb_spec n k); auto. congruence.
Qed.
Lemma sp_erase_keys (d : list (N * S)) n k : In k (map fst (sp_erase n d)) -> In k (map fst d).
Proof. induction d as [|[j b] d IH]; cbn; auto. destruct (N.eqb_spec n j); cbn; intuition. Qed.
Lemma sp_erase_nodup (d : list (N * S)) n : NoDup (map fst d) -> NoDup (map fst (sp_erase n d)).
Proof.
  induction d as [|[j b] d IH]; cbn; intros ND; auto. inversion ND; subst. destruct (N.eqb_spec n j); cbn; auto. constructor; auto.
  intros i. apply sp_erase_keys in i. auto.
Qed.
Lemma sp_find_erase (d : list (N * S)) n k : NoDup (map fst d) -> sp_find k (sp_erase n d) = if N.eqb n k then None else sp_find k d.
Proof.
  induction d as [|[j b] d IH]; cbn; intros ND; [now destruct (_ =? _)|]. inversion ND; subst.
  destruct (N.eqb_spec n j) as [->|ne]; cbn.
  - destruct (N.eqb_spec j k) as [->|]; [now apply sp_find_None|]. destruct (N.eqb_spec k j); congruence.
  - rewrite IH by auto. destruct (N.eqb_spec k j), (N.eqb_spec n k); auto. congruence.
Qed.
Lemma keys_bound (d : list (N * S)) b : Forall (fun p => fst p < b) d <-> forall k, In k (map fst d) -> k < b.
Proof.
  rewrite Forall_forall. split.
  - intros H k i. apply in_map_iff in i. destruct i as [p [<- i]]. auto.
  - intros H p i. apply H. now apply in_map.
Qed.

Theorem sparse_sv_laws : sv_laws so (sparse_sv so) sparse_ok sparse_amp sp_size.
Proof.
  constructor.
  - intros v. exists (sp_data v). cbn. reflexivity.
  - intros v l [ND F] P. cbn in P.
    assert (ND' : NoDup (map fst l)) by (eapply Permutation_NoDup; [symmetry; apply Permutation_map; exact P|exact ND]).
    split; auto. split; [|split].
    + eapply Permutation_Forall; [symmetry; exact P|exact F].
    + intros x a i. unfold sparse_amp, dat_amp. assert (i2 : In (x, a) (sp_data v)) by (eapply Permutation_in; eauto).
      apply sp_find_In in i2; auto. now rewrite i2.
    + intros x nz. unfold sparse_amp, dat_amp in nz. destruct (sp_find x (sp_data v)) as [a|] eqn:E; [|contradiction].
      apply sp_find_In in E; auto. apply in_map_iff. exists (x, a). split; auto. eapply Permutation_in; [symmetry; exact P|exact E].
  - intros v n [ND F] h. cbn. unfold sparse_get. destruct (N.ltb_spec n (sp_size v)); [reflexivity|lia].
  - intros v n x [ND F] h. cbn. unfold sparse_add. eexists. split; [reflexivity|]. cbn [sp_size].
    unfold sparse_add_data, sparse_ok, sparse_amp, dat_amp. cbn [sp_data sp_size].
    rewrite keys_bound in F.
    destruct (sp_find n (sp_data v)) as [a|] eqn:E.
    + destruct (s_is_zero so (s_add so a x)) eqn:Z.
      * split; [split; [now apply sp_erase_nodup|]|split; auto].
        -- rewrite keys_bound. intros k i. apply sp_erase_keys in i. auto.
        -- intros y. rewrite sp_find_erase by auto. destruct (N.eqb_spec n y) as [->|]; auto. rewrite E. symmetry. now apply (sl_is_zero so L).
      * split; [split; [now apply sp_set_nodup|]|split; auto].
        -- rewrite keys_bound. intros k i. apply sp_set_keys in i. destruct i as [->|i]; auto.
        -- intros y. rewrite sp_find_set. destruct (N.eqb_spec n y) as [->|]; auto. now rewrite E.
    + destruct (s_is_zero so x) eqn:Z.
      * split; [split; auto; now rewrite keys_bound|split; auto]. intros y. destruct (N.eqb_spec n y) as [->|]; auto.
        rewrite E. apply (sl_is_zero so L) in Z. subst x. now rewrite (sl_add_0 so L).
      * split; [split; [now apply sp_set_nodup|]|split; auto].
        -- rewrite keys_bound. intros k i. apply sp_set_keys in i. destruct i as [->|i]; auto.
        -- intros y. rewrite sp_find_set. destruct (N.eqb_spec n y) as [->|]; auto. now rewrite E, (sl_add_0 so L).
  - intros v [ND F]. cbn. unfold sparse_ok, sparse_amp. cbn. repeat split; auto; constructor.
Qed.
End Vectors.
