(** basis_mapper constructed from operators *)
From Coq Require Import NArith ZArith List Bool Sorted Permutation Lia Arith.
From Verif Require Import BitsModel BitsSpec BitsProofs ExprModel ExprSpec ExprOrder ExprEval
  HSModel HSSpec HSEnum HSProofs HSMain LOpModel LOpSpec LOpFermion LOpSite LOpActF LOpActB LOpActS LOpComm LOpApply LOpMatrix LOpMain
  PropLOp2 ViewModel ViewSpec ViewProofs.
Import ListNotations.
Open Scope N_scope.
Open Scope list_scope.

Section Mapper.
Context {I S : Type} (io : index_ops I) (Hio : index_order io).
Context (so : scalar_ops S) (sq : N -> S) (half : Z -> S) (LL : lop_laws so sq half).
Context (h : hspace I) (Hi : hs_inv io h) (HA : hs_algs_ok h) (IM : Forall int_mult (spaces h)).
Context (bas : list N) (HB : basis_of (spaces h) bas).
Notation ov := (op_vec io so sq half (spaces h) bas).
Notation opow := (op_pow io so sq half (spaces h) bas).
Notation faf := (first_acts_first io so sq half (spaces h) bas).
Notation laf := (last_acts_first io so sq half (spaces h) bas).
Notation vec := (state_of so (sparse_nz so) (sparse_amp so) sp_size (spaces h)).

Lemma ov_ext e f g : (forall x, f x = g x) -> forall y, ov e f y = ov e g y.
Proof. intros H y. apply ssum_ext. intros x _. now rewrite H. Qed.
Lemma opow_ext e n f g : (forall x, f x = g x) -> forall y, opow e n f y = opow e n g y.
Proof. intros H. induction n as [|n IH]; cbn; auto. now apply ov_ext. Qed.
Lemma faf_ext es : forall ns f g, (forall x, f x = g x) -> forall y, faf es ns f y = faf es ns g y.
Proof.
  induction es as [|e es IH]; intros [|n ns] f g H y; cbn; auto. apply IH. now apply opow_ext.
Qed.
Lemma ov_0 e f : (forall x, f x = s_zero so) -> forall y, ov e f y = s_zero so.
Proof.
  intros H y. unfold op_vec. rewrite <- (ssum_0 so (ll_ring _ _ _ LL) bas). apply ssum_ext. intros x _. rewrite H.
  apply (mul_0_r so (ll_ring _ _ _ LL)).
Qed.
Lemma opow_0 e n f : (forall x, f x = s_zero so) -> forall y, opow e n f y = s_zero so.
Proof. intros H. induction n as [|n IH]; cbn; auto. now apply ov_0. Qed.
Lemma faf_0 es : forall ns f, (forall x, f x = s_zero so) -> forall y, faf es ns f y = s_zero so.
Proof. induction es as [|e es IH]; intros [|n ns] f H y; cbn; auto. apply IH. now apply opow_0. Qed.
Lemma opow_S e n f : opow e (Datatypes.S n) f = opow e n (ov e f).
Proof. unfold op_pow. cbn. induction n as [|n IH]; cbn; auto. now rewrite IH. Qed.
Lemma list_sum_cons n ns : list_sum (n :: ns) = (n + list_sum ns)%nat. Proof. reflexivity. Qed.
Lemma faf_zeros es : forall ns f, list_sum ns = 0%nat -> faf es ns f = f.
Proof.
  induction es as [|e es IH]; intros [|n ns] f H; auto. rewrite list_sum_cons in H. cbn [first_acts_first]. rewrite IH by lia.
  replace n with 0%nat by lia. reflexivity.
Qed.

Lemma vec_data (st : @sparse S) x : vec st -> (In x (map fst (sp_data st)) <-> sparse_amp so st x <> s_zero so).
Proof.
  intros [[[ND _] Z] _]. unfold sparse_amp, dat_amp. rewrite Forall_forall in Z. split.
  - intros i. apply in_map_iff in i. destruct i as [[k a] [<- i]]. cbn [fst]. rewrite (proj2 (sp_find_In _ k a ND) i). now apply (Z (k, a)).
  - destruct (sp_find x (sp_data st)) as [a|] eqn:E; [|congruence]. intros _. apply sp_find_In in E; auto. now apply (in_map fst) in E.
Qed.
Lemma collect_spec st m m' : vec st -> im_ok m -> collect st m m' -> im_ok m' /\
  forall x, In x (map fst m') <-> In x (map fst m) \/ sparse_amp so st x <> s_zero so.
Proof.
  intros Vs Hm [l [P ->]]. split; [now apply im_numbers_ok|]. intros x. rewrite im_numbers_keys, <- (vec_data st x Vs).
  assert (In x (map fst l) <-> In x (map fst (sp_data st))).
  { split; intros i; eapply Permutation_in; try exact i; apply Permutation_map; [auto|now symmetry]. }
  intuition.
Qed.
Lemma collect_total (st : @sparse S) m : exists m', collect st m m'.
Proof. eexists. exists (sp_data st). split; reflexivity. Qed.

Definition op_of (e : list (list (gen I) * S)) (L : lop S) : Prop := canonical_monos io e /\ make_loperator io e h = LOk L.

Lemma step_spec e L from to ent : op_of e L -> vec from -> sparse_nz so to -> 2 ^ N.of_nat (total_bits (spaces h)) <= sp_size to ->
  sv_entries (sparse_sv so) from ent ->
  exists to', lop_apply_to so sq half (sparse_sv so) L ent to = Some to' /\ vec to' /\
    forall y, sparse_amp so to' y = ov e (sparse_amp so from) y.
Proof.
  intros [C E] Vf Ot St Ee. pose proof (C32_sparse S so (ll_ring _ _ _ LL)) as SS.
  destruct (apply_vec io Hio so sq half LL (sparse_sv so) (sparse_nz so) (sparse_amp so) sp_size SS h Hi HA IM bas HB e L from to ent C E Vf Ot St Ee)
    as [w [E1 [E2 [E3 E4]]]].
  exists w. split; auto.
Qed.
Lemma zero_ok (st : @sparse S) : vec st -> sparse_nz so (sparse_zero st) /\ 2 ^ N.of_nat (total_bits (spaces h)) <= sp_size (sparse_zero st).
Proof. intros [_ [B _]]. split; auto. split; [split|]; cbn; constructor. Qed.
Lemma empty_amp (st : @sparse S) : sparse_n_nonzeros st = 0%nat -> forall x, sparse_amp so st x = s_zero so.
Proof. unfold sparse_n_nonzeros, sparse_amp, dat_amp. intros E x. destruct (sp_data st); [reflexivity|discriminate]. Qed.

(** the inner loop *)
Notation loop L Ls := (fix loop (k : nat) (from to : @sparse S) (m m' : imap) : Prop :=
  match k with
  | O => m' = m
  | Datatypes.S k' =>
      exists ent to', sv_entries (sparse_sv so) from ent /\
        lop_apply_to so sq half (sparse_sv so) L ent to = Some to' /\
        (if (sparse_n_nonzeros to' =? 0)%nat then m' = m
         else exists m3, compositions so sq half Ls k' to' m m3 /\ loop k' to' to' m3 m')
  end).

Definition reached (es : list (list (list (gen I) * S))) (k : nat) (f : N -> S) (x : N) : Prop :=
  exists ns, composition_of (length es) k ns /\ faf es ns f x <> s_zero so.

Lemma reached_cons e es k f x : reached (e :: es) k f x <-> exists j, (j <= k)%nat /\ reached es (k - j) (opow e j f) x.
Proof.
  split.
  - intros [ns [[A B] H]]. destruct ns as [|n ns]; [discriminate|]. rewrite list_sum_cons in B. cbn in A, H. exists n. split; [lia|]. exists ns. split; auto. split; lia.
  - intros [j [hj [ns [[A B] H]]]]. exists (j :: ns). split; [split; [cbn; lia|rewrite list_sum_cons; lia]|exact H].
Qed.
Lemma reached_ext es k f g x : (forall y, f y = g y) -> reached es k f x -> reached es k g x.
Proof. intros H [ns [A B]]. exists ns. split; auto. rewrite <- (faf_ext es ns f g H x). auto. Qed.
Lemma reached_zero es k f x : (forall y, f y = s_zero so) -> ~ reached es k f x.
Proof. intros H [ns [A B]]. apply B. now apply faf_0. Qed.
Lemma reached_0 es f x : reached es 0 f x <-> f x <> s_zero so.
Proof.
  split.
  - intros [ns [[A B] H]]. now rewrite faf_zeros in H.
  - intros H. exists (repeat 0%nat (length es)). assert (Z : list_sum (repeat 0%nat (length es)) = 0%nat) by (induction (length es); cbn; auto).
    split; [split; [apply repeat_length|exact Z]|]. now rewrite faf_zeros.
Qed.

Lemma compositions_spec es Ls : Forall2 op_of es Ls -> forall k st m m', vec st -> im_ok m ->
  compositions so sq half Ls k st m m' -> im_ok m' /\
  forall x, In x (map fst m') <-> In x (map fst m) \/ reached es k (sparse_amp so st) x.
Proof.
  induction 1 as [|e L es Ls He F IH]; intros k st m m' Vs Hm C.
  - cbn [compositions] in C. destruct C as [m1 [C ->]]. destruct (Nat.eqb_spec k 0) as [->|ne].
    + destruct (collect_spec st m m1 Vs Hm C) as [A B]. split; auto. intros x. now rewrite B, reached_0.
    + subst m1. split; auto. intros x. split; auto. intros [i|[ns [[A B] _]]]; auto. destruct ns; [cbn in B; lia|discriminate].
  - cbn [compositions] in C. destruct C as [m1 [C [m2 [C2 C3]]]].
    assert (H1 : im_ok m1 /\ forall x, In x (map fst m1) <-> In x (map fst m) \/ (k = 0%nat /\ sparse_amp so st x <> s_zero so)).
    { destruct (Nat.eqb_spec k 0) as [->|ne].
      - destruct (collect_spec st m m1 Vs Hm C) as [A B]. split; auto. intros x. rewrite B. intuition.
      - subst m1. split; auto. intros x. intuition. }
    destruct H1 as [Hm1 K1]. destruct (IH k st m1 m2 Vs Hm1 C2) as [Hm2 K2].
    assert (LP : forall k from to m m', vec from -> sparse_nz so to -> 2 ^ N.of_nat (total_bits (spaces h)) <= sp_size to -> im_ok m ->
      loop L Ls k from to m m' -> im_ok m' /\ forall x, In x (map fst m') <-> In x (map fst m) \/
        exists j, (1 <= j <= k)%nat /\ reached es (k - j) (opow e j (sparse_amp so from)) x).
    { clear - IH He LL HB Hi HA IM Hio. induction k as [|k IHk]; intros from to m m' Vf Ot St Hm C.
      - subst m'. split; auto. intros x. split; auto. intros [i|[j [hj _]]]; auto. lia.
      - destruct C as [ent [to' [Ee [Ea C]]]].
        destruct (step_spec e L from to ent He Vf Ot St Ee) as [to2 [E2 [V2 A2]]]. rewrite E2 in Ea. inversion Ea; subst to2. clear Ea.
        assert (SH : forall j x, opow e (Datatypes.S j) (sparse_amp so from) x = opow e j (sparse_amp so to') x).
        { intros j x. rewrite opow_S. apply opow_ext. intros y. now rewrite A2. }
        destruct (Nat.eqb_spec (sparse_n_nonzeros to') 0) as [Z|NZ].
        + subst m'. split; auto. intros x. split; auto. intros [i|[j [hj R]]]; auto. exfalso. destruct j as [|j]; [lia|].
          eapply reached_zero; [|exact R]. intros y. rewrite SH. apply opow_0. now apply empty_amp.
        + destruct C as [m3 [C3 C4]]. destruct (IH k to' m m3 V2 Hm C3) as [Hm3 K3].
          pose proof V2 as [O2 [B2 _]].
          destruct (IHk to' to' m3 m' V2 O2 B2 Hm3 C4) as [Hm' K4]. split; auto. intros x. rewrite K4, K3. split.
          * intros [[i|R]|[j [hj R]]]; auto.
            -- right. exists 1%nat. split; [lia|]. replace (Datatypes.S k - 1)%nat with k by lia.
               eapply reached_ext; [|exact R]. intros y. now rewrite SH.
            -- right. exists (Datatypes.S j). split; [lia|]. replace (Datatypes.S k - Datatypes.S j)%nat with (k - j)%nat by lia.
               eapply reached_ext; [|exact R]. intros y. now rewrite SH.
          * intros [i|[j [hj R]]]; auto. destruct j as [|j]; [lia|]. replace (Datatypes.S k - Datatypes.S j)%nat with (k - j)%nat in R by lia.
            assert (R' : reached es (k - j) (opow e j (sparse_amp so to')) x) by (eapply reached_ext; [|exact R]; intros y; now rewrite SH).
            destruct j as [|j].
            -- left. right. now rewrite Nat.sub_0_r in R'.
            -- right. exists (Datatypes.S j). split; [lia|auto]. }
    destruct (zero_ok st Vs) as [Oz Bz].
    destruct (LP k st (sparse_zero st) m2 m' Vs Oz Bz Hm2 C3) as [Hm' K3]. split; auto. intros x. rewrite K3, K2, K1, reached_cons. split.
    + intros [[[i|[-> i]]|R]|[j [hj R]]]; auto.
      * right. exists 0%nat. split; [lia|]. now apply reached_0.
      * right. exists 0%nat. split; [lia|]. now rewrite Nat.sub_0_r.
      * right. exists j. split; [lia|auto].
    + intros [i|[j [hj R]]]; auto. destruct j as [|j].
      * left. right. now rewrite Nat.sub_0_r in R.
      * right. exists (Datatypes.S j). split; [lia|auto].
Qed.

Lemma entries_exist (st : @sparse S) : exists ent, sv_entries (sparse_sv so) st ent.
Proof. exists (sp_data st). cbn. reflexivity. Qed.
Lemma compositions_total es Ls : Forall2 op_of es Ls -> forall k st m, vec st -> exists m', compositions so sq half Ls k st m m'.
Proof.
  induction 1 as [|e L es Ls He F IH]; intros k st m Vs; cbn [compositions].
  - destruct (Nat.eqb k 0).
    + destruct (collect_total st m) as [m1 C]. eauto.
    + eauto.
  - assert (E1 : exists m1, if (k =? 0)%nat then collect st m m1 else m1 = m) by (destruct (Nat.eqb k 0); [apply collect_total|eauto]).
    destruct E1 as [m1 C1]. destruct (IH k st m1 Vs) as [m2 C2].
    assert (LP : forall k from to m, vec from -> sparse_nz so to -> 2 ^ N.of_nat (total_bits (spaces h)) <= sp_size to ->
      exists m', loop L Ls k from to m m').
    { clear - IH He LL HB Hi HA IM Hio. induction k as [|k IHk]; intros from to m Vf Ot St; [eauto|].
      destruct (entries_exist from) as [ent Ee]. destruct (step_spec e L from to ent He Vf Ot St Ee) as [to' [E2 [V2 A2]]].
      destruct (Nat.eqb (sparse_n_nonzeros to') 0) eqn:Z.
      - exists m, ent, to'. rewrite Z. auto.
      - destruct (IH k to' m V2) as [m3 C3]. pose proof V2 as [O2 [B2 _]]. destruct (IHk to' to' m3 V2 O2 B2) as [m' C4].
        exists m', ent, to'. rewrite Z. eauto. }
    destruct (zero_ok st Vs) as [Oz Bz]. destruct (LP k st (sparse_zero st) m2 Vs Oz Bz) as [m' C3]. exists m', m1. split; auto. exists m2. auto.
Qed.

(** the vacuum *)
Lemma vac_vec dim : s_one so <> s_zero so -> hs_vec_size h = Some dim -> vec (vac so dim) /\ forall x, sparse_amp so (vac so dim) x = vacuum so x.
Proof.
  intros N1 E. pose proof Hi as [S0 [W [P [En [B _]]]]].
  assert (Ed : dim = 2 ^ N.of_nat (total_bits (spaces h))).
  { unfold hs_vec_size, hs_total_n_bits, pow2 in E. rewrite En in E.
    replace (Z.to_nat (Z.of_nat (total_bits (spaces h)) - 1 + 1)) with (total_bits (spaces h)) in E by lia.
    destruct (Nat.ltb_spec (total_bits (spaces h)) 64); [|lia]. now inversion E. }
  assert (A : forall x, sparse_amp so (vac so dim) x = vacuum so x).
  { intros x. unfold sparse_amp, dat_amp, vac, vacuum. cbn. destruct (N.eqb_spec x 0); reflexivity. }
  split; auto. split; [|split].
  - unfold vac, sparse_assign, sparse_nz, sparse_ok. cbn [sp_data sp_size sp_set map fst snd]. split; [split|].
    + repeat constructor. intros [].
    + repeat constructor. cbn [fst]. rewrite Ed. apply pow_pos.
    + constructor; [exact N1|constructor].
  - cbn. lia.
  - intros x. rewrite A. unfold vacuum. destruct (N.eqb_spec x 0) as [->|]; [|congruence]. intros _. split; [apply pow_pos|].
    intros k e Hk. unfold bit_field. rewrite N.shiftr_0_l, N.mod_0_l by (pose proof (pow_pos (es_nbits e)); lia).
    apply wf_dim. rewrite Forall_forall in W. apply W. eapply nth_error_In; eauto.
Qed.

(** operators that commute *)
Definition commute (e e' : list (list (gen I) * S)) : Prop := forall f y, ov e (ov e' f) y = ov e' (ov e f) y.
Lemma opow_comm1 e e' n : commute e e' -> forall f y, ov e (opow e' n f) y = opow e' n (ov e f) y.
Proof.
  intros C. induction n as [|n IH]; intros f y; [reflexivity|].
  change (opow e' (Datatypes.S n) f) with (ov e' (opow e' n f)). change (opow e' (Datatypes.S n) (ov e f)) with (ov e' (opow e' n (ov e f))).
  rewrite C. apply ov_ext. intros x. apply IH.
Qed.
Lemma opow_comm e e' n n' : commute e e' -> forall f y, opow e n (opow e' n' f) y = opow e' n' (opow e n f) y.
Proof.
  intros C. induction n as [|n IH]; intros f y; [reflexivity|]. rewrite !opow_S.
  rewrite <- (IH (ov e f) y). apply opow_ext. intros x. now apply opow_comm1.
Qed.
Lemma faf_opow es e n : Forall (commute e) es -> forall ns f y, faf es ns (opow e n f) y = opow e n (faf es ns f) y.
Proof.
  induction 1 as [|e' es C F IH]; intros [|n' ns] f y; cbn [first_acts_first]; auto.
  rewrite <- IH. apply faf_ext. intros x. symmetry. now apply opow_comm.
Qed.
Lemma faf_laf es : ForallOrdPairs commute es -> forall ns f y, faf es ns f y = laf es ns f y.
Proof.
  induction 1 as [|e es C F IH]; intros [|n ns] f y; cbn [first_acts_first last_acts_first]; auto.
  rewrite faf_opow by auto. apply opow_ext. intros x. apply IH.
Qed.
End Mapper.
