(** * C89: partitioning a Hilbert space with a linear operator and working in
    the subspaces (the workflow of examples/partition.cpp).
    Vocabulary: PartLSpec.v, SPSpec.v, LOpSpec.v (mel), ViewSpec.v. *)
From Coq Require Import NArith ZArith Lia List Bool Permutation Relations Sorted Reals Lra.
From Verif Require Import DSModel DSSpec DSProofs SPModel SPSpec SPProofs SPMerge SPMain PropSP.
From Verif Require Import BitsModel BitsSpec BitsProofs ExprModel ExprSpec ExprOrder ExprEval ExprInst PropFactories
  HSModel HSSpec HSEnum HSProofs HSMain PropHS LOpModel LOpSpec LOpFermion LOpSite LOpActF LOpActB LOpActS LOpComm LOpApply LOpMatrix LOpMain LOpReal
  PropLOp2 PropLOp3 ViewModel ViewSpec ViewProofs ViewMapper PropView PropCut
  PartLModel PartLSpec.
Import ListNotations.
Close Scope Qc_scope.
Close Scope Q_scope.
Close Scope Z_scope.
Close Scope R_scope.
Close Scope nat_scope.
Open Scope N_scope.
Open Scope list_scope.

Section Bridge.
Context {I S : Type} (io : index_ops I) (so : scalar_ops S) (sq : N -> S) (half : Z -> S).
Context (Hio : index_order io) (LL : lop_laws so sq half) (NT : s_one so <> s_zero so).
Context (h : hspace I) (Fr : hs_fresh io h) (IM : Forall int_mult (spaces h)) (bas : list N) (HB : basis_of (spaces h) bas).
Notation l := (spaces h).
Notation d := (2 ^ N.of_nat (total_bits (spaces h))).
Notation M := (mel io so sq half (spaces h)).
Let L := ll_ring _ _ _ LL.
Let SS := C32_sparse S so L.

Lemma bv_state x : valid_state l x -> state_of so (sparse_nz so) (sparse_amp so) sp_size l (sparse_assign (mk_sparse d []) x (s_one so)) /\
  forall y, sparse_amp so (sparse_assign (mk_sparse d []) x (s_one so)) y = if x =? y then s_one so else s_zero so.
Proof.
  intros V. assert (A : forall y, sparse_amp so (sparse_assign (mk_sparse d []) x (s_one so)) y = if x =? y then s_one so else s_zero so).
  { intros y. unfold sparse_amp, dat_amp, sparse_assign. cbn. rewrite N.eqb_sym. destruct (x =? y); reflexivity. }
  assert (X : x < d).
  { pose proof (reachable_inv io Hio h (fresh_reachable io h Fr)) as Hi. exact (proj1 V). }
  split; [|exact A]. split; [|split].
  - split; [|constructor; [exact NT|constructor]]. split; cbn; [constructor; [intros []|constructor]|constructor; [exact X|constructor]].
  - cbn. lia.
  - intros y Hy. rewrite A in Hy. destruct (N.eqb_spec x y) as [q|]; [rewrite <- q; exact V|contradiction].
Qed.

(** *** what is visited are the non-zero matrix elements of one column *)
Lemma column e Lp x : canonical_expr io so e -> make_loperator io e h = LOk Lp -> valid_state l x ->
  (exists ll, visited so sq half Lp d x ll) /\
  forall ll, visited so sq half Lp d x ll -> NoDup (map fst ll) /\
    forall y a, In (y, a) ll <-> a = M e y x /\ a <> s_zero so.
Proof.
  intros C E V. destruct (bv_state x V) as [St A]. pose proof C as [_ C']. 
  pose proof (reachable_inv io Hio h (fresh_reachable io h Fr)) as Hi. pose proof (fresh_algs io Hio h Fr) as HA.
  assert (Cm : canonical_monos io e) by (intros m c i; exact (proj1 (C' m c i))).
  set (v := sparse_assign (mk_sparse d []) x (s_one so)) in *.
  assert (O0 : sparse_nz so (mk_sparse d [])) by (split; [split; constructor|constructor]).
  assert (K : forall ent, sv_entries (sparse_sv so) v ent -> exists w,
     (forall prev, lop_apply_to so sq half (sparse_sv so) Lp ent (mk_sparse d prev) = Some w) /\ sparse_nz so w /\ forall y, sparse_amp so w y = M e y x).
  { intros ent Ee.
    destruct (apply_vec io Hio so sq half LL (sparse_sv so) _ _ _ SS h Hi HA IM bas HB e Lp v (mk_sparse d []) ent Cm E St O0 ltac:(cbn; lia) Ee)
      as [w [E1 [E2 [E3 E4]]]].
    exists w. split; [intros prev; exact E1|]. split; [apply E2|]. intros y. rewrite E4.
    rewrite (ssum_single so L bas x (fun x0 => s_mul so (M e y x0) (sparse_amp so v x0)) (proj1 HB) (proj2 (proj2 HB x) V)).
    - rewrite A, N.eqb_refl. apply (sl_mul_1_r so L).
    - intros z _ nz. rewrite A. destruct (N.eqb_spec x z); [congruence|]. apply (mul_0_r so L). }
  split.
  - destruct (svl_visits _ _ _ _ _ (svs_laws _ _ _ _ _ SS) v) as [ent Ee]. destruct (K ent Ee) as [w [E1 _]].
    destruct (svl_visits _ _ _ _ _ (svs_laws _ _ _ _ _ SS) w) as [ll El]. exists ll, [], ent, w. auto.
  - intros ll [prev [ent [w [Ee [Ew El]]]]]. destruct (K ent Ee) as [w' [E1 [E2 E3]]]. rewrite E1 in Ew. injection Ew as <-.
    destruct (svl_entries _ _ _ _ _ (svs_laws _ _ _ _ _ SS) w' ll E2 El) as [Q1 [Q2 [Q3 Q4]]]. split; [exact Q1|].
    intros y a. split.
    + intros i. split; [rewrite <- E3; now apply Q3|]. exact (svs_nonzero _ _ _ _ _ SS w' ll y a E2 El i).
    + intros [-> nz]. rewrite <- E3 in nz. pose proof (Q4 y nz) as i. apply in_map_iff in i. destruct i as [[y' a] [Ey i]]. cbn in Ey. subst y'.
      rewrite <- E3, <- (Q3 y a i). exact i.
Qed.

Lemma nat_in (ll : list (N * S)) y a : In (N.to_nat y, a) (nat_entries ll) <-> In (y, a) ll.
Proof.
  unfold nat_entries. rewrite in_map_iff. split.
  - intros [[z b] [E i]]. cbn in E. injection E as E1 <-. apply N2Nat.inj in E1. now subst.
  - intros i. exists (y, a). auto.
Qed.
Lemma nat_states x : In (N.to_nat x) (map N.to_nat bas) <-> In x bas.
Proof.
  rewrite in_map_iff. split; [intros [z [E i]]; apply N2Nat.inj in E; now subst|]. intros i. now exists x.
Qed.
Lemma states_lt x : In x (map N.to_nat bas) -> (x < N.to_nat d)%nat.
Proof. intros i. apply in_map_iff in i. destruct i as [z [<- i]]. apply HB in i. pose proof (proj1 i). lia. Qed.

Lemma seen_on e Lp op : canonical_expr io so e -> make_loperator io e h = LOk Lp -> seen_as so sq half Lp d bas op ->
  op_on (map N.to_nat bas) op /\
  forall x, In x bas -> forall y a, In (N.to_nat y, a) (op (N.to_nat x)) <-> a = M e y x /\ a <> s_zero so.
Proof.
  intros C E Se.
  assert (K : forall x, In x bas -> forall y a, In (N.to_nat y, a) (op (N.to_nat x)) <-> a = M e y x /\ a <> s_zero so).
  { intros x ix y a. destruct (Se x ix) as [ll [V ->]]. rewrite nat_in. apply (column e Lp x C E (proj1 (proj2 HB x) ix)). exact V. }
  split; [|exact K]. intros n i. apply in_map_iff in i. destruct i as [x [<- ix]]. split.
  - destruct (Se x ix) as [ll [V ->]]. pose proof (proj1 (proj2 (column e Lp x C E (proj1 (proj2 HB x) ix)) ll V)) as ND.
    unfold nat_entries. rewrite map_map. cbn [fst]. rewrite <- (map_map fst N.to_nat).
    apply FinFun.Injective_map_NoDup; [|exact ND]. intros a b. apply N2Nat.inj.
  - intros y [a i]. rewrite <- (Nat2N.id y) in i. apply K in i; [|exact ix]. destruct i as [-> nz].
    rewrite <- (Nat2N.id y). apply nat_states. apply HB.
    pose proof (reachable_inv io Hio h (fresh_reachable io h Fr)) as Hi.
    eapply (mel_valid io); [..|exact nz]; auto. now apply HB.
Qed.
Lemma seen_links e Lp op x y : canonical_expr io so e -> make_loperator io e h = LOk Lp -> seen_as so sq half Lp d bas op -> In x bas ->
  links op (N.to_nat x) (N.to_nat y) <-> M e y x <> s_zero so.
Proof.
  intros C E Se ix. destruct (seen_on e Lp op C E Se) as [_ K]. split.
  - intros [a i]. apply K in i; [|exact ix]. destruct i as [-> nz]. exact nz.
  - intros nz. exists (M e y x). apply K; auto.
Qed.
Lemma seen_exists e Lp : canonical_expr io so e -> make_loperator io e h = LOk Lp -> exists op, seen_as so sq half Lp d bas op.
Proof.
  intros C E. assert (K : forall x, In x bas -> exists ll, visited so sq half Lp d x ll).
  { intros x ix. apply (column e Lp x C E (proj1 (proj2 HB x) ix)). }
  unfold seen_as. clear HB. revert K. generalize bas. intros b K. induction b as [|z b IH].
  - exists (fun _ => []). intros x [].
  - destruct IH as [op H]; [intros x i; apply K; now right|]. destruct (K z (or_introl eq_refl)) as [ll V].
    exists (fun n => if Nat.eqb n (N.to_nat z) then nat_entries ll else op n). intros x i.
    destruct (Nat.eqb_spec (N.to_nat x) (N.to_nat z)) as [q|q].
    + apply N2Nat.inj in q. subst. exists ll. auto.
    + destruct i as [->|i]; [congruence|]. now apply H.
Qed.
Lemma coupled_connected e Lp op : canonical_expr io so e -> make_loperator io e h = LOk Lp -> seen_as so sq half Lp d bas op ->
  forall x y, h_connected (map N.to_nat bas) op (N.to_nat x) (N.to_nat y) <-> coupled io so sq half l e x y.
Proof.
  intros C E Se x y. split.
  - intros H. rewrite <- (N2Nat.id x), <- (N2Nat.id y). induction H as [a b [ia H]| |a b H IH|a b c H1 IH1 H2 IH2].
    + apply rst_step. apply in_map_iff in ia. destruct ia as [z [<- iz]]. rewrite N2Nat.id. split; [now apply HB|].
      apply (seen_links e Lp op z (N.of_nat b) C E Se iz). now rewrite Nat2N.id.
    + apply rst_refl.
    + now apply rst_sym.
    + eapply rst_trans; eauto.
  - intros H. induction H as [a b [va H]| |a b H IH|a b c H1 IH1 H2 IH2].
    + apply rst_step. apply HB in va. split; [now apply nat_states|]. now apply (seen_links e Lp op a b C E Se va).
    + apply rst_refl.
    + now apply rst_sym.
    + eapply rst_trans; eauto.
Qed.
End Bridge.

(** The situation of the following theorems: a Hilbert space, its vector size and
    the basis states visited by foreach (in any order; C22). *)
Definition setting {I S} (io : index_ops I) (so : scalar_ops S) sq half (h : hspace I) (d : N) (bas : list N) : Prop :=
  index_order io /\ lop_laws so sq half /\ s_one so <> s_zero so /\ hs_fresh io h /\ Forall int_mult (spaces h) /\
  hs_vec_size h = Some d /\ basis_of (spaces h) bas.
Lemma setting_d {I S} (io : index_ops I) (so : scalar_ops S) sq half (h : hspace I) d bas :
  setting io so sq half h d bas -> d = 2 ^ N.of_nat (total_bits (spaces h)).
Proof.
  intros (Hio & _ & _ & Fr & _ & V & _). destruct (C20_dimensions io h Hio (fresh_reachable io h Fr)) as [_ [V' _]].
  rewrite V in V'. now injection V'.
Qed.

Section Theorems.
Context {I S : Type} (io : index_ops I) (so : scalar_ops S) (sq : N -> S) (half : Z -> S) (h : hspace I) (d : N) (bas : list N).
Notation M := (mel io so sq half (spaces h)).
Notation ns := (map N.to_nat bas).
(** every non-zero matrix element of e stays inside of a subspace *)
Definition invariant (e : list (list (gen I) * S)) (sp : space_partition) : Prop :=
  forall x y, valid_state (spaces h) x -> M e y x <> s_zero so -> subspace_of sp y = subspace_of sp x.

(** The constructor: the subspaces are the classes of basis states coupled by
    non-zero matrix elements of the operator, and exactly these matrix elements
    are stored.  [op] is what the loops of the constructor visit, in any order of
    the unordered_map. *)
Theorem C89_partition : forall e Lp, setting io so sq half h d bas -> lop_of io so h e Lp ->
  (exists op, seen_as so sq half Lp d bas op) /\
  forall op, seen_as so sq half Lp d bas op -> exists sp me, sp_construct (N.to_nat d) ns op [] = Some (sp, me) /\
    sp_reachable (A := S) (N.to_nat d) ns sp /\ invariant e sp /\
    (forall x y, In x bas -> In y bas -> (subspace_of sp x = subspace_of sp y <-> coupled io so sq half (spaces h) e x y)) /\
    (forall x y, In x bas -> (M e y x <> s_zero so -> me_find me (N.to_nat y, N.to_nat x) = Some (M e y x)) /\
       (M e y x = s_zero so -> me_find me (N.to_nat y, N.to_nat x) = None)).
Proof.
  intros e Lp Set_ [C E]. pose proof (setting_d _ _ _ _ _ _ _ Set_) as ->. destruct Set_ as (Hio & LL & NT & Fr & IM & _ & HB).
  split; [exact (seen_exists io so sq half Hio LL NT h Fr IM bas HB e Lp C E)|]. intros op Se.
  destruct (seen_on io so sq half Hio LL NT h Fr IM bas HB e Lp op C E Se) as [On K].
  pose proof (states_lt h bas HB) as Hlt.
  destruct (C49_constructor_succeeds S _ ns op [] Hlt On) as [sp [me [Es _]]]. exists sp, me.
  split; [exact Es|]. split; [exact (sr_new _ _ op [] sp me On Es)|].
  assert (IFF : forall x y, In x bas -> In y bas -> (subspace_of sp x = subspace_of sp y <-> coupled io so sq half (spaces h) e x y)).
  { intros x y ix iy. unfold subspace_of.
    rewrite (C49_subspaces_are_components S _ ns op [] sp me Hlt On Es (N.to_nat x) (N.to_nat y)) by (now apply nat_states).
    exact (coupled_connected io so sq half Hio LL NT h Fr IM bas HB e Lp op C E Se x y). }
  split; [|split; [exact IFF|]].
  - intros x y vx nz. symmetry. apply IFF; [now apply HB| |apply rst_step; auto].
    apply HB. pose proof (reachable_inv io Hio h (fresh_reachable io h Fr)) as Hi. eapply (mel_valid io); [..|exact nz]; auto.
  - intros x y ix. destruct (C49_matrix_elements S _ ns op [] sp me On Es (N.to_nat x) (N.to_nat y)) as [Q1 Q2]. split.
    + intros nz. apply Q1; [now apply nat_states|]. apply K; auto.
    + intros z. rewrite Q2; [reflexivity|]. intros [_ lk].
      apply (seen_links io so sq half Hio LL NT h Fr IM bas HB e Lp op x y C E Se ix) in lk. contradiction.
Qed.

(** merge_subspaces(Cd, C): it returns the non-zero matrix elements of the two
    operators, and subspaces stay invariant. *)
Theorem C89_merge : forall sp e1 L1 e2 L2 op1 op2, setting io so sq half h d bas -> sp_reachable (A := S) (N.to_nat d) ns sp ->
  lop_of io so h e1 L1 -> lop_of io so h e2 L2 -> seen_as so sq half L1 d bas op1 -> seen_as so sq half L2 d bas op2 ->
  exists sp' m1 m2, merge_subspaces sp op1 op2 true = Some (sp', m1, m2) /\ sp_reachable (A := S) (N.to_nat d) ns sp' /\
    (forall e, invariant e sp -> invariant e sp') /\
    (forall x y, In x bas ->
       me_find m1 (N.to_nat y, N.to_nat x) = (if s_is_zero so (M e1 y x) then None else Some (M e1 y x)) /\
       me_find m2 (N.to_nat y, N.to_nat x) = (if s_is_zero so (M e2 y x) then None else Some (M e2 y x))).
Proof.
  intros sp e1 L1 e2 L2 op1 op2 Set_ Rc [C1 E1] [C2 E2] Se1 Se2. pose proof (setting_d _ _ _ _ _ _ _ Set_) as ->.
  destruct Set_ as (Hio & LL & NT & Fr & IM & _ & HB). pose proof (ll_ring _ _ _ LL) as L.
  destruct (seen_on io so sq half Hio LL NT h Fr IM bas HB e1 L1 op1 C1 E1 Se1) as [On1 K1].
  destruct (seen_on io so sq half Hio LL NT h Fr IM bas HB e2 L2 op2 C2 E2 Se2) as [On2 K2].
  pose proof (states_lt h bas HB) as Hlt.
  destruct (C50_merge_coarsens_minimally S _ ns sp op1 op2 true Hlt Rc On1 On2) as [sp' [m1 [m2 [Em [Co _]]]]].
  exists sp', m1, m2. split; [exact Em|]. split; [exact (sr_merge _ _ sp op1 op2 true sp' m1 m2 Rc On1 On2 Em)|]. split.
  - intros e Inv x y vx nz. unfold subspace_of. apply Co; [| |exact (Inv x y vx nz)]; apply nat_states; apply HB; [|exact vx].
    pose proof (reachable_inv io Hio h (fresh_reachable io h Fr)) as Hi. eapply (mel_valid io); [..|exact nz]; auto.
  - intros x y ix. destruct (C50_merge_matrix_elements S _ ns sp op1 op2 true sp' m1 m2 Hlt Rc On1 On2 Em) as [_ Q].
    destruct (Q eq_refl (N.to_nat x) (N.to_nat y)) as [Q1 [Q2 [Q3 Q4]]].
    assert (IX : In (N.to_nat x) ns) by now apply nat_states. split.
    + destruct (s_is_zero so (M e1 y x)) eqn:Z.
      * apply (sl_is_zero so L) in Z. apply Q2. intros [_ lk]. apply (seen_links io so sq half Hio LL NT h Fr IM bas HB e1 L1 op1 x y C1 E1 Se1 ix) in lk. contradiction.
      * apply Q1; [exact IX|]. apply K1; auto. split; auto. intros Q0. apply (sl_is_zero so L) in Q0. congruence.
    + destruct (s_is_zero so (M e2 y x)) eqn:Z.
      * apply (sl_is_zero so L) in Z. apply Q4. intros [_ lk]. apply (seen_links io so sq half Hio LL NT h Fr IM bas HB e2 L2 op2 x y C2 E2 Se2 ix) in lk. contradiction.
      * apply Q3; [exact IX|]. apply K2; auto. split; auto. intros Q0. apply (sl_is_zero so L) in Q0. congruence.
Qed.

(** The operator is block diagonal: to compute an amplitude of a state of a
    subspace one needs the amplitudes of that subspace only. *)
Theorem C89_blocks : forall sp e v y b, lop_laws so sq half -> basis_of (spaces h) bas -> invariant e sp ->
  NoDup b -> (forall x, In x b <-> In x bas /\ subspace_of sp x = subspace_of sp y) ->
  ssum so (fun x => s_mul so (M e y x) (v x)) bas = ssum so (fun x => s_mul so (M e y x) (v x)) b.
Proof.
  intros sp e v y b LL HB Inv ND Hb. pose proof (ll_ring _ _ _ LL) as L. apply (ssum_part so L); [exact ND|apply HB| |].
  - intros x i. now apply Hb.
  - intros x ix nx. destruct (s_is_zero so (M e y x)) eqn:Z.
    + apply (sl_is_zero so L) in Z. rewrite Z. apply (mul_0_l so L).
    + exfalso. apply nx. apply Hb. split; [exact ix|]. symmetry. apply Inv; [now apply HB|].
      intros Q. apply (sl_is_zero so L) in Q. congruence.
Qed.

Lemma ssum_row (f g : N -> S) : forall b psi, length psi = length b ->
  (forall i x a, nth_error b i = Some x -> nth_error psi i = Some a -> g x = a) ->
  ssum so (fun x => s_mul so (f x) (g x)) b = row so f b psi.
Proof.
  induction b as [|x b IH]; intros [|a psi] El H; try discriminate; [reflexivity|]. cbn [ssum row]. f_equal.
  - now rewrite (H 0%nat x a eq_refl eq_refl).
  - apply IH; [now injection El|]. intros i y c E1 E2. exact (H (Datatypes.S i) y c E1 E2).
Qed.
Lemma mapper_lt (b : list N) x k : NoDup b -> In (x, k) (mapper_of_list b) -> In x b /\ k < N.of_nat (length b).
Proof.
  intros ND i. unfold mapper_of_list in i. rewrite (im_numbers_new b []) in i by exact ND. cbn [app length] in i. split.
  - now apply in_combine_l in i.
  - apply in_combine_r in i. apply in_map_iff in i. destruct i as [j [<- i]]. apply in_seq in i. lia.
Qed.

(** Working in a subspace through mapped views: if no two monomials of e cancel
    each other in a matrix element, applying the operator throws nothing and
    multiplies the small vector by the block of the matrix. *)
Theorem C89_view : forall sp e Lp k sp1 b psi phi, setting io so sq half h d bas -> sp_reachable (A := S) (N.to_nat d) ns sp ->
  lop_of io so h e Lp -> invariant e sp -> no_cancellation io so sq half (spaces h) e ->
  subspace_basis sp k = Some (sp1, b) -> length psi = length b -> length phi = length b ->
  let states := map N.of_nat b in let m := mapper_of_list states in
  (exists ent, mv_foreach so (dense_sv so) m psi ent) /\
  forall ent, mv_foreach so (dense_sv so) m psi ent ->
    exists w, lop_apply_to so sq half (mapped_sv so (dense_sv so) m) Lp ent (Live phi) = Some (Live w) /\ length w = length b /\
      forall j y, nth_error states j = Some y -> nth_error w j = Some (row so (M e y) states psi).
Proof.
  intros sp e Lp k sp1 b psi phi Set_ Rc [C E] Inv NC Eb El1 El2 states m. pose proof (setting_d _ _ _ _ _ _ _ Set_) as Ed.
  destruct Set_ as (Hio & LL & NT & Fr & IM & _ & HB). pose proof (ll_ring _ _ _ LL) as L.
  assert (Hlt : forall x, In x ns -> (x < N.to_nat d)%nat) by (subst d; exact (states_lt h bas HB)).
  destruct (C52_subspace_bases_partition S _ ns sp Hlt Rc) as [sp2 [bases [Ebs [Lb [K1 K2]]]]].
  assert (Hk : (k < length bases)%nat).
  { rewrite Lb. destruct (Nat.lt_ge_cases k (n_subspaces sp)); auto. rewrite K2 in Eb by assumption. discriminate. }
  destruct (nth_error bases k) as [b'|] eqn:En; [|apply nth_error_None in En; lia].
  destruct (K1 k b' En) as [Hb [[ff Hf] [sp3 Eb']]]. rewrite Eb in Eb'. injection Eb' as _ <-.
  assert (NDn : NoDup ns) by (apply FinFun.Injective_map_NoDup; [intros ? ? Q; now apply N2Nat.inj|apply HB]).
  assert (NDb : NoDup b) by (rewrite Hf; now apply NoDup_filter).
  assert (NDs : NoDup states) by (apply FinFun.Injective_map_NoDup; [intros ? ? Q; now apply Nat2N.inj|exact NDb]).
  assert (INs : forall x, In x states <-> In x bas /\ subspace_of sp x = Some k).
  { intros x. unfold states. rewrite in_map_iff. split.
    - intros [z [<- i]]. apply Hb in i. destruct i as [i1 i2]. unfold subspace_of. rewrite Nat2N.id. split; [|exact i2].
      apply nat_states. now rewrite Nat2N.id.
    - intros [i1 i2]. exists (N.to_nat x). split; [apply N2Nat.id|]. apply Hb. split; [now apply nat_states|exact i2]. }
  assert (Ls : length states = length b) by apply map_length.
  destruct (C53_list states) as [Q1 Q2]. fold m in Q1, Q2.
  assert (OK : im_ok m) by (apply im_numbers_ok, im_ok_nil).
  assert (SV := dense_sv_laws so L).
  assert (VS : view_setup (fun _ : @dense S => True) dense_size (fun _ : @dense S => True) dense_size h m m psi phi).
  { split; [apply OK|]. split; [apply OK|]. split; [now apply im_ok_values|]. split; [|split].
    - intros x j i. apply mapper_lt in i; [|exact NDs]. destruct i as [i1 i2]. split; [apply HB; now apply INs in i1|]. unfold dense_size. rewrite El1. lia.
    - intros x j i. apply mapper_lt in i; [|exact NDs]. unfold dense_size. rewrite El2. lia.
    - auto. }
  assert (INM : forall x, im_at m x <> None <-> In x states) by exact Q1.
  destruct (C55_action io so sq half (dense_sv so) (fun _ => True) (dense_amp so) dense_size (dense_sv so) (fun _ => True) (dense_amp so) dense_size
    h e Lp bas m m psi phi Hio LL SV SV Fr IM C E HB VS) as [A1 A2].
  { intros x mm c kk y Sx im Em. assert (ix : In x states).
    { apply INM. intros Q. apply Sx. unfold view_amp. now rewrite Q. }
    destruct (N.eq_dec y x) as [q|ne]; [subst y; now apply INM|].
    apply INs in ix. destruct ix as [ix kx]. apply HB in ix. pose proof (NC x mm c kk y ix im Em ne) as nz.
    apply INM, INs. split.
    - apply HB. pose proof (reachable_inv io Hio h (fresh_reachable io h Fr)) as Hi. eapply (mel_valid io); [..|exact nz]; auto.
    - rewrite (Inv x y ix nz). exact kx. }
  split; [exact A1|]. intros ent Ee. destruct (A2 ent Ee) as [w [R [_ [Zw [Aw _]]]]]. exists w. split; [exact R|].
  assert (Lw : length w = length b) by (unfold dense_size in Zw; lia). split; [exact Lw|].
  intros j y Ej. pose proof (Q2 NDs j y Ej) as Em. pose proof (Aw y _ Em) as Ay. unfold dense_amp in Ay. rewrite Nat2N.id in Ay.
  assert (hj : (j < length w)%nat) by (rewrite Lw, <- Ls; apply nth_error_Some; congruence).
  rewrite (nth_error_nth' w (s_zero so) hj). f_equal. rewrite Ay.
  rewrite (ssum_part so L _ states bas NDs (proj1 HB)).
  - apply ssum_row; [lia|]. intros i x a Ei Ea. unfold view_amp. rewrite (Q2 NDs i x Ei). unfold dense_amp. rewrite Nat2N.id.
    now apply nth_error_nth.
  - intros x i. now apply INs.
  - intros x ix nx. unfold view_amp. destruct (im_at m x) eqn:Q; [|apply (mul_0_r so L)].
    exfalso. apply nx. apply INM. congruence.
Qed.
End Theorems.
Print Assumptions C89_partition.
Print Assumptions C89_merge.
Print Assumptions C89_blocks.
Print Assumptions C89_view.

(** Without the hypothesis on cancellations the comment of examples/partition.cpp
    ("No exception here because 'Hop' connects subspace 24 only to itself") is
    wrong: H = (c+_1 c_0 + c+_0 c_1)(1 - n_2) has no matrix element out of the
    subspace of the state |5> = c+_0 c+_2|0>, but the two terms of H lead to |6>
    and cancel only there: the view throws std::out_of_range. *)
Notation noroot := (fun _ : N => 0%Z).
Notation nohalf := (fun _ : Z => 0%Z).
Definition hs_three : hspace Z := Eval vm_compute in fst (hs_of_args ioZ [ESFermion 0%Z; ESFermion 1%Z; ESFermion 2%Z]).
Definition cf (b : bool) (i : Z) : list (list (gen Z) * Z) := [([GFermion b i], 1%Z)].
Definition ok_of (r : res (list (list (gen Z) * Z))) : list (list (gen Z) * Z) := match r with Ok e => e | _ => [] end.
Definition zmul_e a b := ok_of (e_mul (std_gen_ops ioZ) int_scalar_ops a b).
Definition zadd_e := e_add (std_gen_ops ioZ) int_scalar_ops.
Definition zsub_e := e_sub (std_gen_ops ioZ) int_scalar_ops.
Definition hop3 : list (list (gen Z) * Z) := Eval vm_compute in
  zmul_e (zadd_e (zmul_e (cf true 1) (cf false 0)) (zmul_e (cf true 0) (cf false 1)))
         (zsub_e [([], 1%Z)] (zmul_e (cf true 2) (cf false 2))).
Definition L_hop3 : lop Z := Eval vm_compute in match make_loperator ioZ hop3 hs_three with LOk L => L | _ => [] end.
Definition col3 (x : N) : list (N * Z) :=
  match lop_apply_to int_scalar_ops noroot nohalf (sparse_sv int_scalar_ops) L_hop3 [(x, 1%Z)] (mk_sparse 8 []) with Some w => sp_data w | None => [] end.
Definition op3 (n : nat) : list (nat * Z) := nat_entries (col3 (N.of_nat n)).
Definition bas3 : list N := [0; 1; 2; 3; 4; 5; 6; 7].

Theorem C89_view_refuted :
  (e_mul (std_gen_ops ioZ) int_scalar_ops (zadd_e (zmul_e (cf true 1) (cf false 0)) (zmul_e (cf true 0) (cf false 1)))
     (zsub_e [([], 1%Z)] (zmul_e (cf true 2) (cf false 2))) = Ok hop3 /\ make_loperator ioZ hop3 hs_three = LOk L_hop3 /\
   basis_of (spaces hs_three) bas3 /\ hs_vec_size hs_three = Some 8 /\ seen_as int_scalar_ops noroot nohalf L_hop3 8 bas3 op3) /\
  exists sp me sp1, sp_construct 8 (map N.to_nat bas3) op3 [] = Some (sp, me) /\
    subspace_basis sp 4 = Some (sp1, [5%nat]) /\
    (forall y, In y bas3 -> mel ioZ int_scalar_ops noroot nohalf (spaces hs_three) hop3 y 5 = 0%Z) /\
    let m := mapper_of_list [5] in
    (exists ent, mv_foreach int_scalar_ops (dense_sv int_scalar_ops) m [1%Z] ent) /\
    forall ent, mv_foreach int_scalar_ops (dense_sv int_scalar_ops) m [1%Z] ent ->
      exists w, lop_apply_to int_scalar_ops noroot nohalf (mapped_sv int_scalar_ops (dense_sv int_scalar_ops) m) L_hop3 ent (Live [0%Z]) = Some (Thrown w).
Proof.
  split.
  - split; [vm_compute; reflexivity|]. split; [vm_compute; reflexivity|]. split; [|split; [reflexivity|]].
    + assert (W : Forall es_wf (spaces hs_three)) by (repeat constructor).
      split; [repeat constructor; cbn; intuition discriminate|]. intros x. rewrite <- (basis_list_In _ W). reflexivity.
    + intros x i. exists (col3 x). split; [|unfold op3; now rewrite N2Nat.id].
      exists [], [(x, 1%Z)]. cbn in i. repeat destruct i as [<-|i]; [..|destruct i];
        (eexists; split; [apply Permutation_refl|]; split; [vm_compute; reflexivity|vm_compute; apply Permutation_refl]).
  - eexists. eexists. eexists. split; [vm_compute; reflexivity|]. split; [vm_compute; reflexivity|]. split; [|split].
    + intros y i. cbn in i. repeat destruct i as [<-|i]; [..|destruct i]; vm_compute; reflexivity.
    + exists [(5, 1%Z)], [(5, 0)]. split; [apply Permutation_refl|reflexivity].
    + intros ent [ps [P E]]. cbn in P. apply Permutation_sym, Permutation_length_1_inv in P. subst ps. vm_compute in E. injection E as <-.
      eexists. vm_compute. reflexivity.
Qed.
Print Assumptions C89_view_refuted.

(** The hypotheses of C89_partition and C89_view are met: reals, the space
    [hs_ex] of two fermions, a boson and a spin, the operator c+_0. *)
Lemma cre_no_cancellation : no_cancellation ioZ real_ops real_sq real_half (spaces hs_ex) (gen_expr real_ops (GFermion true 0%Z)).
Proof.
  intros x m c k y _ [Q|[]] E _. injection Q as <- <-. cbn [mel gen_expr]. rewrite E. cbn [amp1]. rewrite N.eqb_refl.
  assert (Hk : k <> 0%R).
  { cbn [mono_act LOpSpec.obind] in E. unfold gen_act in E. destruct (find_site ioZ (spaces hs_ex) 0 (GFermion true 0%Z)) as [[o e]|]; [|discriminate].
    destruct (bit_field x o (es_nbits e) =? 0); [|discriminate]. injection E as <- _. unfold sign.
    destruct (Nat.odd (weight (x mod 2 ^ N.of_nat o))); cbn; lra. }
  intros Q; revert Q.
  cbn. intros Q. lra.
Qed.
Example C89_ex : exists bas Lp op sp me, setting ioZ real_ops real_sq real_half hs_ex 128 bas /\
  lop_of ioZ real_ops hs_ex (gen_expr real_ops (GFermion true 0%Z)) Lp /\ seen_as real_ops real_sq real_half Lp 128 bas op /\
  sp_construct 128 (map N.to_nat bas) op [] = Some (sp, me) /\ sp_reachable (A := R) 128 (map N.to_nat bas) sp /\
  invariant ioZ real_ops real_sq real_half hs_ex (gen_expr real_ops (GFermion true 0%Z)) sp /\
  no_cancellation ioZ real_ops real_sq real_half (spaces hs_ex) (gen_expr real_ops (GFermion true 0%Z)) /\
  exists sp1 b, subspace_basis sp 0 = Some (sp1, b).
Proof.
  destruct C54_ex as (A1 & A2 & A3 & A4 & A5 & A6 & A7 & _).
  destruct (cre_lop 0%Z) as [Lp H0]; [destruct hs_ex_facts as [-> _]; cbn; auto|].
  set (bas := basis_list (spaces hs_ex)) in *.
  assert (Set_ : setting ioZ real_ops real_sq real_half hs_ex 128 bas) by exact (conj A1 (conj A2 (conj A3 (conj A4 (conj A5 (conj A7 A6)))))) .
  destruct (C89_partition ioZ real_ops real_sq real_half hs_ex 128 bas _ Lp Set_ H0) as [[op Se] K].
  destruct (K op Se) as [sp [me [E [Rc [Inv _]]]]]. exists bas, Lp, op, sp, me.
  split; [exact Set_|]. split; [exact H0|]. split; [exact Se|]. split; [exact E|]. split; [exact Rc|]. split; [exact Inv|].
  split; [exact cre_no_cancellation|].
  assert (Hlt : forall x, In x (map N.to_nat bas) -> (x < N.to_nat 128)%nat).
  { intros x i. apply (states_lt hs_ex bas A6) in i. destruct hs_ex_facts as [Q _]. rewrite Q in i. exact i. }
  destruct (C52_subspace_bases_partition R _ _ sp Hlt Rc) as [sp2 [bases [Ebs [Lb [K1 K2]]]]].
  destruct (nth_error bases 0) as [b|] eqn:En.
  - destruct (K1 0%nat b En) as [_ [_ [sp3 Eb]]]. eauto.
  - exfalso. apply nth_error_None in En. rewrite Lb in En.
    destruct (seen_on ioZ real_ops real_sq real_half A1 A2 A3 hs_ex A4 A5 bas A6 _ Lp op (proj1 H0) (proj2 H0)) as [On _].
    { destruct hs_ex_facts as [Q _]. rewrite Q. exact Se. }
    destruct (C49_numbering R _ _ op [] sp me Hlt On E) as [N1 _].
    assert (i0 : In 0 bas) by (unfold bas; destruct hs_ex_facts as [-> _]; vm_compute; auto).
    destruct (N1 (N.to_nat 0)) as [k [_ hk]]; [now apply nat_states|]. lia.
Qed.
