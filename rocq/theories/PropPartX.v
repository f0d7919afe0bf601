(** * C89 (continued): exactly when an operator throws in a subspace *)
From Coq Require Import NArith ZArith Lia List Bool Permutation Relations Sorted Reals Lra.
From Verif Require Import DSModel DSSpec DSProofs SPModel SPSpec SPProofs SPMerge SPMain PropSP.
From Verif Require Import BitsModel BitsSpec BitsProofs ExprModel ExprSpec ExprOrder ExprEval ExprInst PropFactories
  HSModel HSSpec HSEnum HSProofs HSMain PropHS LOpModel LOpSpec LOpFermion LOpSite LOpActF LOpActB LOpActS LOpComm LOpApply LOpMatrix LOpMain LOpReal
  PropLOp2 PropLOp3 ViewModel ViewSpec ViewProofs ViewMapper PropCut
  PartLModel PartLSpec ViewExact PropView LOpFaithful2 PropViewX PropPartL.
Import ListNotations.
Close Scope Qc_scope.
Close Scope Q_scope.
Close Scope Z_scope.
Close Scope R_scope.
Close Scope nat_scope.
Open Scope N_scope.
Open Scope list_scope.


Section Theorems.
Context {I S : Type} (io : index_ops I) (so : scalar_ops S) (sq : N -> S) (half : Z -> S) (h : hspace I) (d : N) (bas : list N).
Notation M := (mel io so sq half (spaces h)).
Notation ns := (map N.to_nat bas).

(** no term of e takes a state with a non-zero amplitude out of the subspace number k *)
Definition terms_stay (e : list (list (gen I) * S)) (sp : space_partition) (k : nat) (states : list N) (psi : list S) : Prop :=
  forall i x a m c y, nth_error states i = Some x -> nth_error psi i = Some a -> a <> s_zero so ->
    In (m, c) e -> amp1 so (mono_act io so sq half (spaces h) m x) y <> s_zero so -> subspace_of sp y = Some k.

(** for every partition, whether made with this operator or not *)
Theorem C89_view_exact : forall sp e Lp k sp1 b psi phi, scalar_domain so -> setting io so sq half h d bas ->
  sp_reachable (A := S) (N.to_nat d) ns sp -> lop_of io so h e Lp ->
  subspace_basis sp k = Some (sp1, b) -> length psi = length b -> length phi = length b ->
  let states := map N.of_nat b in let m := mapper_of_list states in
  (exists ent, mv_foreach so (dense_sv so) m psi ent) /\
  forall ent, mv_foreach so (dense_sv so) m psi ent ->
    let run := lop_apply_to so sq half (mapped_sv so (dense_sv so) m) Lp ent (Live phi) in
    ((exists w, run = Some (Thrown w)) <-> ~ terms_stay e sp k states psi) /\
    ((exists w, run = Some (Live w)) <-> terms_stay e sp k states psi) /\
    forall w, run = Some (Live w) -> length w = length b /\
      forall j y, nth_error states j = Some y -> nth_error w j = Some (row so (M e y) states psi).
Proof.
  intros sp e Lp k sp1 b psi phi D Set_ Rc [C E] Eb El1 El2 states m. pose proof (setting_d _ _ _ _ _ _ _ Set_) as Ed.
  destruct Set_ as (Hio & LL & NT & Fr & IM & _ & HB). pose proof (ll_ring _ _ _ LL) as L.
  assert (Hlt : forall x, In x ns -> (x < N.to_nat d)%nat) by (subst d; exact (states_lt h bas HB)).
  destruct (C52_subspace_bases_partition S _ ns sp Hlt Rc) as [sp2 [bases [Ebs [Lb [K1 K2]]]]].
  assert (Hk : (k < length bases)%nat).
  { rewrite Lb. destruct (Nat.lt_ge_cases k (n_subspaces sp)); auto. rewrite K2 in Eb by assumption. discriminate. }
  destruct (nth_error bases k) as [b'|] eqn:En; [|apply nth_error_None in En; lia].
  destruct (K1 k b' En) as [Hb [[ff Hf] [sp3 Eb']]]. rewrite Eb in Eb'. injection Eb' as _ <-.
  assert (NDn : NoDup ns) by (apply FinFun.Injective_map_NoDup; [intros ? ? Q; now apply N2Nat.inj|apply HB]).
  assert (NDb : NoDup b) by (rewrite Hf; now apply NoDup_filter).
  assert (NDs : NoDup states) by (apply FinFun.Injective_map_NoDup; [intros ? ? Q; now apply Nat2N.inj|exact NDb]).
  assert (INs : forall x, In x states <-> In x bas /\ subspace_of sp x = Some k).
  { intros x. unfold states. rewrite in_map_iff. split.
    - intros [z [<- i]]. apply Hb in i. destruct i as [i1 i2]. unfold subspace_of. rewrite Nat2N.id. split; [|exact i2].
      apply nat_states. now rewrite Nat2N.id.
    - intros [i1 i2]. exists (N.to_nat x). split; [apply N2Nat.id|]. apply Hb. split; [now apply nat_states|exact i2]. }
  assert (Ls : length states = length b) by apply map_length.
  destruct (C53_list states) as [Q1 Q2]. fold m in Q1, Q2.
  assert (OK : im_ok m) by (apply im_numbers_ok, im_ok_nil).
  assert (SV := dense_sv_laws so L).
  assert (VS : PropView.view_setup (fun _ : @dense S => True) dense_size (fun _ : @dense S => True) dense_size h m m psi phi).
  { split; [apply OK|]. split; [apply OK|]. split; [now apply im_ok_values|]. split; [|split].
    - intros x j i. apply (mapper_lt sq) in i; [|exact NDs]. destruct i as [i1 i2]. split; [apply HB; now apply INs in i1|]. unfold dense_size. rewrite El1. lia.
    - intros x j i. apply (mapper_lt sq) in i; [|exact NDs]. unfold dense_size. rewrite El2. lia.
    - auto. }
  assert (INM : forall x, im_at m x <> None <-> In x states) by exact Q1.
  split.
  { destruct (mv_foreach_spec so L (dense_sv so) (fun _ => True) (dense_amp so) dense_size SV m psi Logic.I (proj1 VS)) as [X _]; [|exact X].
    destruct VS as (_ & _ & _ & B1 & _). intros x j i. exact (proj2 (B1 x j i)). }
  intros ent Ee run.
  destruct (C55_exact io so sq half (dense_sv so) (fun _ => True) (dense_amp so) dense_size (dense_sv so) (fun _ => True) (dense_amp so) dense_size
    h e Lp bas m m psi phi Hio D LL SV SV Fr IM C E HB VS ent Ee) as [A1 [A2 A3]].
  assert (EQ : nothing_leaves io so sq half (dense_amp so) h e m m psi <-> terms_stay e sp k states psi).
  { split.
    - intros NL i x a mm c y Ei Ea na im nz. assert (ix : In x states) by (apply nth_error_In in Ei; exact Ei).
      assert (iy : In y states).
      { apply INM. apply (NL x mm c y); [|exact im|exact nz]. unfold view_amp. rewrite (Q2 NDs i x Ei). unfold dense_amp.
        rewrite Nat2N.id, (nth_error_nth psi i _ Ea). exact na. }
      apply INs in iy. exact (proj2 iy).
    - intros TS x mm c y Sx im nz. assert (ix : In x states).
      { apply INM. intros Q. apply Sx. unfold view_amp. now rewrite Q. }
      destruct (In_nth_error _ _ ix) as [i Ei]. pose proof (Q2 NDs i x Ei) as Em.
      assert (hi : (i < length psi)%nat) by (rewrite El1, <- Ls; apply nth_error_Some; congruence).
      pose proof (nth_error_nth' psi (s_zero so) hi) as Ea.
      apply INM, INs. split.
      + apply HB. apply INs in ix. destruct ix as [ix _]. apply HB in ix.
        destruct (mono_act io so sq half (spaces h) mm x) as [[kk y']|] eqn:Em2; [|elim nz; reflexivity].
        cbn [amp1] in nz. destruct (N.eqb_spec y' y) as [q|q]; [|elim nz; reflexivity]. subst y'.
        pose proof (reachable_inv io Hio h (fresh_reachable io h Fr)) as Hi. destruct Hi as [S0 [W _]].
        exact (mono_act_valid io Hio so sq half L (spaces h) mm S0 W x kk y ix Em2).
      + apply (TS i x _ mm c y Ei Ea); [|exact im|exact nz].
        unfold view_amp in Sx. rewrite Em in Sx. unfold dense_amp in Sx. rewrite Nat2N.id in Sx. exact Sx. }
  split; [rewrite <- EQ; exact A1|]. split; [rewrite <- EQ; exact A2|].
  intros w R. destruct (A3 w R) as [_ [Zw [Aw _]]].
  assert (Lw : length w = length b) by (unfold dense_size in Zw; lia). split; [exact Lw|].
  intros j y Ej. pose proof (Q2 NDs j y Ej) as Em. pose proof (Aw y _ Em) as Ay. unfold dense_amp in Ay. rewrite Nat2N.id in Ay.
  assert (hj : (j < length w)%nat) by (rewrite Lw, <- Ls; apply nth_error_Some; congruence).
  rewrite (nth_error_nth' w (s_zero so) hj). f_equal. rewrite Ay.
  rewrite (ssum_part so L _ states bas NDs (proj1 HB)).
  - apply ssum_row; [lia|]. intros i x a Ei Ea. unfold view_amp. rewrite (Q2 NDs i x Ei). unfold dense_amp. rewrite Nat2N.id.
    now apply nth_error_nth.
  - intros x i. now apply INs.
  - intros x ix nx. unfold view_amp. destruct (im_at m x) eqn:Q; [|apply (mul_0_r so L)].
    exfalso. apply nx. apply INM. congruence.
Qed.
End Theorems.
Print Assumptions C89_view_exact.
