(** Linear operators acting on state vectors: C28, C32 - C34 *)
From Coq Require Import NArith ZArith List Bool Sorted Permutation Lia Reals.
From Verif Require Import BitsModel BitsSpec BitsProofs ExprModel ExprSpec ExprOrder ExprMap ExprEval ExprStd ExprCanon ExprMain ExprThrow ExprInst PropExpr PropFactories
  HSModel HSSpec HSEnum HSProofs HSMain PropHS LOpModel LOpSpec LOpFermion LOpSite LOpActF LOpActB LOpActS LOpComm LOpApply
  LOpMatrix LOpThrow LOpMain LOpReal.
Import ListNotations.
Close Scope R_scope.
Close Scope nat_scope.
Open Scope N_scope.
Open Scope list_scope.

(** ** C32: what a linear operator does to a state vector.
    [bas] lists the basis states of the space, [mel] are the matrix elements of
    the expression (LOpSpec.v).  The result does not depend on the order in
    which foreach() visits the elements. *)
Theorem C32_action : forall I (io : index_ops I) S V (so : scalar_ops S) sq half
  (sv : sv_ops V S) ok amp size (h : hspace I) e Lp bas v,
  index_order io -> lop_laws so sq half -> sv_strict so sv ok amp size -> hs_fresh io h -> Forall int_mult (spaces h) ->
  canonical_expr io so e -> make_loperator io e h = LOk Lp -> basis_of (spaces h) bas ->
  state_of so ok amp size (spaces h) v ->
  (exists w, lop_run so sq half sv Lp v w) /\
  (forall ent, sv_entries sv v ent -> exists w, lop_apply so sq half sv Lp v ent = Some w) /\
  (forall w, lop_run so sq half sv Lp v w ->
     state_of so ok amp size (spaces h) w /\ size w = size v /\
     forall y, amp w y = ssum so (fun x => s_mul so (mel io so sq half (spaces h) e y x) (amp v x)) bas).
Proof.
  intros I io S V so sq half sv ok amp size h e Lp bas v Hio LL SS Fr IM [_ C] E HB Vv.
  pose proof (reachable_inv io Hio h (fresh_reachable io h Fr)) as Hi. pose proof (fresh_algs io Hio h Fr) as HA.
  assert (Cm : canonical_monos io e) by (intros m c i; exact (proj1 (C m c i))).
  destruct (run_exists io Hio so sq half LL sv ok amp size SS h Hi HA IM bas HB e Lp v Cm E Vv) as [[ent Ee] R].
  split; [|split].
  - destruct (R ent Ee) as [w Q]. exists w, ent. auto.
  - exact R.
  - intros w Q. eapply (run_spec io Hio so sq half LL sv ok amp size SS h Hi HA IM bas HB e Lp v w); eauto.
Qed.
Print Assumptions C32_action.

Section C32.
Context {I S V : Type} (io : index_ops I) (so : scalar_ops S) (sq : N -> S) (half : Z -> S)
  (sv : sv_ops V S) (ok : V -> Prop) (amp : V -> N -> S) (size : V -> N) (h : hspace I) (e : list (list (gen I) * S)) (Lp : lop S).
Notation run := (lop_run so sq half sv Lp).
Notation vec := (state_of so ok amp size (spaces h)).

Theorem C32_linear v1 v2 v w1 w2 w a b :
  index_order io -> lop_laws so sq half -> sv_strict so sv ok amp size -> hs_fresh io h -> Forall int_mult (spaces h) ->
  canonical_expr io so e -> make_loperator io e h = LOk Lp ->
  vec v1 -> vec v2 -> vec v ->
  (forall x, amp v x = s_add so (s_mul so a (amp v1 x)) (s_mul so b (amp v2 x))) ->
  run v1 w1 -> run v2 w2 -> run v w ->
  forall y, amp w y = s_add so (s_mul so a (amp w1 y)) (s_mul so b (amp w2 y)).
Proof.
  intros Hio LL SS Fr IM C E V1 V2 Vv Hv R1 R2 R y.
  pose proof (reachable_inv io Hio h (fresh_reachable io h Fr)) as Hi.
  pose proof (ll_ring _ _ _ LL) as L. pose proof (ll_comm _ _ _ LL) as MC.
  destruct (basis_exists io h Hi) as [bas HB].
  pose proof (fun v => C32_action I io S V so sq half sv ok amp size h e Lp bas v Hio LL SS Fr IM C E HB) as Q.
  destruct (Q v1 V1) as [_ [_ Q1]]. destruct (Q v2 V2) as [_ [_ Q2]]. destruct (Q v Vv) as [_ [_ Q3]].
  destruct (Q1 w1 R1) as [_ [_ A1]]. destruct (Q2 w2 R2) as [_ [_ A2]]. destruct (Q3 w R) as [_ [_ A3]].
  rewrite A1, A2, A3, <- !(ssum_mul_l so L), <- (ssum_add so L). apply ssum_ext. intros x _. rewrite Hv, (sl_dist_l so L).
  f_equal; rewrite !(sl_mul_assoc so L), (MC (mel _ _ _ _ _ _ _ _)); reflexivity.
Qed.

(** The in-place form L(src, dst) gives the same amplitudes and forgets the old
    contents of dst. *)
Theorem C32_in_place v dst ent ent' w w' :
  index_order io -> lop_laws so sq half -> sv_strict so sv ok amp size -> hs_fresh io h -> Forall int_mult (spaces h) ->
  canonical_expr io so e -> make_loperator io e h = LOk Lp ->
  vec v -> ok dst -> 2 ^ N.of_nat (total_bits (spaces h)) <= size dst ->
  sv_entries sv v ent -> sv_entries sv v ent' ->
  lop_apply so sq half sv Lp v ent = Some w -> lop_apply_to so sq half sv Lp ent' dst = Some w' ->
  size w' = size dst /\ forall y, amp w' y = amp w y.
Proof.
  intros Hio LL SS Fr IM [_ C] E Vv Od Sd Ee Ee' R R'.
  pose proof (reachable_inv io Hio h (fresh_reachable io h Fr)) as Hi. pose proof (fresh_algs io Hio h Fr) as HA.
  assert (Cm : canonical_monos io e) by (intros m c i; exact (proj1 (C m c i))).
  destruct (basis_exists io h Hi) as [bas HB].
  destruct (apply_vec io Hio so sq half LL sv ok amp size SS h Hi HA IM bas HB e Lp v v ent Cm E Vv (proj1 Vv) (proj1 (proj2 Vv)) Ee) as [u [E1 [_ [_ A1]]]].
  destruct (apply_vec io Hio so sq half LL sv ok amp size SS h Hi HA IM bas HB e Lp v dst ent' Cm E Vv Od Sd Ee') as [u' [E2 [_ [Z A2]]]].
  unfold lop_apply in R. unfold lop_apply_to in R'. rewrite E1 in R. rewrite E2 in R'. inversion R; inversion R'; subst.
  split; auto. intros y. now rewrite A1, A2.
Qed.

(** When src and dst are the same object, set_zeros(dst) has already erased the
    argument when foreach(src) starts: the result is the zero vector. *)
Theorem C32_aliased v ent w :
  scalar_laws so -> sv_strict so sv ok amp size -> ok v ->
  sv_entries sv (sv_zero sv v) ent -> lop_apply_to so sq half sv Lp ent v = Some w ->
  forall y, amp w y = s_zero so.
Proof.
  intros L SS O Ee R. pose proof (svs_laws _ _ _ _ _ SS) as SV.
  destruct (svl_zero _ _ _ _ _ SV v O) as [Oz [_ Az]].
  destruct ent as [|[x a] ent].
  - cbn in R. inversion R; subst. exact Az.
  - exfalso. apply (svs_nonzero _ _ _ _ _ SS _ _ x a Oz Ee (or_introl eq_refl)).
    destruct (svl_entries _ _ _ _ _ SV _ _ Oz Ee) as [_ [_ [H _]]]. rewrite (H x a (or_introl eq_refl)). apply Az.
Qed.
End C32.
Print Assumptions C32_linear.
Print Assumptions C32_in_place.
Print Assumptions C32_aliased.

(** both state vector classes satisfy the assumptions *)
Definition sparse_nz {S} (so : scalar_ops S) (v : @sparse S) : Prop :=
  sparse_ok v /\ Forall (fun p => snd p <> s_zero so) (sp_data v).
Lemma sp_set_nz {S} (so : scalar_ops S) n x (d : list (N * S)) : x <> s_zero so -> Forall (fun p => snd p <> s_zero so) d ->
  Forall (fun p => snd p <> s_zero so) (sp_set n x d).
Proof.
  intros nx F. induction F as [|[k a] d h F IH]; cbn; [constructor; auto|]. destruct (n =? k); constructor; auto.
Qed.
Lemma sp_erase_nz {S} (so : scalar_ops S) n (d : list (N * S)) : Forall (fun p => snd p <> s_zero so) d ->
  Forall (fun p => snd p <> s_zero so) (sp_erase n d).
Proof. intros F. induction F as [|[k a] d h F IH]; cbn; auto. destruct (n =? k); auto. Qed.
Theorem C32_dense : forall S (so : scalar_ops S), scalar_laws so ->
  sv_strict so (dense_sv so) (fun _ => True) (dense_amp so) dense_size.
Proof.
  intros S so L. constructor; [now apply dense_sv_laws|]. intros v l x a _ E i. cbn in E. subst l.
  destruct (dense_entries_spec so L v 0) as [_ [B _]]. apply (B x a i).
Qed.
Theorem C32_sparse : forall S (so : scalar_ops S), scalar_laws so ->
  sv_strict so (sparse_sv so) (sparse_nz so) (sparse_amp so) sp_size.
Proof.
  intros S so L. pose proof (sparse_sv_laws so L) as SL. constructor.
  - constructor.
    + apply SL.
    + intros v l [O _]. now apply SL.
    + intros v n [O _]. now apply SL.
    + intros v n x [O Z] hn. destruct (svl_add _ _ _ _ _ SL v n x O hn) as [v' [E1 [E2 [E3 E4]]]]. exists v'. split; auto. split; [|split; auto].
      split; auto. cbn in E1. unfold sparse_add in E1. inversion E1; subst v'. cbn [sp_data]. unfold sparse_add_data.
      destruct (sp_find n (sp_data v)) as [a|].
      * destruct (s_is_zero so (s_add so a x)) eqn:Z1; [now apply sp_erase_nz|]. apply sp_set_nz; auto.
        intros Q. apply (sl_is_zero so L) in Q. congruence.
      * destruct (s_is_zero so x) eqn:Z1; auto. apply sp_set_nz; auto. intros Q. apply (sl_is_zero so L) in Q. congruence.
    + intros v [O Z]. destruct (svl_zero _ _ _ _ _ SL v O) as [A B]. split; [|exact B]. split; auto. cbn. constructor.
  - intros v l x a [O Z] E i. cbn in E. rewrite Forall_forall in Z. apply (Z (x, a)). eapply Permutation_in; eauto.
Qed.
Print Assumptions C32_dense.
Print Assumptions C32_sparse.

(** ** C28: canonical anticommutation relations.  [Lc d i] is the operator of
    c+_i (d = true) or c_i (d = false). *)
Theorem C28_car : forall I (io : index_ops I) S V (so : scalar_ops S) sq half
  (sv : sv_ops V S) ok amp size (h : hspace I) d d' i j,
  index_order io -> lop_laws so sq half -> sv_strict so sv ok amp size -> hs_fresh io h -> Forall int_mult (spaces h) ->
  In (ESFermion i) (spaces h) -> In (ESFermion j) (spaces h) ->
  exists La Lb, make_loperator io (gen_expr so (GFermion d i)) h = LOk La /\
    make_loperator io (gen_expr so (GFermion d' j)) h = LOk Lb /\
    forall v w1 u1 w2 u2, state_of so ok amp size (spaces h) v ->
    lop_run so sq half sv Lb v w1 -> lop_run so sq half sv La w1 u1 ->
    lop_run so sq half sv La v w2 -> lop_run so sq half sv Lb w2 u2 ->
    (i = j /\ d <> d' -> forall y, s_add so (amp u1 y) (amp u2 y) = amp v y) /\
    (i <> j \/ d = d' -> forall y, s_add so (amp u1 y) (amp u2 y) = s_zero so).
Proof.
  intros I io S V so sq half sv ok amp size h d d' i j Hio LL SS Fr IM Ii Ij.
  pose proof (reachable_inv io Hio h (fresh_reachable io h Fr)) as Hi. pose proof (fresh_algs io Hio h Fr) as HA.
  pose proof (ll_ring _ _ _ LL) as L.
  destruct (basis_exists io h Hi) as [bas HB]. pose proof Hi as [S0 [W _]].
  assert (EQ : forall k, i_eq io k k = true) by (intros k; now apply (sto_eq _ _ _ Hio)).
  assert (G : forall dd k, In (ESFermion k) (spaces h) -> good io (spaces h) (GFermion dd k)).
  { intros dd k ik. split; [|reflexivity]. exists (ESFermion k). split; [exact ik|]. cbn. apply EQ. }
  assert (MK : forall dd k, In (ESFermion k) (spaces h) -> exists Lk, make_loperator io (gen_expr so (GFermion dd k)) h = LOk Lk).
  { intros dd k ik. apply (make_known io Hio h Hi HA).
    - exact (canonical_gen io so (GFermion dd k)).
    - intros m c [E|[]]. inversion E; subst. repeat constructor. apply (G dd k ik). }
  destruct (MK d i Ii) as [La Ea]. destruct (MK d' j Ij) as [Lb Eb]. exists La, Lb. split; auto. split; auto.
  intros v w1 u1 w2 u2 Vv R1 R2 R3 R4.
  destruct (run_two io Hio so sq half LL sv ok amp size SS h Hi HA IM bas HB _ _ La Lb v w1 u1
    (canonical_gen io so _) (canonical_gen io so _) Ea Eb Vv R1 R2) as [V1 A1].
  destruct (run_two io Hio so sq half LL sv ok amp size SS h Hi HA IM bas HB _ _ Lb La v w2 u2
    (canonical_gen io so _) (canonical_gen io so _) Eb Ea Vv R3 R4) as [V2 A2].
  pose proof (matrices_relations io Hio so sq half LL (spaces h) S0 W bas HB) as RL.
  set (rh := rho io so sq half (spaces h)) in *.
  assert (AA : forall y, s_add so (amp u1 y) (amp u2 y) = ssum so (fun x => s_mul so
     (s_add so (rmul (mat_ops so bas) (rh (GFermion d i)) (rh (GFermion d' j)) y x)
               (rmul (mat_ops so bas) (rh (GFermion d' j)) (rh (GFermion d i)) y x)) (amp v x)) bas).
  { assert (MM : forall g g' y x, ssum so (fun z => s_mul so (mel io so sq half (spaces h) [([g], s_one so)] y z) (mel io so sq half (spaces h) [([g'], s_one so)] z x)) bas =
      rmul (mat_ops so bas) (rh g) (rh g') y x).
    { intros g g' y x. cbn [rmul mat_ops]. apply ssum_ext. intros z _. now rewrite !(mel_gen io so sq half LL). }
    intros y. rewrite A1, A2, <- (ssum_add so L). apply ssum_ext. intros x _. rewrite (sl_dist_r so L). now rewrite !MM. }
  assert (ZZ : forall y, ~ In y bas -> s_add so (amp u1 y) (amp u2 y) = s_zero so).
  { intros y ny. rewrite (vec_zero so sq half LL ok amp size h bas HB u1 y V1 ny), (vec_zero so sq half LL ok amp size h bas HB u2 y V2 ny).
    apply (sl_add_0 so L). }
  split.
  - intros [<- nd] y. destruct (in_bas_dec bas y) as [iy|ny].
    2: { rewrite ZZ by auto. symmetry. now apply (vec_zero so sq half LL ok amp size h bas HB). }
    rewrite AA. rewrite (ssum_ext so _ (fun x => s_mul so (if y =? x then s_one so else s_zero so) (amp v x))).
    + rewrite (ssum_single so L bas y _ (proj1 HB) iy); [now rewrite N.eqb_refl, (sl_mul_1_l so L)|].
      intros x _ ne. destruct (N.eqb_spec y x); [congruence|]. apply (mul_0_l so L).
    + intros x ix. f_equal. pose proof (kr_c_cdag _ _ _ _ _ RL i (G false i Ii) (G true i Ii) y x iy ix) as Q. cbn [radd mat_ops r1] in Q.
      destruct d, d'; try congruence; try exact Q. rewrite (sl_add_comm so L). exact Q.
  - intros H y. destruct (in_bas_dec bas y) as [iy|ny]; [|auto].
    rewrite AA. rewrite (ssum_ext so _ (fun x => s_zero so)); [apply (ssum_0 so L)|]. intros x ix.
    assert (Q : s_add so (rmul (mat_ops so bas) (rh (GFermion d i)) (rh (GFermion d' j)) y x)
               (rmul (mat_ops so bas) (rh (GFermion d' j)) (rh (GFermion d i)) y x) = s_zero so).
    { destruct (i_eq io i j) eqn:Eij.
      - apply (sto_eq _ _ _ Hio) in Eij. subst j. destruct H as [H|<-]; [congruence|].
        rewrite (kr_c_sq _ _ _ _ _ RL d i (G d i Ii) y x iy ix). cbn. apply (sl_add_0 so L).
      - assert (ne : i <> j) by (intros <-; rewrite EQ in Eij; discriminate).
        rewrite (kr_c_anti _ _ _ _ _ RL d d' i j (G d i Ii) (G d' j Ij) ne y x iy ix). cbn [ropp mat_ops].
        rewrite (sl_add_comm so L). apply (sl_neg so L). }
    rewrite Q. apply (mul_0_l so L).
Qed.
Print Assumptions C28_car.

(** ** C33: the operator of a product is the product of the operators.
    [B] are the generators the expressions are made of: all of them are known
    to the space, and none is bosonic (see C34). *)
Lemma ssum_neg {S} (so : scalar_ops S) f b : scalar_laws so -> ssum so (fun x => s_neg so (f x)) b = s_neg so (ssum so f b).
Proof. intros L. induction b as [|x b IH]; cbn; [now rewrite (s_neg_zero so L)|]. now rewrite IH, (s_neg_add so L). Qed.
Lemma mel_scale {I S} (io : index_ops I) (so : scalar_ops S) sq half l c e y x : scalar_laws so ->
  mel io so sq half l (e_mul_const_pre so c e) y x = s_mul so c (mel io so sq half l e y x).
Proof.
  intros L. unfold e_mul_const_pre. destruct (s_is_zero so c) eqn:Z.
  - apply (sl_is_zero so L) in Z. subst c. cbn. now rewrite (mul_0_l so L).
  - clear Z. induction e as [|[m k] e IH]; cbn [map mel fst snd]; [now rewrite (mul_0_r so L)|].
    rewrite IH, (sl_dist_l so L), (sl_mul_assoc so L). reflexivity.
Qed.
Section C33.
Context {I S V : Type} (io : index_ops I) (so : scalar_ops S) (sq : N -> S) (half : Z -> S)
  (sv : sv_ops V S) (ok : V -> Prop) (amp : V -> N -> S) (size : V -> N) (h : hspace I) (B : list (gen I)).
Notation run := (lop_run so sq half sv).
Notation vec := (state_of so ok amp size (spaces h)).
Notation G := (std_gen_ops io).

Theorem C33_product a b p :
  index_order io -> scalar_domain so -> lop_laws so sq half -> sv_strict so sv ok amp size ->
  hs_fresh io h -> Forall int_mult (spaces h) ->
  spin_consistent B -> Forall (known io (spaces h)) B -> Forall (fun g => algebra_id g <> (-2)%Z) B ->
  built io so B a -> built io so B b -> e_mul G so a b = Ok p ->
  exists La Lb Lp, make_loperator io a h = LOk La /\ make_loperator io b h = LOk Lb /\ make_loperator io p h = LOk Lp /\
  forall v w u z, vec v -> run Lb v w -> run La w u -> run Lp v z -> forall y, amp z y = amp u y.
Proof.
  intros Hio D LL SS Fr IM SC KB NB Ba Bb E.
  pose proof (reachable_inv io Hio h (fresh_reachable io h Fr)) as Hi. pose proof (fresh_algs io Hio h Fr) as HA.
  pose proof (ll_ring _ _ _ LL) as L. destruct (basis_exists io h Hi) as [bas HB].
  assert (Bp : built io so B p) by (eapply b_mul; [exact Ba|exact Bb|exact E]).
  pose proof (fun e => built_make io Hio so h Hi HA D B SC KB e) as MK. pose proof (fun e => built_canonical io Hio so D B SC e) as CN.
  destruct (MK a Ba) as [La Ea]. destruct (MK b Bb) as [Lb Eb]. destruct (MK p Bp) as [Lp Ep].
  exists La, Lb, Lp. repeat split; auto. intros v w u z Vv R1 R2 R3 y.
  destruct (run_two io Hio so sq half LL sv ok amp size SS h Hi HA IM bas HB a b La Lb v w u (CN a Ba) (CN b Bb) Ea Eb Vv R1 R2) as [Vu Au].
  destruct (run_spec io Hio so sq half LL sv ok amp size SS h Hi HA IM bas HB p Lp v z (CN p Bp) Ep Vv R3) as [Vz [_ Az]].
  destruct (in_bas_dec bas y) as [iy|ny].
  2: { rewrite (vec_zero so sq half LL ok amp size h bas HB u y Vu ny). now apply (vec_zero so sq half LL ok amp size h bas HB). }
  rewrite Au, Az. apply ssum_ext. intros x ix. f_equal.
  apply (mel_mul io Hio so sq half LL h Hi bas HB D B SC KB a b p y x); auto.
  eapply Forall_impl; [|exact NB]. intros g hg. destruct g; cbn in *; auto. congruence.
Qed.

Theorem C33_linear a b x :
  index_order io -> scalar_domain so -> lop_laws so sq half -> sv_strict so sv ok amp size ->
  hs_fresh io h -> Forall int_mult (spaces h) ->
  spin_consistent B -> Forall (known io (spaces h)) B -> built io so B a -> built io so B b ->
  exists La Lb Ls Ld Lx Ln,
    make_loperator io a h = LOk La /\ make_loperator io b h = LOk Lb /\
    make_loperator io (e_add G so a b) h = LOk Ls /\ make_loperator io (e_sub G so a b) h = LOk Ld /\
    make_loperator io (e_mul_const_pre so x a) h = LOk Lx /\ make_loperator io (e_neg so a) h = LOk Ln /\
  forall v wa wb ws wd wx wn, vec v -> run La v wa -> run Lb v wb -> run Ls v ws -> run Ld v wd -> run Lx v wx -> run Ln v wn ->
  forall y, amp ws y = s_add so (amp wa y) (amp wb y) /\ amp wd y = s_sub so (amp wa y) (amp wb y) /\
    amp wx y = s_mul so x (amp wa y) /\ amp wn y = s_neg so (amp wa y).
Proof.
  intros Hio D LL SS Fr IM SC KB Ba Bb.
  pose proof (reachable_inv io Hio h (fresh_reachable io h Fr)) as Hi. pose proof (fresh_algs io Hio h Fr) as HA.
  pose proof (ll_ring _ _ _ LL) as L. destruct (basis_exists io h Hi) as [bas HB].
  pose proof (fun e => built_make io Hio so h Hi HA D B SC KB e) as MK. pose proof (fun e => built_canonical io Hio so D B SC e) as CN.
  assert (Bs := b_add io so B a b Ba Bb). assert (Bd := b_sub io so B a b Ba Bb). assert (Bx := b_const_mul io so B a x Ba). assert (Bn := b_neg io so B a Ba).
  destruct (MK a Ba) as [La Ea]. destruct (MK b Bb) as [Lb Eb]. destruct (MK _ Bs) as [Ls Es]. destruct (MK _ Bd) as [Ld Ed].
  destruct (MK _ Bx) as [Lx Ex]. destruct (MK _ Bn) as [Ln En].
  exists La, Lb, Ls, Ld, Lx, Ln. repeat (split; [assumption|]). intros v wa wb ws wd wx wn Vv Ra Rb Rs Rd Rx Rn y.
  pose proof (fun e Lp w C E R => proj2 (proj2 (run_spec io Hio so sq half LL sv ok amp size SS h Hi HA IM bas HB e Lp v w C E Vv R))) as Q.
  pose proof (fun e Lp w C E R => proj1 (run_spec io Hio so sq half LL sv ok amp size SS h Hi HA IM bas HB e Lp v w C E Vv R)) as QV.
  pose proof (vec_zero so sq half LL ok amp size h bas HB) as VZ.
  destruct (in_bas_dec bas y) as [iy|ny].
  2: { rewrite (VZ wa y (QV _ _ _ (CN _ Ba) Ea Ra) ny), (VZ wb y (QV _ _ _ (CN _ Bb) Eb Rb) ny), (VZ ws y (QV _ _ _ (CN _ Bs) Es Rs) ny),
         (VZ wd y (QV _ _ _ (CN _ Bd) Ed Rd) ny), (VZ wx y (QV _ _ _ (CN _ Bx) Ex Rx) ny), (VZ wn y (QV _ _ _ (CN _ Bn) En Rn) ny).
       rewrite (sl_sub so L), (sl_add_0 so L), (s_neg_zero so L), (sl_add_0 so L), (mul_0_r so L). auto. }
  rewrite (Q _ _ _ (CN _ Ba) Ea Ra), (Q _ _ _ (CN _ Bb) Eb Rb), (Q _ _ _ (CN _ Bs) Es Rs), (Q _ _ _ (CN _ Bd) Ed Rd),
    (Q _ _ _ (CN _ Bx) Ex Rx), (Q _ _ _ (CN _ Bn) En Rn).
  split; [|split; [|split]].
  - rewrite <- (ssum_add so L). apply ssum_ext. intros z iz. rewrite (mel_add io Hio so sq half LL h Hi bas HB) by auto. apply (sl_dist_r so L).
  - rewrite (sl_sub so L). rewrite <- ssum_neg, <- (ssum_add so L) by auto. apply ssum_ext. intros z iz.
    rewrite (mel_sub io Hio so sq half LL h Hi bas HB) by auto. rewrite (sl_sub so L), (sl_dist_r so L). f_equal. now rewrite (s_mul_neg_l so L).
  - rewrite <- (ssum_mul_l so L). apply ssum_ext. intros z iz. rewrite (sl_mul_assoc so L). f_equal. now apply mel_scale.
  - rewrite <- ssum_neg by auto. apply ssum_ext. intros z iz. rewrite (mel_neg io Hio so sq half LL h Hi bas HB) by auto. now rewrite (s_mul_neg_l so L).
Qed.
End C33.
Print Assumptions C33_product.
Print Assumptions C33_linear.
