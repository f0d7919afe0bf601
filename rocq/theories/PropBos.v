(** C84: operators with bosons below the cutoff.  C33 (products and Hermitian
    conjugates) excludes bosons, because their spaces are truncated and the
    product law fails at the top (C34).  Here the product law is proved for
    all states from which the right factor does not reach the cutoff, and the
    adjoint property without any restriction. *)
From Coq Require Import NArith ZArith List Bool Sorted Lia Reals.
From Verif Require Import BitsModel BitsSpec BitsProofs ExprModel ExprSpec ExprOrder ExprMap ExprEval ExprStd ExprCanon ExprMain ExprThrow ExprInst ExprConj PropExpr PropFactories PropConj FockSpec PropUnique
  HSModel HSSpec HSEnum HSProofs HSMain PropHS LOpModel LOpSpec LOpFermion LOpSite LOpActF LOpActB LOpActS LOpComm LOpApply
  LOpMatrix LOpThrow LOpMain LOpReal LOpFaithful PropLOp PropLOp2 PropLOp3 PropAdjoint LOpFaithSpec LOpFaithful2 PropFaithful UFock UFock2 UFock3.
Import ListNotations.
Close Scope R_scope.
Close Scope nat_scope.
Open Scope N_scope.
Open Scope list_scope.

(** The number of creation (annihilation) operators of boson i in a monomial *)
Definition n_created {I} (io : index_ops I) (i : I) (m : list (gen I)) : nat :=
  length (filter (fun g => match g with GBoson true j => i_eq io j i | _ => false end) m).
Definition n_annihilated {I} (io : index_ops I) (i : I) (m : list (gen I)) : nat :=
  length (filter (fun g => match g with GBoson false j => i_eq io j i | _ => false end) m).
(** The number of bosons i in the basis state x, n, satisfies
    n + created - annihilated < dimension, for all bosons of the space *)
Definition stays_below {I} (io : index_ops I) (l : list (espace I)) (m : list (gen I)) (x : N) : Prop :=
  forall k d i, nth_error l k = Some (ESBoson d i) ->
    bit_field x (offset l k) (es_nbits (ESBoson d i)) + N.of_nat (n_created io i m) < d + N.of_nat (n_annihilated io i m).

Lemma stays_room {I} (io : index_ops I) l m x : stays_below io l m x -> room io l m x.
Proof.
  intros H k e Ek ib. destruct e as [j|d j|mm j]; try discriminate. specialize (H k d j Ek).
  assert (A : crea io (ESBoson d j) m = n_created io j m).
  { unfold crea, n_created. f_equal. apply filter_ext. intros [d' i|[|] i|m' c i]; reflexivity. }
  assert (B : anni io (ESBoson d j) m = n_annihilated io j m).
  { unfold anni, n_annihilated. f_equal. apply filter_ext. intros [d' i|[|] i|m' c i]; reflexivity. }
  rewrite A, B. exact H.
Qed.

Section C84.
Context {I S V : Type} (io : index_ops I) (so : scalar_ops S) (sq : N -> S) (half : Z -> S)
  (sv : sv_ops V S) (ok : V -> Prop) (amp : V -> N -> S) (size : V -> N) (h : hspace I) (B : list (gen I)).
Notation run := (lop_run so sq half sv).
Notation vec := (state_of so ok amp size (spaces h)).
Notation G := (std_gen_ops io).

(** The operator of the product is the product of the operators on every
    vector v such that no term of the right factor lifts a basis state of v
    above the cutoff. *)
Theorem C84_product a b p :
  index_order io -> scalar_domain so -> lop_laws so sq half -> sv_strict so sv ok amp size ->
  hs_fresh io h -> Forall int_mult (spaces h) ->
  spin_consistent B -> Forall (known io (spaces h)) B ->
  built io so B a -> built io so B b -> e_mul G so a b = Ok p ->
  exists La Lb Lp, make_loperator io a h = LOk La /\ make_loperator io b h = LOk Lb /\ make_loperator io p h = LOk Lp /\
  forall v w u z, vec v ->
    (forall x, valid_state (spaces h) x -> amp v x = s_zero so \/ forall m c, In (m, c) b -> stays_below io (spaces h) m x) ->
    run Lb v w -> run La w u -> run Lp v z -> forall y, amp z y = amp u y.
Proof.
  intros Hio D LL SS Fr IM SC KB Ba Bb E.
  pose proof (reachable_inv io Hio h (fresh_reachable io h Fr)) as Hi. pose proof (fresh_algs io Hio h Fr) as HA.
  pose proof (ll_ring _ _ _ LL) as L. destruct (basis_exists io h Hi) as [bas HB].
  assert (Bp : built io so B p) by (eapply b_mul; [exact Ba|exact Bb|exact E]).
  pose proof (fun e => built_make io Hio so h Hi HA D B SC KB e) as MK. pose proof (fun e => built_canonical io Hio so D B SC e) as CN.
  destruct (MK a Ba) as [La Ea]. destruct (MK b Bb) as [Lb Eb]. destruct (MK p Bp) as [Lp Ep].
  exists La, Lb, Lp. repeat (split; [assumption|]). intros v w u z Vv R R1 R2 R3 y.
  destruct (run_two io Hio so sq half LL sv ok amp size SS h Hi HA IM bas HB a b La Lb v w u (CN a Ba) (CN b Bb) Ea Eb Vv R1 R2) as [Vu Au].
  destruct (run_spec io Hio so sq half LL sv ok amp size SS h Hi HA IM bas HB p Lp v z (CN p Bp) Ep Vv R3) as [Vz [_ Az]].
  destruct (in_bas_dec bas y) as [iy|ny].
  2: { rewrite (vec_zero so sq half LL ok amp size h bas HB u y Vu ny). now apply (vec_zero so sq half LL ok amp size h bas HB). }
  rewrite Au, Az. apply ssum_ext. intros x ix. destruct (R x (proj1 (proj2 HB x) ix)) as [Z|St].
  - rewrite Z. now rewrite !(mul_0_r so L).
  - f_equal. apply (mel_mul_below io Hio so sq half LL (spaces h) (proj1 Hi) (proj1 (proj2 Hi)) bas HB D B SC KB a b p y x Ba Bb E iy ix).
    intros m c i. apply stays_room. exact (St m c i).
Qed.

(** In particular a right factor without bosonic creation operators needs no condition. *)
Theorem C84_product_no_creation a b p :
  index_order io -> scalar_domain so -> lop_laws so sq half -> sv_strict so sv ok amp size ->
  hs_fresh io h -> Forall int_mult (spaces h) ->
  spin_consistent B -> Forall (known io (spaces h)) B ->
  built io so B a -> built io so B b -> e_mul G so a b = Ok p ->
  (forall m c i, In (m, c) b -> ~ In (GBoson true i) m) ->
  exists La Lb Lp, make_loperator io a h = LOk La /\ make_loperator io b h = LOk Lb /\ make_loperator io p h = LOk Lp /\
  forall v w u z, vec v -> run Lb v w -> run La w u -> run Lp v z -> forall y, amp z y = amp u y.
Proof.
  intros Hio D LL SS Fr IM SC KB Ba Bb E NC.
  destruct (C84_product a b p Hio D LL SS Fr IM SC KB Ba Bb E) as [La [Lb [Lp [Ea [Eb [Ep H]]]]]].
  exists La, Lb, Lp. repeat (split; [assumption|]). intros v w u z Vv. apply H; auto.
  intros x Vx. right. intros m c i k d j Ek.
  assert (Z : n_created io j m = 0%nat).
  { unfold n_created. assert (F : forall g, In g m -> match g with GBoson true j0 => i_eq io j0 j | _ => false end = false).
    { intros [d' i'|[|] i'|m' c' i'] ig; auto. destruct (NC m c i' i ig). }
    clear - F. induction m as [|g m IH]; auto. cbn [filter]. rewrite (F g) by (now left). apply IH. intros g' i. apply F. now right. }
  rewrite Z. pose proof (valid_field (spaces h) k _ x Vx Ek) as Q. cbn [es_dim] in Q. clear - Q. lia.
Qed.
End C84.
Print Assumptions C84_product.
Print Assumptions C84_product_no_creation.

(** <A+ w | v> = <w | A v>, bosons included: the truncation is compatible with
    Hermitian conjugation. *)
Theorem C84_adjoint : forall I (io : index_ops I) S V (so : scalar_ops S) (sq : N -> S) (half : Z -> S)
  (sv : sv_ops V S) (ok : V -> Prop) (amp : V -> N -> S) (size : V -> N) (h : hspace I) (B : list (gen I)) a a',
  index_order io -> scalar_domain so -> lop_laws so sq half -> conj_laws so -> real_constants so sq half ->
  sv_strict so sv ok amp size -> hs_fresh io h -> Forall int_mult (spaces h) ->
  spin_consistent B -> Forall (known io (spaces h)) B ->
  built io so B a -> e_conj (std_gen_ops io) so a = Ok a' ->
  exists A A', make_loperator io a h = LOk A /\ make_loperator io a' h = LOk A' /\
  forall bas v w u z, basis_of (spaces h) bas ->
    state_of so ok amp size (spaces h) v -> state_of so ok amp size (spaces h) w ->
    lop_run so sq half sv A v u -> lop_run so sq half sv A' w z ->
    let dot p q := ssum so (fun x => s_mul so (s_conj so (amp p x)) (amp q x)) bas in
    dot z v = dot w u.
Proof.
  intros I io S V so sq half sv ok amp size h B a a' Hio D LL CL RC SS Fr IM SC KB Ba E.
  pose proof (reachable_inv io Hio h (fresh_reachable io h Fr)) as Hi. pose proof (fresh_algs io Hio h Fr) as HA.
  pose proof (ll_ring _ _ _ LL) as L. pose proof (ll_comm _ _ _ LL) as MC.
  assert (Ba' : built io so B a') by (eapply b_conj; [exact Ba|exact E]).
  pose proof (fun e => built_make io Hio so h Hi HA D B SC KB e) as MK. pose proof (fun e => built_canonical io Hio so D B SC e) as CN.
  destruct (MK a Ba) as [A Ea]. destruct (MK a' Ba') as [A' Ea']. exists A, A'. repeat (split; [assumption|]).
  intros bas v w u z HB Vv Vw R R' dot. unfold dot.
  destruct (run_spec io Hio so sq half LL sv ok amp size SS h Hi HA IM bas HB a A v u (CN a Ba) Ea Vv R) as [_ [_ Au]].
  destruct (run_spec io Hio so sq half LL sv ok amp size SS h Hi HA IM bas HB a' A' w z (CN a' Ba') Ea' Vw R') as [_ [_ Az]].
  set (M := mel io so sq half (spaces h) a) in *.
  assert (MA : forall y x, In y bas -> In x bas -> mel io so sq half (spaces h) a' y x = s_conj so (M x y)).
  { intros y x iy ix. exact (mel_conj_any io Hio so sq half LL (spaces h) (proj1 Hi) (proj1 (proj2 Hi)) bas HB D B SC KB CL RC a a' y x Ba E iy ix). }
  rewrite (ssum_ext so _ (fun x => ssum so (fun y => s_mul so (s_mul so (s_conj so (amp w y)) (M y x)) (amp v x)) bas)).
  2: { intros x ix. rewrite Az, (cj_ssum so D CL), <- (ssum_mul_r so L). apply ssum_ext. intros y iy.
       rewrite (MA x y ix iy), (cl_mul _ CL), (cl_invol _ CL). reflexivity. }
  rewrite (ssum_swap so L). apply ssum_ext. intros y iy. rewrite Au, <- (ssum_mul_l so L). apply ssum_ext. intros x ix.
  symmetry. apply (sl_mul_assoc so L).
Qed.
Print Assumptions C84_adjoint.

(** Expressions with bosons whose powers are below the truncation: the operator
    is Hermitian exactly if conj() does not change the expression. *)
Theorem C84_hermitian : forall I (io : index_ops I) S V (so : scalar_ops S) sq half
  (sv : sv_ops V S) ok amp size (h : hspace I) (B : list (gen I)) a a' v0 bas,
  index_order io -> scalar_domain so -> lop_laws so sq half -> conj_laws so -> real_constants so sq half ->
  sv_strict so sv ok amp size -> hs_fresh io h -> Forall int_mult (spaces h) ->
  Forall spin_half B -> Forall (known io (spaces h)) B ->
  built io so B a -> e_conj (std_gen_ops io) so a = Ok a' ->
  (forall m c, In (m, c) a \/ In (m, c) a' -> below_truncation io (spaces h) m) ->
  state_of so ok amp size (spaces h) v0 -> basis_of (spaces h) bas ->
  let run := lop_run so sq half sv in
  let dot p q := ssum so (fun x => s_mul so (s_conj so (amp p x)) (amp q x)) bas in
  exists A, make_loperator io a h = LOk A /\
  ((forall v w Av Aw, state_of so ok amp size (spaces h) v -> state_of so ok amp size (spaces h) w ->
      run A v Av -> run A w Aw -> dot Aw v = dot w Av) <-> a' = a).
Proof.
  intros I io S V so sq half sv ok amp size h B a a' v0 bas Hio D LL CL RC SS Fr IM HS KB Ba E BT V0 HB run dot. subst run dot. cbv beta.
  pose proof (reachable_inv io Hio h (fresh_reachable io h Fr)) as Hi. pose proof (fresh_algs io Hio h Fr) as HA.
  pose proof (ll_ring _ _ _ LL) as L. pose proof (simple_consistent B (half_simple B HS)) as SC.
  assert (Ba' : built io so B a') by (eapply b_conj; [exact Ba|exact E]).
  pose proof (fun e => built_make io Hio so h Hi HA D B SC KB e) as MK. pose proof (fun e => built_canonical io Hio so D B SC e) as CN.
  destruct (MK a Ba) as [A Ea]. exists A. split; auto.
  assert (FE : forall e, built io so B e -> (forall m c, In (m, c) e -> below_truncation io (spaces h) m) -> faithful_expr io so (spaces h) e).
  { intros e Be be. split; [exact (C03_canonical_form I io S so B e Hio D SC Be)|].
    intros m c i. split; [exact (built_known io Hio so h D B SC KB e Be m c i)|]. split; [|exact (be m c i)].
    eapply Forall_impl; [|exact (built_on io Hio so D B (half_simple B HS) e Be m c i)]. intros g [_ sg]. destruct g; auto. }
  assert (Fa : faithful_expr io so (spaces h) a) by (apply FE; auto; intros m c i; apply (BT m c); auto).
  assert (Fa' : faithful_expr io so (spaces h) a') by (apply FE; auto; intros m c i; apply (BT m c); auto).
  split.
  - intros H. apply (same_mel io Hio so D sq half LL h Hi bas HB a' a Fa' Fa). intros x y ix iy.
    rewrite (mel_conj_any io Hio so sq half LL (spaces h) (proj1 Hi) (proj1 (proj2 Hi)) bas HB D B SC KB CL RC a a' y x Ba E iy ix).
    assert (Vx : valid_state (spaces h) x) by now apply HB. assert (Vy : valid_state (spaces h) y) by now apply HB.
    destruct (basis_vector so sq half LL sv ok amp size SS h v0 x V0 Vx) as [v [Vv Av]].
    destruct (basis_vector so sq half LL sv ok amp size SS h v0 y V0 Vy) as [w [Vw Aw]].
    destruct (run_ex io Hio so sq half LL sv ok amp size SS h Hi HA IM bas HB a A v (CN a Ba) Ea Vv) as [wv Rv].
    destruct (run_ex io Hio so sq half LL sv ok amp size SS h Hi HA IM bas HB a A w (CN a Ba) Ea Vw) as [ww Rw].
    pose proof (H v w wv ww Vv Vw Rv Rw) as Q.
    pose proof (run_basis io Hio so sq half LL sv ok amp size SS h Hi HA IM bas HB a A v wv x (CN a Ba) Ea Vv Vx Av Rv) as Mv.
    pose proof (run_basis io Hio so sq half LL sv ok amp size SS h Hi HA IM bas HB a A w ww y (CN a Ba) Ea Vw Vy Aw Rw) as Mw.
    rewrite (ssum_single so L bas x) in Q; [|apply HB|auto|].
    2: { intros z _ ne. rewrite Av. destruct (N.eqb_spec x z); [congruence|]. apply (mul_0_r so L). }
    rewrite (ssum_single so L bas y) in Q; [|apply HB|auto|].
    2: { intros z _ ne. rewrite Aw. destruct (N.eqb_spec y z); [congruence|]. rewrite (sconj_0 so D CL). apply (mul_0_l so L). }
    rewrite Av, Aw, !N.eqb_refl, (sl_mul_1_r so L), (sconj_1 so D CL), (sl_mul_1_l so L), Mv, Mw in Q. exact Q.
  - intros EQ v w Av Aw Vv Vw Rv Rw. subst a'.
    destruct (C84_adjoint I io S V so sq half sv ok amp size h B a a Hio D LL CL RC SS Fr IM SC KB Ba E) as [A1 [A2 [E1 [E2 Q]]]].
    rewrite Ea in E1, E2. injection E1 as <-. injection E2 as <-. exact (Q bas v w Av Aw HB Vv Vw Rv Rw).
Qed.
Print Assumptions C84_hermitian.

(** non-vacuity: complex numbers, the space of two fermions, a boson of
    dimension 5 and a spin 1 (see PropLOp3.v), the expressions a_0 c+_0 and
    i a+_0 S-_0.  The condition on the state holds for |0,0,n,0> exactly for n < 4. *)
Definition B84 : list (gen Z) := [GBoson true 0%Z; GBoson false 0%Z; GFermion true 0%Z; GSpin 3 Minus 0%Z].
Example C84_ex :
  index_order ioZ /\ scalar_domain cplx_ops /\ lop_laws cplx_ops cplx_sq cplx_half /\ conj_laws cplx_ops /\
  real_constants cplx_ops cplx_sq cplx_half /\
  sv_strict cplx_ops (sparse_sv cplx_ops) (sparse_nz cplx_ops) (sparse_amp cplx_ops) sp_size /\
  hs_fresh ioZ hs_ex /\ Forall int_mult (spaces hs_ex) /\ spin_consistent B84 /\
  Forall (known ioZ (spaces hs_ex)) B84 /\
  exists a b p b', e_mono (std_gen_ops ioZ) cplx_ops (1, 0)%R [GBoson false 0%Z; GFermion true 0%Z] = Ok a /\
    e_mono (std_gen_ops ioZ) cplx_ops (0, 1)%R [GBoson true 0%Z; GSpin 3 Minus 0%Z] = Ok b /\
    built ioZ cplx_ops B84 a /\ built ioZ cplx_ops B84 b /\ e_mul (std_gen_ops ioZ) cplx_ops a b = Ok p /\ e_conj (std_gen_ops ioZ) cplx_ops b = Ok b'.
Proof.
  assert (SC : spin_consistent B84).
  { split.
    - intros c c' m i [Q|[Q|[Q|[Q|[]]]]]; inversion Q.
    - intros m c i [Q|[Q|[Q|[Q|[]]]]]; inversion Q; subst. repeat constructor. }
  pose proof cplx_domain as D. pose proof cplx_laws as L.
  split; [exact sto_Z|]. split; [exact D|]. split; [exact cplx_lop|]. split; [exact cplx_conj|].
  split; [constructor; intros; unfold cplx_sq, cplx_half; cbn; f_equal; apply Ropp_0|]. split; [now apply C32_sparse|].
  split; [exact hs_ex_fresh|]. split; [destruct hs_ex_facts as [-> _]; repeat constructor; reflexivity|]. split; [exact SC|].
  split.
  { destruct hs_ex_facts as [-> _]. repeat constructor.
    - exists (ESBoson 5 0%Z). split; [cbn; auto|reflexivity].
    - exists (ESBoson 5 0%Z). split; [cbn; auto|reflexivity].
    - exists (ESFermion 0%Z). split; [cbn; auto|reflexivity].
    - exists (ESSpin 3 0%Z). split; [cbn; auto|reflexivity]. }
  assert (E : forall c m, incl m B84 -> exists a, e_mono (std_gen_ops ioZ) cplx_ops c m = Ok a).
  { intros c m i. apply (e_mono_total (std_gen_ops ioZ) cplx_ops not_half (std_make_int ioZ cplx_ops L)).
    apply Forall_forall. intros g ig. destruct (i g ig) as [<-|[<-|[<-|[<-|[]]]]]; cbn; auto; discriminate. }
  assert (i1 : incl [GBoson false 0%Z; GFermion true 0%Z] B84) by (intros g [<-|[<-|[]]]; cbn; auto).
  assert (i2 : incl [GBoson true 0%Z; GSpin 3 Minus 0%Z] B84) by (intros g [<-|[<-|[]]]; cbn; auto).
  destruct (E (1, 0)%R _ i1) as [a Ea]. destruct (E (0, 1)%R _ i2) as [b Eb].
  assert (Ba : built ioZ cplx_ops B84 a) by (eapply b_mono; [exact i1|exact Ea]).
  assert (Bb : built ioZ cplx_ops B84 b) by (eapply b_mono; [exact i2|exact Eb]).
  assert (NH : forall e, built ioZ cplx_ops B84 e -> forall m c, In (m, c) e -> Forall not_half m).
  { intros e Be m c i. apply (built_inv ioZ sto_Z cplx_ops D B84 SC) in Be. destruct Be as [_ [_ Be]].
    eapply Forall_impl; [|apply (Be m c i)]. intros [d j|d j|mm cc j]; cbn [admissible not_half]; auto.
    intros [x [Q|[Q|[Q|[Q|[]]]]]]; inversion Q. discriminate. }
  destruct (C12_never_throws Z ioZ _ cplx_ops B84 b sto_Z D SC Bb) as [b' E'].
  { right. intros c i [Q|[Q|[Q|[Q|[]]]]]; inversion Q. }
  assert (P : exists p, e_mul (std_gen_ops ioZ) cplx_ops a b = Ok p).
  { exact (e_mul_total (std_gen_ops ioZ) cplx_ops not_half (std_make_int ioZ cplx_ops L) a b (NH a Ba) (NH b Bb)). }
  destruct P as [p Ep]. exists a, b, p, b'. auto 10.
Qed.
Example C84_ex_states :
  (forall n, n < 4 -> stays_below ioZ (spaces hs_ex) [GBoson true 0%Z; GSpin 3 Minus 0%Z] (4 * n)) /\
  ~ stays_below ioZ (spaces hs_ex) [GBoson true 0%Z; GSpin 3 Minus 0%Z] (4 * 4).
Proof.
  destruct hs_ex_facts as [-> _]. split.
  - intros n hn. assert (n = 0 \/ n = 1 \/ n = 2 \/ n = 3) as [->|[->|[->| ->]]] by lia;
      intros [|[|[|[|k]]]] d i E; inversion E; subst; try reflexivity; destruct k; discriminate.
  - intros H. specialize (H 2%nat 5 0%Z eq_refl). vm_compute in H. discriminate.
Qed.
(** a+_0 satisfies the hypotheses of C84_hermitian (and is not Hermitian) *)
Example C84_hermitian_ex :
  let B := [GBoson true 0%Z] in
  let a := [([GBoson true 0%Z], s_one cplx_ops)] in let a' := [([GBoson false 0%Z], s_conj cplx_ops (s_one cplx_ops))] in
  Forall spin_half B /\ Forall (known ioZ (spaces hs_ex)) B /\ built ioZ cplx_ops B a /\
  e_conj (std_gen_ops ioZ) cplx_ops a = Ok a' /\ a' <> a /\
  (forall m c, In (m, c) a \/ In (m, c) a' -> below_truncation ioZ (spaces hs_ex) m).
Proof.
  intros B a a'. pose proof cplx_domain as D. pose proof cplx_laws as L.
  assert (NZ : s_one cplx_ops <> s_zero cplx_ops) by (intros Q; inversion Q; now apply R1_neq_R0).
  split; [repeat constructor|]. split.
  { destruct hs_ex_facts as [-> _]. repeat constructor. exists (ESBoson 5 0%Z). split; [cbn; auto|reflexivity]. }
  split.
  { eapply (b_mono _ _ _ (s_one cplx_ops) [GBoson true 0%Z]); [apply incl_refl|].
    unfold e_mono. rewrite (proj2 (s_is_zero_false cplx_ops L _) NZ). reflexivity. }
  split; [exact (proj2 (C12_elements Z ioZ _ cplx_ops D cplx_conj) _ (GBoson true 0%Z) NZ)|].
  split; [intros Q; inversion Q|].
  destruct hs_ex_facts as [-> _]. intros m c Q d i [E|[E|[E|[E|[]]]]] dag; inversion E; subst.
  destruct Q as [[Q|[]]|[Q|[]]]; inversion Q; subst; destruct dag; vm_compute; reflexivity.
Qed.
