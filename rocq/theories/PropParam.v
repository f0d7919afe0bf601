(** * Property C93: the parametric oscillator of examples/parametric_loperator.cpp.
    Vocabulary: PolySpec.v, ExprSpec.v, LOpSpec.v, PolyOsc.osc_terms. *)
From Coq Require Import NArith ZArith List Bool Lia Sorted QArith Qcanon Reals.
From Verif Require Import ExprModel ExprSpec ExprOrder ExprMap ExprEval ExprStd ExprThrow ExprMain ExprInst PropExpr
  ConvSpec FockSpec PropUnique BitsModel BitsSpec HSModel HSSpec HSEnum HSProofs HSMain PropHS LOpModel LOpSpec LOpFermion LOpSite LOpApply LOpMain LOpReal
  PropLOp PropLOp2 PropLOp3 PolyModel PolySpec PolyProofs PolyConv PolyExpr PropPoly PolyOsc.
Import ListNotations.
Close Scope Qc_scope.
Close Scope Q_scope.
Close Scope R_scope.
Close Scope string_scope.
Open Scope nat_scope.
Open Scope list_scope.

(** For all polynomials w0 and g the program makes its Hamiltonian H (nothing is
    thrown), and H at x is, apart from terms that vanish there,
    (c w0 + w0 g^2) - w0 g a+ - w0 g a + w0 a+ a  with the values of w0 and g at x;
    it is the operator  c w0 + w0 (a+ - g)(a - g)  in every ring.  c: the number 0.5 *)
Theorem C93_oscillator : forall I (io : index_ops I) T (bo : scalar_ops T),
  index_order io -> scalar_domain bo -> (forall a b, s_mul bo a b = s_mul bo b a) ->
  forall c w0 g (i : I), exists H, oscillator bo io c w0 g i = Ok H /\
  forall x, let w := poly_eval bo w0 x in let gx := poly_eval bo g x in
  drop_zeros bo (expr_at bo x H) = drop_zeros bo
    [([], s_add bo (s_mul bo c w) (s_mul bo w (s_mul bo gx gx)));
     ([GBoson true i], s_neg bo (s_mul bo w gx)); ([GBoson false i], s_neg bo (s_mul bo w gx));
     ([GBoson true i; GBoson false i], w)] /\
  (forall R (ro : ring_ops R) (inj : T -> R) (rho : gen I -> R),
     is_ring ro -> scalar_image bo ro inj rho -> relations_on (on_sites [SB i]) bo ro inj rho ->
     req ro (eval_expr ro inj rho (expr_at bo x H))
       (radd ro (rmul ro (rmul ro (inj w) (radd ro (rho (GBoson true i)) (ropp ro (inj gx))))
                         (radd ro (rho (GBoson false i)) (ropp ro (inj gx))))
                (rmul ro (inj c) (inj w)))).
Proof.
  intros I io T bo Hio D C c w0 g i. pose proof (sd_laws _ D) as L.
  destruct (osc_ok io bo Hio D c w0 g i) as [H E]. exists H. split; [exact E|]. intros x w gx.
  rewrite osc_run in E. set (P := osc_prog bo c w0 g i) in *.
  assert (U : uses P = [GBoson true i; GBoson false i]) by reflexivity.
  assert (HB : Forall simple (uses P)) by (rewrite U; repeat constructor).
  assert (V : forall R (ro : ring_ops R) (inj : T -> R) (rho : gen I -> R),
     is_ring ro -> scalar_image bo ro inj rho -> relations_on (on_sites (map site_of (uses P))) bo ro inj rho ->
     req ro (eval_expr ro inj rho (expr_at bo x H)) (eval_expr ro inj rho (osc_terms bo c w0 g i x))).
  { intros R ro inj rho Hr SI RL. pose proof (ri_equiv _ Hr) as EQ. pose proof (ri_mul_ext _ Hr) as MX. pose proof (ri_add_ext _ Hr) as AX.
    rewrite (C93_value I io T bo Hio D C P H x HB E R ro inj rho Hr SI RL).
    rewrite (terms_value bo D c w0 g i ro inj rho Hr SI x).
    cbn [P osc_prog pmap meaning eval_mono].
    destruct (C93_polynomial T bo L C w0 w0 x c) as (_ & _ & _ & _ & S & _). rewrite S, (si_mul _ _ _ _ SI).
    destruct (C93_polynomial T bo L C w0 w0 x (s_one bo)) as (_ & _ & _ & _ & _ & K1 & _).
    change (s_one (poly_ops bo)) with (poly_const bo (s_one bo)). rewrite K1, (si_1 _ _ _ _ SI), !(ri_mul_1_l _ Hr), !(ri_mul_1_r _ Hr). reflexivity. }
  split.
  - change (drop_zeros bo (expr_at bo x H) = drop_zeros bo (osc_terms bo c w0 g i x)).
    destruct (at_canonical io bo Hio D P H x HB E) as [Ca Si].
    apply (canonical_unique io Hio bo D (uses P)); auto.
    + apply (terms_canonical io bo D C).
    + intros m d k. apply in_app_iff in k. destruct k as [k|k]; [exact (Si m d k)|].
      unfold drop_zeros in k. apply filter_In in k. destruct k as [k _]. rewrite U.
      assert (on : forall b, on_sites (map site_of [GBoson true i; GBoson false i]) (GBoson b i)) by (intros b; split; [now left|exact Logic.I]).
      unfold osc_terms in k. cbn [In] in k. destruct k as [k|[k|[k|[k|[]]]]]; inversion k; subst; repeat constructor; apply on.
    + intros mu cc j k. rewrite U in k. destruct k as [k|[k|[]]]; discriminate.
    + intros R ro inj rho Hr SI RL. pose proof (ri_equiv _ Hr) as EQ.
      rewrite !(drop_value bo L ro inj rho _ Hr SI). apply V; auto.
  - intros R ro inj rho Hr SI RL. pose proof (ri_equiv _ Hr) as EQ.
    rewrite (V R ro inj rho Hr SI).
    + apply (terms_value bo D c w0 g i ro inj rho Hr SI x).
    + rewrite U. destruct RL.
      assert (W : forall k, on_sites (map site_of [GBoson true i; GBoson false i]) k -> on_sites [SB i] k).
      { intros k [h1 h2]. split; [|exact h2]. cbn in *. tauto. }
      constructor; eauto.
Qed.
Print Assumptions C93_oscillator.

Section Ground.
Context {I T V : Type} (io : index_ops I) (Hio : index_order io) (bo : scalar_ops T) (D : scalar_domain bo).
Context (sq : N -> T) (half : Z -> T) (LL : lop_laws bo sq half).
Let L := sd_laws _ D.
Let C := ll_comm _ _ _ LL.

Lemma prog_canonical (P : prog (gen I) poly) h x : Forall simple (uses P) -> run (std_gen_ops io) (poly_ops bo) P = Ok h ->
  canonical_monos io (expr_at bo x h) /\
  forall m c, In (m, c) (expr_at bo x h) -> Forall (on_sites (map site_of (uses P))) m.
Proof.
  intros HB E. apply (run_convert (std_gen_ops io) _ _ _ (poly_exact bo L)) in E.
  assert (Bt : built io (cpoly_ops bo) (uses P) (convert_all (pj bo) h)).
  { apply (run_built io (cpoly_ops bo) (uses P) (pmap (pj bo) P)); [rewrite uses_pmap; apply incl_refl|exact E]. }
  pose proof (C03_canonical_form I io _ _ (uses P) _ Hio (cpoly_domain bo L D) (simple_consistent _ HB) Bt) as [_ Cm].
  assert (K : forall m c, In (m, c) (expr_at bo x h) -> exists d, In (m, d) (convert_all (pj bo) h)).
  { intros m c i. unfold expr_at in i. apply in_map_iff in i. destruct i as [[m' p] [Q i]]. inversion Q; subst.
    exists (pj bo p). unfold convert_all. apply in_map_iff. exists (m, p). auto. }
  split; intros m c i; destruct (K m c i) as [d j]; [exact (proj1 (Cm m d j))|].
  exact (built_on io Hio (cpoly_ops bo) (cpoly_domain bo L D) (uses P) HB _ Bt m d j).
Qed.
Lemma mel_drop l e y x : mel io bo sq half l (drop_zeros bo e) y x = mel io bo sq half l e y x.
Proof.
  induction e as [|[m c] e IH]; [reflexivity|]. unfold drop_zeros in *. cbn [filter snd]. destruct (s_is_zero bo c) eqn:Z; cbn [negb mel].
  - apply (sl_is_zero bo L) in Z. subst c. now rewrite IH, (ml0 bo L), (sl_add_0 bo L).
  - now rewrite IH.
Qed.
Lemma set_field_0 o n v : set_field 0 o n v = (2 ^ N.of_nat o * v)%N.
Proof.
  unfold set_field. rewrite N.mod_0_l by (apply N.pow_nonzero; discriminate). rewrite N.div_0_l by (apply N.pow_nonzero; discriminate).
  now rewrite N.mul_0_r, N.add_0_r, N.add_0_l.
Qed.
Lemma bit_field_zero o n : bit_field 0 o n = 0%N.
Proof. unfold bit_field. rewrite N.shiftr_0_l. apply N.mod_0_l. apply N.pow_nonzero. discriminate. Qed.
End Ground.

(** What the program checks: in every Hilbert space with the boson i (at least
    two states), whatever else it contains and for every kind of state vector,
    the parametric operator made of H, called with the ground state and x, gives
    (c w0 + w0 g^2) |0> - w0 g sqrt(1) |1>. *)
Theorem C93_ground_state : forall I (io : index_ops I) T V (bo : scalar_ops T) sq half
  (sv : sv_ops V T) ok amp size (hs : hspace I) c w0 g (i : I) k e (x : T) (v : V),
  index_order io -> scalar_domain bo -> lop_laws bo sq half -> sv_strict bo sv ok amp size ->
  hs_fresh io hs -> Forall int_mult (spaces hs) ->
  nth_error (spaces hs) k = Some e -> carries io (GBoson true i) e = true -> (1 < es_dim e)%N ->
  state_of bo ok amp size (spaces hs) v ->
  (forall n, amp v n = if N.eqb n 0 then s_one bo else s_zero bo) ->
  exists H P, oscillator bo io c w0 g i = Ok H /\
  make_loperator io (map (fun mp => (fst mp, fun a : T => (poly_eval bo (snd mp) a, a))) H) hs = LOk P /\
  (exists ent, sv_entries sv v ent) /\
  forall ent, sv_entries sv v ent -> exists u, plop_apply bo sq half sv P v ent x = Some u /\
  let w := poly_eval bo w0 x in let gx := poly_eval bo g x in
  forall n, amp u n =
    if N.eqb n 0 then s_add bo (s_mul bo c w) (s_mul bo w (s_mul bo gx gx))
    else if N.eqb n (2 ^ N.of_nat (offset (spaces hs) k)) then s_neg bo (s_mul bo (s_mul bo w gx) (sq 1%N))
    else s_zero bo.
Proof.
  intros I io T V bo sq half sv ok amp size hs c w0 g i k e x v Hio D LL SS Fr IM Ek Cr De Vv Av.
  pose proof (reachable_inv io Hio hs (fresh_reachable io hs Fr)) as Hi. pose proof (fresh_algs io Hio hs Fr) as HA.
  pose proof (sd_laws _ D) as L. pose proof (ll_comm _ _ _ LL) as C. destruct (basis_exists io hs Hi) as [bas HBs].
  pose proof Hi as [S0 [W _]].
  destruct (C93_oscillator I io T bo Hio D C c w0 g i) as [H [EH O]].
  destruct (O x) as [Ot _]. cbv zeta in Ot. clear O.
  assert (CK : canonical_monos io (expr_at bo x H) /\
    forall m d, In (m, d) (expr_at bo x H) -> Forall (on_sites (map site_of (uses (osc_prog bo c w0 g i)))) m).
  { pose proof EH as EH'. rewrite osc_run in EH'. apply (prog_canonical io Hio bo D) with (2 := EH'). repeat constructor. }
  destruct CK as [Cm Kn].
  destruct (make_known io Hio hs Hi HA (expr_at bo x H)) as [Lp EL]; [exact Cm| |].
  { intros m d j. specialize (Kn m d j). rewrite Forall_forall in Kn. apply Forall_forall. intros gn hg. destruct (Kn gn hg) as [h1 _]. exists e. split; [eapply nth_error_In; eauto|].
    destruct gn as [b q|b q|mu cc q]; cbn in h1; destruct h1 as [h1|[h1|[]]]; try discriminate; inversion h1; subst; destruct e; try discriminate Cr; exact Cr. }
  pose proof (C93_operator I io T bo hs H x) as K. rewrite EL in K.
  destruct (make_loperator io (map (fun mp => (fst mp, fun a : T => (poly_eval bo (snd mp) a, a))) H) hs) as [P| | |] eqn:EP; try contradiction.
  exists H, P. split; [exact EH|]. split; [exact EP|].
  assert (PF : pure_functors P).
  { clear - EP. revert P EP. unfold make_loperator. generalize [(-3)%Z; (-2)%Z; (-1)%Z]. intros alg. induction H as [|[m p] H IH]; intros P E m' f a i; cbn [map lop_make fst snd] in E.
    - inversion E; subst. destruct i.
    - destruct (mono_make io hs alg m) as [b|q| |]; cbn [lbind] in E; try discriminate.
      destruct (lop_make io hs alg _) as [P'|q| |] eqn:E'; cbn [lbind] in E; try discriminate. inversion E; subst.
      destruct i as [i|i]; [inversion i; subst; reflexivity|]. exact (IH P' eq_refl m' f a i). }
  split; [apply (svl_visits _ _ _ _ _ (svs_laws _ _ _ _ _ SS))|]. intros ent Ee.
  destruct (apply_vec io Hio bo sq half LL sv ok amp size SS hs Hi HA IM bas HBs (expr_at bo x H) Lp v v ent Cm EL Vv (proj1 Vv) (proj1 (proj2 Vv)) Ee)
    as [u [Eu [_ [_ Au]]]].
  exists u. split.
  { destruct (C36_at bo sq half sv P x v v ent [] PF) as [Q _]. rewrite Q, K. exact Eu. }
  intros w gx n. rewrite Au.
  assert (one0 : s_one bo <> s_zero bo).
  { apply (sd_const bo D (VInt 1)); [|reflexivity]. rewrite (sl_make_int bo L). simpl. now rewrite (ad0 bo L). }
  assert (V0 : valid_state (spaces hs) 0).
  { apply (proj2 (proj2 Vv)). rewrite Av. exact one0. }
  rewrite (ssum_single bo L bas 0%N).
  2: exact (proj1 HBs). 2: now apply HBs.
  2: { intros y _ ny. rewrite Av. destruct (N.eqb_spec y 0); [contradiction|]. apply (mr0 bo L). }
  rewrite Av, N.eqb_refl, (sl_mul_1_r bo L), <- (mel_drop io bo D sq half), Ot, (mel_drop io bo D sq half).
  assert (GA : gen_act io bo sq half (spaces hs) (GBoson false i) 0 = None).
  { rewrite (gen_act_loc io Hio bo sq half L (spaces hs) _ k e 0%N S0).
    - rewrite bit_field_zero. reflexivity.
    - split; [exact Ek|]. destruct e; exact Cr. }
  assert (GB : gen_act io bo sq half (spaces hs) (GBoson true i) 0 = Some (sq 1%N, (2 ^ N.of_nat (offset (spaces hs) k))%N)).
  { rewrite (gen_act_loc io Hio bo sq half L (spaces hs) _ k e 0%N S0 (conj Ek Cr)). rewrite bit_field_zero. cbn [loc].
    destruct (N.ltb_spec (0 + 1) (es_dim e)); [|lia]. unfold jwf. cbn [is_f]. now rewrite (sl_mul_1_l bo L), set_field_0, N.mul_1_r. }
  cbn [mel mono_act LOpSpec.obind amp1]. rewrite GA. cbn [LOpSpec.obind amp1]. rewrite GB. cbn [amp1].
  rewrite !(mr0 bo L), !(ad0 bo L), (sl_mul_1_l bo L). rewrite (N.eqb_sym 0 n), (N.eqb_sym _ n).
  destruct (N.eqb_spec n 0) as [->|n0].
  - destruct (N.eqb_spec 0 (2 ^ N.of_nat (offset (spaces hs) k))) as [Z|_].
    + exfalso. symmetry in Z. revert Z. apply N.pow_nonzero. discriminate.
    + now rewrite (sl_mul_1_r bo L), (mr0 bo L), (ad0 bo L).
  - rewrite (mr0 bo L), (sl_add_0 bo L). destruct (N.eqb_spec n (2 ^ N.of_nat (offset (spaces hs) k))).
    + apply (s_mul_neg_l bo L).
    + apply (mr0 bo L).
Qed.
Print Assumptions C93_ground_state.

(** The example program: w0 = {2}, g = {0, 3}; H = 1 + 18 x^2 - 6 x a+ - 6 x a +
    2 a+ a.  At x = 0 the terms of a+ and a vanish: they stay in the expression
    with the coefficient zero. *)
Definition qi (n : Z) : Qc := Q2Qc (inject_Z n).
Definition ex_w0 : @poly Qc := poly_of double_scalar_ops [qi 2].
Definition ex_g : @poly Qc := poly_of double_scalar_ops [qi 0; qi 3].
Definition ex_H : list (list (gen Z) * @poly Qc) :=
  [([], poly_of double_scalar_ops [qi 1; qi 0; qi 18]);
   ([GBoson true 0%Z], poly_of double_scalar_ops [qi 0; qi (-6)]);
   ([GBoson false 0%Z], poly_of double_scalar_ops [qi 0; qi (-6)]);
   ([GBoson true 0%Z; GBoson false 0%Z], poly_of double_scalar_ops [qi 2])].
Example C93_program :
  oscillator double_scalar_ops ioZ (Q2Qc (1 # 2)) ex_w0 ex_g 0%Z = Ok ex_H /\
  expr_at double_scalar_ops (qi 2) ex_H =
    [([], qi 73); ([GBoson true 0%Z], qi (-12)); ([GBoson false 0%Z], qi (-12)); ([GBoson true 0%Z; GBoson false 0%Z], qi 2)] /\
  expr_at double_scalar_ops (qi 0) ex_H =
    [([], qi 1); ([GBoson true 0%Z], qi 0); ([GBoson false 0%Z], qi 0); ([GBoson true 0%Z; GBoson false 0%Z], qi 2)] /\
  drop_zeros double_scalar_ops (expr_at double_scalar_ops (qi 0) ex_H) =
    [([], qi 1); ([GBoson true 0%Z; GBoson false 0%Z], qi 2)].
Proof.
  split; [|split; [|split]]; vm_compute; repeat f_equal; apply Qc_is_canon; reflexivity.
Qed.
(** Polynomials that are zero keep their length: (1 + x) - (1 + x) is {0, 0}. *)
Example C93_cancel :
  let p := poly_of double_scalar_ops [qi 1; qi 1] in let q := poly_of double_scalar_ops [qi 1; qi (-1)] in
  poly_is_zero double_scalar_ops (poly_sub double_scalar_ops p p) = true /\
  degree (poly_sub double_scalar_ops p p) = 1 /\
  poly_mul double_scalar_ops p q = poly_of double_scalar_ops [qi 1; qi 0; qi (-1)].
Proof. split; [reflexivity|split; [reflexivity|]]. vm_compute; repeat f_equal; apply Qc_is_canon; reflexivity. Qed.
(** C93_substitution: the program of the example meets its hypotheses. *)
Example C93_substitution_ex :
  index_order ioZ /\ scalar_domain double_scalar_ops /\
  let P := osc_prog double_scalar_ops (Q2Qc (1 # 2)) ex_w0 ex_g 0%Z in
  Forall simple (uses P) /\ half_if_spins double_scalar_ops (uses P) /\
  run (std_gen_ops ioZ) (poly_ops double_scalar_ops) P = Ok ex_H /\
  run (std_gen_ops ioZ) double_scalar_ops (pmap (fun p => poly_eval double_scalar_ops p (qi 0)) P) =
    Ok [([], qi 1); ([GBoson true 0%Z; GBoson false 0%Z], qi 2)].
Proof.
  split; [exact sto_Z|]. split; [exact double_domain|]. cbv zeta. split; [repeat constructor|]. split.
  - intros m c i k. destruct k as [k|[k|[]]]; discriminate.
  - split; vm_compute; repeat f_equal; apply Qc_is_canon; reflexivity.
Qed.
(** C93_ground_state: two fermions, a boson with 5 states and a spin 1, real
    numbers, a sparse vector with the amplitude of the ground state. *)
Example C93_ground_state_ex :
  index_order ioZ /\ scalar_domain real_ops /\ lop_laws real_ops real_sq real_half /\
  sv_strict real_ops (sparse_sv real_ops) (sparse_nz real_ops) (sparse_amp real_ops) sp_size /\
  hs_fresh ioZ hs_ex /\ Forall int_mult (spaces hs_ex) /\
  nth_error (spaces hs_ex) 2 = Some (ESBoson 5 0%Z) /\ carries ioZ (GBoson true 0%Z) (ESBoson 5 0%Z) = true /\
  (1 < es_dim (ESBoson 5 0%Z))%N /\
  let v := mk_sparse (2 ^ 7) [(0%N, s_one real_ops)] in
  state_of real_ops (sparse_nz real_ops) (sparse_amp real_ops) sp_size (spaces hs_ex) v /\
  (forall n, sparse_amp real_ops v n = if N.eqb n 0 then s_one real_ops else s_zero real_ops) /\
  real_sq 1 = s_one real_ops.
Proof.
  pose proof real_lop as LL. pose proof (ll_ring _ _ _ LL) as L.
  assert (Am : forall n, sparse_amp real_ops (mk_sparse (2 ^ 7) [(0%N, s_one real_ops)]) n = if N.eqb n 0 then s_one real_ops else s_zero real_ops).
  { intros n. unfold sparse_amp, dat_amp. cbn [sp_data sp_find]. destruct (N.eqb_spec 0 n) as [<-|ne]; [reflexivity|].
    destruct (N.eqb_spec n 0) as [E|_]; [congruence|]. reflexivity. }
  split; [exact sto_Z|]. split; [exact real_domain|]. split; [exact LL|]. split; [now apply C32_sparse|].
  split; [exact hs_ex_fresh|]. split; [destruct hs_ex_facts as [-> _]; repeat constructor; reflexivity|].
  split; [reflexivity|]. split; [reflexivity|]. split; [reflexivity|]. cbv zeta. split; [|split; [exact Am|]].
  - split; [|split].
    + assert (one0 : s_one real_ops <> s_zero real_ops) by (cbn; apply R1_neq_R0). repeat constructor; cbn; auto.
    + vm_compute. discriminate.
    + intros x hx. assert (E0 : x = 0%N) by (rewrite Am in hx; destruct (N.eqb_spec x 0); congruence). rewrite E0. clear.
      split; [vm_compute; reflexivity|].
      destruct hs_ex_facts as [-> _]. intros [|[|[|[|k]]]] e E; cbn in E; try (destruct k; discriminate); inversion E; subst; vm_compute; reflexivity.
  - unfold real_sq. cbn. apply sqrt_1.
Qed.
