(** C33, adjoints: the linear operator of conj(e) is the Hermitian adjoint of
    the linear operator of e. *)
From Coq Require Import NArith ZArith List Bool Sorted Permutation Lia Setoid Morphisms Reals.
From Verif Require Import BitsModel BitsSpec BitsProofs ExprModel ExprSpec ExprOrder ExprMap ExprEval ExprStd ExprCanon ExprMain ExprThrow ExprInst ExprConj PropExpr PropFactories PropConj
  HSModel HSSpec HSEnum HSProofs HSMain PropHS LOpModel LOpSpec LOpFermion LOpSite LOpActF LOpActB LOpActS LOpComm LOpApply
  LOpMatrix LOpThrow LOpReject LOpMain LOpReal PropLOp PropLOp2 PropLOp3.
Import ListNotations.
Close Scope R_scope.
Close Scope nat_scope.
Open Scope N_scope.
Open Scope list_scope.

(** complex conjugation fixes the square roots and the half-integers *)
Record real_constants {S} (so : scalar_ops S) (sq : N -> S) (half : Z -> S) : Prop := {
  rc_sq : forall n, s_conj so (sq n) = sq n;
  rc_half : forall z, s_conj so (half z) = half z
}.

Section Adj.
Context {I S : Type} (io : index_ops I) (Hio : index_order io).
Context (so : scalar_ops S) (sq : N -> S) (half : Z -> S) (LL : lop_laws so sq half).
Context (D : scalar_domain so) (CL : conj_laws so) (RC : real_constants so sq half).
Let L : scalar_laws so := ll_ring _ _ _ LL.
Let MC : forall x y, s_mul so x y = s_mul so y x := ll_comm _ _ _ LL.
Notation gact := (gen_act io so sq half).
Context (l : list (espace I)) (S0 : StronglySorted (es_before io) l) (W : Forall es_wf l).

Lemma cj_neg x : s_conj so (s_neg so x) = s_neg so (s_conj so x).
Proof.
  pose proof (cl_add _ CL x (s_neg so x)) as E. rewrite (sl_neg so L), (sconj_0 so D CL) in E.
  apply (f_equal (fun v => s_add so (s_neg so (s_conj so x)) v)) in E.
  rewrite (sl_add_assoc so L), (sl_add_comm so L (s_neg so (s_conj so x)) (s_conj so x)), (sl_neg so L), (sl_add_0 so L), (sadd_0_r so L) in E.
  now symmetry.
Qed.
Lemma cj_sign b : s_conj so (sign so b) = sign so b.
Proof. destruct b; cbn [sign]; rewrite ?cj_neg, (sconj_1 so D CL); reflexivity. Qed.
Lemma carries_conj g e : carries io (gen_conj_gen g) e = carries io g e.
Proof. destruct g as [[|] i|[|] i|m [| |] i]; destruct e; reflexivity. Qed.
Lemma site_conj g k e : site io l g k e -> site io l (gen_conj_gen g) k e.
Proof. intros [E C]. split; [exact E|]. now rewrite carries_conj. Qed.
Lemma loc_back (g : gen I) (e : espace I) n c n' : carries io g e = true -> n < es_dim e -> loc so sq half g e n = Some (c, n') ->
  loc so sq half (gen_conj_gen g) e n' = Some (c, n).
Proof.
  intros C hn E. destruct g as [[|] i|[|] i|m [| |] i]; cbn [loc gen_conj_gen conj_comp negb] in *.
  - destruct (N.eqb_spec n 0); inversion E; subst. reflexivity.
  - destruct (N.eqb_spec n 1); inversion E; subst. reflexivity.
  - destruct (N.ltb_spec (n + 1) (es_dim e)); inversion E; subst. destruct (N.eqb_spec (n + 1) 0); [lia|].
    do 2 f_equal. lia.
  - destruct (N.eqb_spec n 0); inversion E; subst. replace (n - 1 + 1) with n by lia. destruct (N.ltb_spec n (es_dim e)); [reflexivity|lia].
  - rewrite (carries_dim io Hio _ e m Plus i eq_refl C) in hn.
    destruct (N.ltb_spec (n + 1) (N.of_nat m)); inversion E; subst. destruct (N.eqb_spec (n + 1) 0); [lia|].
    f_equal. f_equal; [f_equal; f_equal; lia|lia].
  - rewrite (carries_dim io Hio _ e m Minus i eq_refl C) in hn.
    destruct (N.eqb_spec n 0); inversion E; subst. destruct (N.ltb_spec (n - 1 + 1) (N.of_nat m)); [|lia].
    f_equal. f_equal; [f_equal; f_equal; lia|lia].
  - inversion E; subst. reflexivity.
Qed.
Lemma loc_real (g : gen I) (e : espace I) n c n' : loc so sq half g e n = Some (c, n') -> s_conj so c = c.
Proof.
  intros E. destruct g as [[|] i|[|] i|m [| |] i]; cbn [loc] in E;
    try match type of E with (if ?b then _ else _) = _ => destruct b end; inversion E; subst;
    first [apply (sconj_1 so D CL)|apply RC].
Qed.
Lemma jwf_self g k e x v : site io l g k e -> v <N es_nbits e ->
  jwf so (gen_conj_gen g) (offset l k) (set_field x (offset l k) (es_nbits e) v) = jwf so g (offset l k) x.
Proof.
  intros H hv. unfold jwf. replace (is_f (gen_conj_gen g)) with (is_f g) by (now destruct g).
  destruct (is_f g); auto. f_equal. apply par_ext. intros i hi. rewrite set_field_bits by auto.
  destruct (Nat.ltb_spec i (offset l k)); auto. lia.
Qed.
(** a generator maps |x> to c|y> exactly if its conjugate maps |y> to c|x> *)
Lemma gact_back g x c y : valid_state l x -> gact l g x = Some (c, y) -> gact l (gen_conj_gen g) y = Some (c, x) /\ s_conj so c = c.
Proof.
  intros V E. destruct (site_or io l g) as [[k [e H]]|U].
  2: { rewrite (gen_act_unknown io so sq half l g x U) in E. discriminate. }
  rewrite (gen_act_loc io Hio so sq half L l g k e x S0 H) in E.
  destruct (loc so sq half g e (bit_field x (offset l k) (es_nbits e))) as [[c' n']|] eqn:E1; [|discriminate].
  inversion E; subst c y. pose proof (loc_bits io Hio so sq half l W g k e x c' n' H V E1) as hb.
  pose proof (valid_field l k e x V (proj1 H)) as hn.
  split.
  - rewrite (gen_act_loc io Hio so sq half L l _ k e _ S0 (site_conj g k e H)), bit_field_set by auto.
    rewrite (loc_back g e _ c' n' (proj2 H) hn E1). rewrite (jwf_self g k e x n' H hb).
    rewrite set_field_set; auto; [now rewrite set_field_same|]. apply bit_field_lt.
  - rewrite (cl_mul _ CL), (loc_real g e _ _ _ E1), MC. f_equal.
    unfold jwf. destruct (is_f g); [apply cj_sign|apply (sconj_1 so D CL)].
Qed.
Lemma rho_adj g y x : valid_state l y -> valid_state l x ->
  rho io so sq half l (gen_conj_gen g) y x = s_conj so (rho io so sq half l g x y).
Proof.
  intros Vy Vx. unfold rho, col.
  destruct (gact l g y) as [[c z]|] eqn:E; cbn [amp1].
  - destruct (gact_back g y c z Vy E) as [E1 E2].
    destruct (N.eqb_spec z x) as [->|ne].
    + rewrite E1. cbn [amp1]. now rewrite N.eqb_refl.
    + rewrite (sconj_0 so D CL). destruct (gact l (gen_conj_gen g) x) as [[c' z']|] eqn:E3; cbn [amp1]; auto.
      destruct (N.eqb_spec z' y) as [->|]; auto. destruct (gact_back _ x c' y Vx E3) as [E4 _].
      rewrite gen_conj_invol, E in E4. congruence.
  - rewrite (sconj_0 so D CL). destruct (gact l (gen_conj_gen g) x) as [[c' z']|] eqn:E3; cbn [amp1]; auto.
    destruct (N.eqb_spec z' y) as [->|]; auto. destruct (gact_back _ x c' y Vx E3) as [E4 _].
    rewrite gen_conj_invol, E in E4. congruence.
Qed.
Lemma cj_ssum f b : s_conj so (ssum so f b) = ssum so (fun x => s_conj so (f x)) b.
Proof. induction b as [|x b IH]; cbn; [apply (sconj_0 so D CL)|]. now rewrite (cl_add _ CL), IH. Qed.

Context (bas : list N) (HB : basis_of l bas).
Notation ro := (mat_ops so bas).
Notation rh := (rho io so sq half l).
Definition star (M : @mat S) : @mat S := fun y x => s_conj so (M x y).

Context (B : list (gen I)) (SC : spin_consistent B) (KB : Forall (known io l) B) (NB : Forall (fun g => algebra_id g <> (-2)%Z) B).
Lemma adm_good g : admissible B g -> good io l g.
Proof.
  rewrite Forall_forall in KB, NB.
  destruct g as [d i|d i|m c i]; cbn [admissible]; intros [x hx]; specialize (KB _ hx); specialize (NB _ hx);
  (split; [destruct KB as [e [ie ce]]; exists e; (split; [exact ie|]); destruct e; cbn in *; auto; discriminate|auto]).
  cbn in NB. congruence.
Qed.
Lemma good_conj g : good io l g -> good io l (gen_conj_gen g).
Proof.
  intros [[e [ie ce]] b]. split; [|destruct g; auto]. exists e. split; auto. now rewrite carries_conj.
Qed.
Theorem mel_conj e r y x : built io so B e -> e_conj (std_gen_ops io) so e = Ok r -> In y bas -> In x bas ->
  mel io so sq half l r y x = s_conj so (mel io so sq half l e x y).
Proof.
  intros Be E iy ix. pose proof HB as [ND HV].
  pose proof (mat_ring so L bas ND) as MR. pose proof (mat_scalars so L bas ND MC rh) as MS.
  rewrite <- !(eval_expr_mel io Hio so sq half LL l S0 W bas HB) by auto.
  rewrite (ev_conj io Hio so D CL ro (mat_scalar so) rh MR MS B SC (good io l) adm_good (good_spin io l)
    (matrices_relations io Hio so sq half LL l S0 W bas HB) e r Be E y x iy ix).
  refine (evo_star so D CL ro (mat_scalar so) rh MR MS star e _ _ _ _ _ y x iy ix).
  - intros A A' H u v iu iv. unfold star. now rewrite H.
  - intros A A' u v _ _. unfold star. cbn. apply (cl_add _ CL).
  - intros A A' u v _ _. unfold star. cbn. rewrite cj_ssum. apply ssum_ext. intros z _. apply (cl_mul _ CL).
  - intros c u v _ _. unfold star, mat_scalar. rewrite (N.eqb_sym v u). destruct (u =? v); auto. apply (sconj_0 so D CL).
  - intros g u v iu iv. unfold star. symmetry. apply rho_adj; now apply HV.
Qed.
End Adj.

(** <A+ w | v> = <w | A v> for the operators A of an expression and A+ of its
    Hermitian conjugate; the conjugate is the result of conj(). *)
Theorem C33_adjoint : forall I (io : index_ops I) S V (so : scalar_ops S) (sq : N -> S) (half : Z -> S)
  (sv : sv_ops V S) (ok : V -> Prop) (amp : V -> N -> S) (size : V -> N) (h : hspace I) (B : list (gen I)) a a',
  index_order io -> scalar_domain so -> lop_laws so sq half -> conj_laws so -> real_constants so sq half ->
  sv_strict so sv ok amp size -> hs_fresh io h -> Forall int_mult (spaces h) ->
  spin_consistent B -> Forall (known io (spaces h)) B -> Forall (fun g => algebra_id g <> (-2)%Z) B ->
  built io so B a -> e_conj (std_gen_ops io) so a = Ok a' ->
  exists A A', make_loperator io a h = LOk A /\ make_loperator io a' h = LOk A' /\
  forall bas v w u z, basis_of (spaces h) bas ->
    state_of so ok amp size (spaces h) v -> state_of so ok amp size (spaces h) w ->
    lop_run so sq half sv A v u -> lop_run so sq half sv A' w z ->
    let dot p q := ssum so (fun x => s_mul so (s_conj so (amp p x)) (amp q x)) bas in
    dot z v = dot w u.
Proof.
  intros I io S V so sq half sv ok amp size h B a a' Hio D LL CL RC SS Fr IM SC KB NB Ba E.
  pose proof (reachable_inv io Hio h (fresh_reachable io h Fr)) as Hi. pose proof (fresh_algs io Hio h Fr) as HA.
  pose proof (ll_ring _ _ _ LL) as L. pose proof (ll_comm _ _ _ LL) as MC.
  assert (Ba' : built io so B a') by (eapply b_conj; [exact Ba|exact E]).
  pose proof (fun e => built_make io Hio so h Hi HA D B SC KB e) as MK. pose proof (fun e => built_canonical io Hio so D B SC e) as CN.
  destruct (MK a Ba) as [A Ea]. destruct (MK a' Ba') as [A' Ea']. exists A, A'. repeat (split; [assumption|]).
  intros bas v w u z HB Vv Vw R R' dot. unfold dot.
  destruct (run_spec io Hio so sq half LL sv ok amp size SS h Hi HA IM bas HB a A v u (CN a Ba) Ea Vv R) as [_ [_ Au]].
  destruct (run_spec io Hio so sq half LL sv ok amp size SS h Hi HA IM bas HB a' A' w z (CN a' Ba') Ea' Vw R') as [_ [_ Az]].
  set (M := mel io so sq half (spaces h) a) in *.
  assert (MA : forall y x, In y bas -> In x bas -> mel io so sq half (spaces h) a' y x = s_conj so (M x y)).
  { intros y x iy ix. exact (mel_conj io Hio so sq half LL D CL RC (spaces h) (proj1 Hi) (proj1 (proj2 Hi)) bas HB B SC KB NB a a' y x Ba E iy ix). }
  rewrite (ssum_ext so _ (fun x => ssum so (fun y => s_mul so (s_mul so (s_conj so (amp w y)) (M y x)) (amp v x)) bas)).
  2: { intros x ix. rewrite Az, (cj_ssum so D CL), <- (ssum_mul_r so L). apply ssum_ext. intros y iy.
       rewrite (MA x y ix iy), (cl_mul _ CL), (cl_invol _ CL). reflexivity. }
  rewrite (ssum_swap so L). apply ssum_ext. intros y iy. rewrite Au, <- (ssum_mul_l so L). apply ssum_ext. intros x ix.
  symmetry. apply (sl_mul_assoc so L).
Qed.
Print Assumptions C33_adjoint.

(** non-vacuity: complex numbers, the space of two fermions, a boson and a
    spin 1 (see PropLOp3.v), and the operator i c+_0 S-_0 *)
Example C33_adjoint_ex :
  let B := [GFermion true 0%Z; GFermion false 1%Z; GSpin 3 Minus 0%Z] in
  index_order ioZ /\ scalar_domain cplx_ops /\ lop_laws cplx_ops cplx_sq cplx_half /\ conj_laws cplx_ops /\
  real_constants cplx_ops cplx_sq cplx_half /\
  sv_strict cplx_ops (sparse_sv cplx_ops) (sparse_nz cplx_ops) (sparse_amp cplx_ops) sp_size /\
  hs_fresh ioZ hs_ex /\ Forall int_mult (spaces hs_ex) /\ spin_consistent B /\
  Forall (known ioZ (spaces hs_ex)) B /\ Forall (fun g => algebra_id g <> (-2)%Z) B /\
  exists a a', e_mono (std_gen_ops ioZ) cplx_ops (0, 1)%R B = Ok a /\ built ioZ cplx_ops B a /\ e_conj (std_gen_ops ioZ) cplx_ops a = Ok a'.
Proof.
  intros B. assert (SC : spin_consistent B).
  { split.
    - intros c c' m i [Q|[Q|[Q|[]]]]; inversion Q.
    - intros m c i [Q|[Q|[Q|[]]]]; inversion Q; subst. repeat constructor. }
  pose proof cplx_domain as D. pose proof cplx_laws as L.
  split; [exact sto_Z|]. split; [exact D|]. split; [exact cplx_lop|]. split; [exact cplx_conj|].
  split; [constructor; intros; unfold cplx_sq, cplx_half; cbn; f_equal; apply Ropp_0|]. split; [now apply C32_sparse|].
  split; [exact hs_ex_fresh|]. split; [destruct hs_ex_facts as [-> _]; repeat constructor; reflexivity|]. split; [exact SC|].
  split.
  { destruct hs_ex_facts as [-> _]. repeat constructor.
    - exists (ESFermion 0%Z). split; [cbn; auto|reflexivity].
    - exists (ESFermion 1%Z). split; [cbn; auto|reflexivity].
    - exists (ESSpin 3 0%Z). split; [cbn; auto|reflexivity]. }
  split; [repeat constructor; discriminate|].
  assert (E : exists a, e_mono (std_gen_ops ioZ) cplx_ops (0, 1)%R B = Ok a).
  { apply (e_mono_total (std_gen_ops ioZ) cplx_ops not_half (std_make_int ioZ cplx_ops L)).
    repeat constructor. cbn. discriminate. }
  destruct E as [a Ea]. assert (Ba : built ioZ cplx_ops B a) by (eapply b_mono; [apply incl_refl|exact Ea]).
  destruct (C12_never_throws Z ioZ _ cplx_ops B a sto_Z D SC Ba) as [a' E'].
  { right. intros c i [Q|[Q|[Q|[]]]]; inversion Q. }
  exists a, a'. auto.
Qed.
