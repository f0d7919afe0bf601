(** * C88: sums and products of expressions in floating point arithmetic.
    Vocabulary: ERoundSpec.v, RoundModel.v (double and std::complex<double>,
    exponents unbounded), TolSpec.v (few_terms, keys_sorted), LinSpec.v. *)
From Coq Require Import Reals ZArith Bool Lia Lra Psatz List Sorted.
From Flocq Require Import Core.
From Verif Require Import ExprModel ExprSpec ExprOrder ExprMap ExprEval ExprStd ExprMain ExprThrow LinSpec TolSpec PropTol
  LOpModel LOpSpec LOpReal RoundModel RoundSpec RoundInst ERoundSpec ERoundProofs ERoundSize.
From Verif Require RoundProofs.
Import ListNotations.
Close Scope Z_scope.
Close Scope Qc_scope.
Close Scope Q_scope.
Open Scope nat_scope.
Open Scope list_scope.

(** *** double and std::complex<double> *)
Lemma dbl_float : float_ops real_ops dbl_ops Rabs (/ 2 ^ 53) (100 * / 2 ^ 52).
Proof.
  pose proof dbl_rounds as D. pose proof u53_pos as U. pose proof tol_pos as T. unfold u53 in *. unfold dbl_tol in T.
  constructor.
  - lra.
  - lra.
  - reflexivity.
  - apply (ro_add _ _ _ _ _ _ _ _ _ D).
  - intros x y. apply rnd_err.
  - apply (ro_mul _ _ _ _ _ _ _ _ _ D).
  - apply (ro_zero _ _ _ _ _ _ _ _ _ D).
  - apply (ro_tol _ _ _ _ _ _ _ _ _ D).
  - intros x H. cbn. destruct (Req_dec x 0) as [|n]; [assumption|]. apply Rabs_pos_lt in n. lra.
Qed.
Lemma cdbl_float : float_ops cplx_ops cdbl_ops cabs (3 * / 2 ^ 53) (sqrt 2 * (100 * / 2 ^ 52)).
Proof.
  pose proof cdbl_rounds as D. pose proof u53_pos as U. pose proof tol_pos as T. unfold uc, u53 in *. unfold dbl_tol in *.
  constructor.
  - lra.
  - pose proof (sqrt_pos 2). apply Rmult_le_pos; lra.
  - reflexivity.
  - apply (ro_add _ _ _ _ _ _ _ _ _ D).
  - intros x y. pose proof (ro_add _ _ _ _ _ _ _ _ _ D x (s_neg cplx_ops y)) as K. exact K.
  - apply (ro_mul _ _ _ _ _ _ _ _ _ D).
  - apply (ro_zero _ _ _ _ _ _ _ _ _ D).
  - apply (ro_tol _ _ _ _ _ _ _ _ _ D).
  - intros [x y] H. pose proof (cabs_pos (x, y)) as P. pose proof (cabs_sq (x, y)) as Q. cbn [fst snd] in Q.
    assert (Z : cabs (x, y) = 0%R) by lra. rewrite Z in Q. cbn.
    assert (Hx : (x * x = 0)%R) by nra. assert (Hy : (y * y = 0)%R) by nra.
    apply Rmult_integral in Hx. apply Rmult_integral in Hy. destruct Hx, Hy; subst; reflexivity.
Qed.

(** *** the product *)
Section Generic.
Context {S : Type} (so fo : scalar_ops S) (nrm : S -> R) (u tol : R).
Context (L : scalar_laws so) (NL : norm_laws so nrm) (FL : float_ops so fo nrm u tol).
Lemma product_error {G} (go : gen_ops G) a b e0 : gen_order go -> few_terms go -> constants_exact go so fo ->
  e_mul go so a b = Ok e0 ->
  exists e ea, e_mul go fo a b = Ok e /\ keys_sorted go e /\
    e_mul go (magnitude_ops so nrm) (magnitudes nrm a) (magnitudes nrm b) = Ok ea /\
    forall m x x0 M, coefficient so e m x -> coefficient so e0 m x0 -> coefficient (magnitude_ops so nrm) ea m M ->
      (nrm (s_sub so x x0) <= coef_error u tol (steps_all a b) M /\ nrm x0 <= M)%R.
Proof.
  intros Ho FT CE E. destruct (e_mul_near go Ho FT so fo L nrm NL u tol FL CE a b e0 E) as [h0 [e [ea [E1 [E2 [h1 [h2 o]]]]]]].
  exists e, ea. split; [exact E1|]. split; [exact h1|]. split; [exact E2|].
  intros m x x0 M hx hx0 hM. apply (coefficient_coef go Ho) in hx; [|exact h1]. apply (coefficient_coef go Ho) in hx0; [|exact h0].
  apply (coefficient_coef go Ho) in hM; [|exact h2]. subst x x0 M. exact (o m).
Qed.
Lemma sum_error {G} (go : gen_ops G) a b m x y s d : gen_order go -> keys_sorted go a -> keys_sorted go b ->
  coefficient so a m x -> coefficient so b m y ->
  coefficient so (e_add go fo a b) m s -> coefficient so (e_sub go fo a b) m d ->
  (nrm (s_sub so s (s_add so x y)) <= u * nrm (s_add so x y) + tol /\
   nrm (s_sub so d (s_sub so x y)) <= u * nrm (s_sub so x y) + tol)%R.
Proof.
  intros Ho ha hb cx cy cs cd.
  assert (EX : forall (e : list (list G * S)) k c, msorted go e -> coefficient so e k c ->
     match map_find go k e with Some v => v | None => s_zero so end = c).
  { intros e k c he h. symmetry. exact (coefficient_coef go Ho so e k c he h). }
  destruct (sums_sorted go fo Ho a b ha hb) as [s1 s2]. destruct (find_sums go fo Ho a b m ha hb) as [F1 F2].
  apply (EX _ _ _ ha) in cx. apply (EX _ _ _ hb) in cy. apply (EX _ _ _ s1) in cs. apply (EX _ _ _ s2) in cd.
  rewrite F1 in cs. rewrite F2 in cd. clear F1 F2. pose proof (fl_u _ _ _ _ _ FL) as U. pose proof (fl_t _ _ _ _ _ FL) as T.
  assert (P : forall z, (0 <= u * nrm z)%R) by (intros; apply Rmult_le_pos; [exact U|apply (nl_pos _ _ NL)]).
  assert (SS : forall z, nrm (s_sub so z z) = 0%R) by (intros; rewrite (RoundProofs.sub_self so L); apply (nl_0 _ _ NL)).
  assert (NW : forall w, nrm (s_sub so (s_zero so) w) = nrm w) by (intros; rewrite (sl_sub so L), (sl_add_0 so L); apply (nl_neg _ _ NL)).
  assert (A0 : forall z, s_add so z (s_zero so) = z) by (intros; rewrite (sl_add_comm so L); apply (sl_add_0 so L)).
  assert (DR : forall w z, (nrm (s_sub so w z) <= u * nrm z)%R -> (nrm w <= tol)%R -> (nrm (s_sub so (s_zero so) z) <= u * nrm z + tol)%R).
  { intros w z H1 H2. pose proof (RoundProofs.tri so nrm L NL (s_zero so) w z) as K. rewrite (NW w) in K. lra. }
  assert (S0 : forall z, s_sub so z (s_zero so) = z).
  { intros z. pose proof (RoundProofs.sub_add so L z (s_zero so)) as K. rewrite (sl_add_0 so L) in K. symmetry. exact K. }
  destruct (map_find go m a) as [v|], (map_find go m b) as [w|]; cbn [merged] in cs, cd; subst x y.
  - pose proof (fl_add _ _ _ _ _ FL v w) as A. pose proof (fl_sub _ _ _ _ _ FL v w) as B. split.
    + destruct (s_is_zero fo (s_add fo v w)) eqn:Z; cbn iota in cs; subst s; [|lra]. eapply DR; [exact A|]. apply (fl_tol _ _ _ _ _ FL _ Z).
    + destruct (s_is_zero fo (s_sub fo v w)) eqn:Z; cbn iota in cd; subst d; [|lra]. eapply DR; [exact B|]. apply (fl_tol _ _ _ _ _ FL _ Z).
  - subst s d. rewrite A0, S0, SS. pose proof (P v). lra.
  - subst s d. rewrite (sl_add_0 so L), SS. pose proof (P w). split; [lra|].
    rewrite (fl_0 _ _ _ _ _ FL). pose proof (fl_sub _ _ _ _ _ FL (s_zero so) w). lra.
  - subst s d. rewrite A0, !S0, (nl_0 _ _ NL). lra.
Qed.
Lemma scale_error {G} (alpha : S) (a : list (list G * S)) m x y : s_is_zero fo alpha = false ->
  In (m, x) a -> NoDup (map fst a) -> In (m, y) (e_mul_const_pre fo alpha a) ->
  (nrm (s_sub so y (s_mul so alpha x)) <= u * nrm (s_mul so alpha x))%R.
Proof.
  intros Hz hx ND hy. unfold e_mul_const_pre in hy. rewrite Hz in hy. apply in_map_iff in hy. destruct hy as [[m' x'] [E h]].
  cbn in E. injection E as -> <-.
  assert (x' = x); [|subst; apply (fl_mul _ _ _ _ _ FL)].
  clear - ND hx h. induction a as [|[k v] a IH]; [destruct hx|]. cbn in ND. inversion_clear ND as [|? ? n1 n2].
  destruct hx as [hx|hx], h as [h|h]; try congruence; auto.
  - injection hx as -> ->. exfalso. apply n1. apply in_map_iff. exists (m, x'). auto.
  - injection h as -> ->. exfalso. apply n1. apply in_map_iff. exists (m, x). auto.
Qed.
End Generic.

(** The product of expressions with double coefficients: every coefficient
    differs from the exact one by at most the relative error of n roundings of
    the magnitude M of the contributions to that coefficient (the same product
    computed with absolute values), plus n dropped values below 100 epsilon;
    n depends on the lengths of the monomials alone. *)
Theorem C88_product : forall {G} (go : gen_ops G) a b e0, gen_order go -> few_terms go -> constants_exact go real_ops dbl_ops ->
  e_mul go real_ops a b = Ok e0 ->
  exists e ea, e_mul go dbl_ops a b = Ok e /\ keys_sorted go e /\
    e_mul go (magnitude_ops real_ops Rabs) (magnitudes Rabs a) (magnitudes Rabs b) = Ok ea /\
    forall m x x0 M, coefficient dbl_ops e m x -> coefficient real_ops e0 m x0 -> coefficient (magnitude_ops real_ops Rabs) ea m M ->
      (Rabs (x - x0) <= coef_error (/ 2 ^ 53) (100 * / 2 ^ 52) (steps_all a b) M /\ Rabs x0 <= M)%R.
Proof. intros G go a b e0. exact (product_error _ _ _ _ _ (sd_laws _ real_domain) real_norm dbl_float go a b e0). Qed.
Print Assumptions C88_product.
Theorem C88_product_complex : forall {G} (go : gen_ops G) a b e0, gen_order go -> few_terms go -> constants_exact go cplx_ops cdbl_ops ->
  e_mul go cplx_ops a b = Ok e0 ->
  exists e ea, e_mul go cdbl_ops a b = Ok e /\ keys_sorted go e /\
    e_mul go (magnitude_ops cplx_ops cabs) (magnitudes cabs a) (magnitudes cabs b) = Ok ea /\
    forall m x x0 M, coefficient cdbl_ops e m x -> coefficient cplx_ops e0 m x0 -> coefficient (magnitude_ops cplx_ops cabs) ea m M ->
      (cabs (s_sub cplx_ops x x0) <= coef_error (3 * / 2 ^ 53) (sqrt 2 * (100 * / 2 ^ 52)) (steps_all a b) M /\ cabs x0 <= M)%R.
Proof. intros G go a b e0. exact (product_error _ _ _ _ _ cplx_laws cplx_norm cdbl_float go a b e0). Qed.
Print Assumptions C88_product_complex.

(** Sums, differences and multiples *)
Theorem C88_sums : forall {G} (go : gen_ops G) a b m x y s d, gen_order go -> keys_sorted go a -> keys_sorted go b ->
  coefficient dbl_ops a m x -> coefficient dbl_ops b m y ->
  coefficient dbl_ops (e_add go dbl_ops a b) m s -> coefficient dbl_ops (e_sub go dbl_ops a b) m d ->
  (Rabs (s - (x + y)) <= / 2 ^ 53 * Rabs (x + y) + 100 * / 2 ^ 52 /\
   Rabs (d - (x - y)) <= / 2 ^ 53 * Rabs (x - y) + 100 * / 2 ^ 52)%R.
Proof. intros G go a b m x y s d. exact (sum_error real_ops dbl_ops Rabs _ _ (sd_laws _ real_domain) real_norm dbl_float go a b m x y s d). Qed.
Print Assumptions C88_sums.
Theorem C88_sums_complex : forall {G} (go : gen_ops G) a b m x y s d, gen_order go -> keys_sorted go a -> keys_sorted go b ->
  coefficient cdbl_ops a m x -> coefficient cdbl_ops b m y ->
  coefficient cdbl_ops (e_add go cdbl_ops a b) m s -> coefficient cdbl_ops (e_sub go cdbl_ops a b) m d ->
  (cabs (s_sub cplx_ops s (s_add cplx_ops x y)) <= 3 * / 2 ^ 53 * cabs (s_add cplx_ops x y) + sqrt 2 * (100 * / 2 ^ 52) /\
   cabs (s_sub cplx_ops d (s_sub cplx_ops x y)) <= 3 * / 2 ^ 53 * cabs (s_sub cplx_ops x y) + sqrt 2 * (100 * / 2 ^ 52))%R.
Proof. intros G go a b m x y s d. exact (sum_error cplx_ops cdbl_ops cabs _ _ cplx_laws cplx_norm cdbl_float go a b m x y s d). Qed.
Print Assumptions C88_sums_complex.

(** The built-in algebras, whatever the spins: products never throw, and the
    bound holds for all expressions. *)
Lemma rnd_float m e : (Z.abs m < 2 ^ 53)%Z -> dbl_rnd (F2R (Float radix2 m e)) = F2R (Float radix2 m e).
Proof.
  intros H. apply round_generic; [apply valid_rnd_N|]. apply generic_format_FLX. exists (Float radix2 m e); [reflexivity|exact H].
Qed.
Lemma rnd_int z : (Z.abs z < 2 ^ 53)%Z -> dbl_rnd (IZR z) = IZR z.
Proof.
  intros H. replace (IZR z) with (F2R (Float radix2 z 0)) by (unfold F2R; cbn; ring). now apply rnd_float.
Qed.
(** integer structure constants are exact up to 2^53 *)
Lemma make_int z : (Z.abs z < 2 ^ 53)%Z -> s_make dbl_ops (VInt z) = s_make real_ops (VInt z).
Proof. intros H. cbn. now rewrite rnd_int. Qed.
Lemma make_half p : (Z.abs p < 2 ^ 53)%Z -> s_make dbl_ops (VRat p 2) = s_make real_ops (VRat p 2).
Proof.
  intros H. cbn -[IZR]. rewrite (rnd_int p H), (rnd_int 2) by reflexivity. f_equal.
  replace (IZR p / 2)%R with (F2R (Float radix2 p (-1))) by (unfold F2R; cbn; field). now apply rnd_float.
Qed.
Lemma make_quarter p : (Z.abs p < 2 ^ 53)%Z -> s_make dbl_ops (VRat p 4) = s_make real_ops (VRat p 4).
Proof.
  intros H. cbn -[IZR]. rewrite (rnd_int p H), (rnd_int 4) by reflexivity. f_equal.
  replace (IZR p / 4)%R with (F2R (Float radix2 p (-2))) by (unfold F2R; cbn; field). now apply rnd_float.
Qed.
Lemma builtin_constants {I} (io : index_ops I) : constants_exact (std_gen_ops io) real_ops dbl_ops.
Proof.
  assert (NT : forall v, s_make dbl_ops v = s_make real_ops v -> const_same (G := gen I) real_ops dbl_ops (mk_linfun v []))
    by (intros v H; split; [exact H|intros g w []]).
  assert (OT : forall v g w, s_make dbl_ops v = s_make real_ops v -> s_make dbl_ops w = s_make real_ops w ->
     const_same (G := gen I) real_ops dbl_ops (mk_linfun v [(g, w)])).
  { intros v g w H1 H2. split; [exact H1|]. intros g' w' [E|[]]. injection E as <- <-. exact H2. }
  assert (B : forall b : bool, s_make dbl_ops (VInt (b2z b)) = s_make real_ops (VInt (b2z b))) by (intros []; apply make_int; reflexivity).
  constructor.
  - intros a b c f E.
    destruct a as [d i|d i|m x i], b as [d' j|d' j|m' y j]; cbn [std_gen_ops g_swap gen_swap] in E;
      try (injection E as <- <-; split; [apply make_int; reflexivity|apply NT; first [apply B|apply make_int; reflexivity]]).
    destruct (base_equal io _ _ && (m =? m')); [|injection E as <- <-; split; [apply make_int; reflexivity|apply NT, make_int; reflexivity]].
    destruct (m =? 2); injection E as <- <-; (split; [apply make_int; reflexivity|]); destruct x, y;
      apply OT; first [apply make_int; reflexivity|apply make_half; reflexivity].
  - intros a b f E.
    destruct a as [d k|d k|m x k], b as [d' j|d' j|m' y j]; cbn [std_gen_ops g_simplify gen_simplify] in E; try discriminate.
    + destruct (gen_eqb io _ _); inversion E; subst. apply NT, make_int; reflexivity.
    + destruct (_ || _); [discriminate|]. injection E as <-. destruct x, y; cbn [comp_eqb];
        first [apply NT|apply OT]; first [apply make_int; reflexivity|apply make_half; reflexivity|apply make_quarter; reflexivity].
Qed.
Lemma builtin_constants_complex {I} (io : index_ops I) : constants_exact (std_gen_ops io) cplx_ops cdbl_ops.
Proof.
  destruct (builtin_constants io) as [H1 H2].
  assert (K : forall v, s_make dbl_ops v = s_make real_ops v -> s_make cdbl_ops v = s_make cplx_ops v).
  { intros v H. cbn [s_make cdbl_ops cplx_ops]. change (dbl_make v) with (s_make dbl_ops v). now rewrite H. }
  assert (KC : forall f : linfun (gen I), const_same real_ops dbl_ops f -> const_same cplx_ops cdbl_ops f).
  { intros f [a b]. split; [now apply K|]. intros g v h. apply K. eapply b; eauto. }
  constructor.
  - intros a b c f E. destruct (H1 a b c f E) as [q1 q2]. auto.
  - intros a b f E. apply KC. eapply H2; eauto.
Qed.

Theorem C88_builtin : forall I (io : index_ops I) a b, index_order io -> let go := std_gen_ops io in
  exists e e0 ea, e_mul go dbl_ops a b = Ok e /\ e_mul go real_ops a b = Ok e0 /\ keys_sorted go e /\
    e_mul go (magnitude_ops real_ops Rabs) (magnitudes Rabs a) (magnitudes Rabs b) = Ok ea /\
    forall m x x0 M, coefficient dbl_ops e m x -> coefficient real_ops e0 m x0 -> coefficient (magnitude_ops real_ops Rabs) ea m M ->
      (Rabs (x - x0) <= coef_error (/ 2 ^ 53) (100 * / 2 ^ 52) (steps_all a b) M /\ Rabs x0 <= M)%R.
Proof.
  intros I io a b Hio go.
  destruct (e_mul_total go real_ops (fun _ => True) (std_make_frac io real_ops (sd_laws _ real_domain)
    ltac:(intros p q H; cbn; destruct (Z.eqb_spec q 0); [contradiction|discriminate])) a b) as [e0 E0].
  { intros m c _. apply Forall_forall. trivial. }
  { intros m c _. apply Forall_forall. trivial. }
  destruct (C88_product go a b e0 (std_order io Hio) (C60_builtin I io) (builtin_constants io) E0) as [e [ea [E1 [E2 [E3 E4]]]]].
  exists e, e0, ea. auto.
Qed.
Print Assumptions C88_builtin.
Theorem C88_builtin_complex : forall I (io : index_ops I) a b, index_order io -> let go := std_gen_ops io in
  exists e e0 ea, e_mul go cdbl_ops a b = Ok e /\ e_mul go cplx_ops a b = Ok e0 /\ keys_sorted go e /\
    e_mul go (magnitude_ops cplx_ops cabs) (magnitudes cabs a) (magnitudes cabs b) = Ok ea /\
    forall m x x0 M, coefficient cdbl_ops e m x -> coefficient cplx_ops e0 m x0 -> coefficient (magnitude_ops cplx_ops cabs) ea m M ->
      (cabs (s_sub cplx_ops x x0) <= coef_error (3 * / 2 ^ 53) (sqrt 2 * (100 * / 2 ^ 52)) (steps_all a b) M /\ cabs x0 <= M)%R.
Proof.
  intros I io a b Hio go.
  destruct (e_mul_total go cplx_ops (fun _ => True) (std_make_frac io cplx_ops cplx_laws
    ltac:(intros p q H; cbn; destruct (Z.eqb_spec q 0); [contradiction|discriminate])) a b) as [e0 E0].
  { intros m c _. apply Forall_forall. trivial. }
  { intros m c _. apply Forall_forall. trivial. }
  destruct (C88_product_complex go a b e0 (std_order io Hio) (C60_builtin I io) (builtin_constants_complex io) E0) as [e [ea [E1 [E2 [E3 E4]]]]].
  exists e, e0, ea. auto.
Qed.
Print Assumptions C88_builtin_complex.

(** A bound known before the product is computed: the structure constants of
    the built-in algebras are small, hence the magnitude is at most the sum over
    pairs of terms of |c1| |c2| times a number that depends on the lengths of the
    monomials alone. *)
Lemma real_weight {G} (f : linfun G) : weight real_ops Rabs f = fold_right (fun v w =>
  match v with VInt z => Rabs (IZR z) | VRat p q => if Z.eqb q 0 then 0 else Rabs (IZR p / IZR q) | VReal x => Rabs (Q2R x) end + w)%R 0%R (const_term f :: map snd (terms f)).
Proof.
  unfold weight. induction (const_term f :: map snd (terms f)) as [|v l IH]; [reflexivity|]. cbn [fold_right]. rewrite IH. f_equal.
  destruct v as [z|p q|x]; cbn; try reflexivity. destruct (Z.eqb q 0); reflexivity.
Qed.
Lemma cplx_weight {G} (f : linfun G) : weight cplx_ops cabs f = weight real_ops Rabs f.
Proof.
  unfold weight. induction (const_term f :: map snd (terms f)) as [|v l IH]; [reflexivity|]. cbn [fold_right]. rewrite IH. f_equal.
  cbn [cplx_ops s_make]. change (s_make real_ops v) with (s_make real_ops v). destruct (match v with VInt z => Some (IZR z) | VRat p q => if Z.eqb q 0 then None else Some (IZR p / IZR q)%R | VReal x => Some (Q2R x) end) as [x|] eqn:E.
  - change (s_make real_ops v = Some x) in E. rewrite E. cbn. unfold cabs. cbn [fst snd]. rewrite Rmult_0_r, Rplus_0_r. apply sqrt_Rsqr_abs.
  - change (s_make real_ops v = None) in E. rewrite E. reflexivity.
Qed.
Ltac wt := rewrite real_weight; cbn -[IZR Rabs Rplus Rdiv]; rewrite ?Rabs_R0; unfold Rabs; repeat destruct Rcase_abs; lra.
Lemma builtin_small {I} (io : index_ops I) : small_constants (std_gen_ops io) real_ops Rabs.
Proof.
  assert (B : forall b : bool, (weight real_ops Rabs (mk_linfun (G := gen I) (VInt (b2z b)) []) <= 2)%R) by (intros []; wt).
  constructor.
  - intros a b c f x E Ex.
    assert (C : c = VInt (-1) \/ c = VInt 0 \/ c = VInt 1).
    { destruct a as [d i|d i|m y i], b as [d' j|d' j|m' y' j]; cbn [std_gen_ops g_swap gen_swap] in E; try (injection E as <- <-; auto).
      destruct (base_equal io _ _ && (m =? m')); [destruct (m =? 2)|]; injection E as <- <-; auto. }
    destruct C as [->|[->| ->]]; cbn in Ex; injection Ex as <-; unfold Rabs; destruct Rcase_abs; lra.
  - intros a b c f E.
    destruct a as [d i|d i|m y i], b as [d' j|d' j|m' y' j]; cbn [std_gen_ops g_swap gen_swap] in E;
      try (injection E as <- <-; first [apply B|wt]).
    destruct (base_equal io _ _ && (m =? m')); [destruct (m =? 2)|]; injection E as <- <-; [destruct y, y'; wt|destruct y, y'; wt|wt].
  - intros a b f E.
    destruct a as [d k|d k|m x k], b as [d' j|d' j|m' y j]; cbn [std_gen_ops g_simplify gen_simplify] in E; try discriminate.
    + destruct (gen_eqb io _ _); inversion E; subst. wt.
    + destruct (_ || _); [discriminate|]. injection E as <-. destruct x, y; cbn [comp_eqb]; wt.
Qed.
Lemma builtin_small_complex {I} (io : index_ops I) : small_constants (std_gen_ops io) cplx_ops cabs.
Proof.
  destruct (builtin_small io) as [H1 H2 H3]. constructor.
  - intros a b c f [x y] E Ex. cbn [cplx_ops s_make] in Ex. destruct (s_make real_ops c) as [r|] eqn:Er; [|discriminate].
    cbn in Ex. injection Ex as <- <-. unfold cabs. cbn [fst snd]. rewrite Rmult_0_r, Rplus_0_r. pose proof (H1 a b c f r E Er) as K.
    change (sqrt (Rsqr r) <= 1)%R. rewrite sqrt_Rsqr_abs. exact K.
  - intros a b c f E. rewrite cplx_weight. eapply H2; eauto.
  - intros a b f E. rewrite cplx_weight. eapply H3; eauto.
Qed.

Section Apriori.
Context {S : Type} (so fo : scalar_ops S) (nrm : S -> R) (u tol : R).
Context (L : scalar_laws so) (NL : norm_laws so nrm) (FL : float_ops so fo nrm u tol).
Lemma apriori_error {G} (go : gen_ops G) a b e0 : gen_order go -> few_terms go -> constants_exact go so fo -> small_constants go so nrm ->
  e_mul go so a b = Ok e0 ->
  exists e, e_mul go fo a b = Ok e /\
    forall m x x0, coefficient so e m x -> coefficient so e0 m x0 ->
      (nrm (s_sub so x x0) <= coef_error u tol (steps_all a b) (size_all drops nrm a b))%R.
Proof.
  intros Ho FT CE SM E. destruct (e_mul_near go Ho FT so fo L nrm NL u tol FL CE a b e0 E) as [h0 [e [ea [E1 [E2 [h1 [h2 o]]]]]]].
  exists e. split; [exact E1|].
  intros m x x0 hx hx0. apply (coefficient_coef go Ho) in hx; [|exact h1]. apply (coefficient_coef go Ho) in hx0; [|exact h0].
  subst x x0. destruct (o m) as [o1 o2]. eapply Rle_trans; [exact o1|].
  apply ce_mono; [exact (fl_u _ _ _ _ _ FL)|exact (fl_t _ _ _ _ _ FL)|lia|].
  pose proof (e_mul_size go Ho FT so nrm (nl_pos _ _ NL) SM a b ea E2 m) as Z.
  pose proof (nl_pos _ _ NL (coef go so e0 m)). split; [lra|exact Z].
Qed.
End Apriori.

Theorem C88_apriori : forall I (io : index_ops I) a b, index_order io -> let go := std_gen_ops io in
  exists e e0, e_mul go dbl_ops a b = Ok e /\ e_mul go real_ops a b = Ok e0 /\
    forall m x x0, coefficient dbl_ops e m x -> coefficient real_ops e0 m x0 ->
      (Rabs (x - x0) <= coef_error (/ 2 ^ 53) (100 * / 2 ^ 52) (steps_all a b) (size_all drops Rabs a b))%R.
Proof.
  intros I io a b Hio go. destruct (C88_builtin I io a b Hio) as [_ [e0 [_ [_ [E0 _]]]]].
  destruct (apriori_error real_ops dbl_ops Rabs _ _ (sd_laws _ real_domain) real_norm dbl_float go a b e0 (std_order io Hio) (C60_builtin I io)
    (builtin_constants io) (builtin_small io) E0) as [e [E K]]. exists e, e0. auto.
Qed.
Print Assumptions C88_apriori.
Theorem C88_apriori_complex : forall I (io : index_ops I) a b, index_order io -> let go := std_gen_ops io in
  exists e e0, e_mul go cdbl_ops a b = Ok e /\ e_mul go cplx_ops a b = Ok e0 /\
    forall m x x0, coefficient cdbl_ops e m x -> coefficient cplx_ops e0 m x0 ->
      (cabs (s_sub cplx_ops x x0) <= coef_error (3 * / 2 ^ 53) (sqrt 2 * (100 * / 2 ^ 52)) (steps_all a b) (size_all drops cabs a b))%R.
Proof.
  intros I io a b Hio go. destruct (C88_builtin_complex I io a b Hio) as [_ [e0 [_ [_ [E0 _]]]]].
  destruct (apriori_error cplx_ops cdbl_ops cabs _ _ cplx_laws cplx_norm cdbl_float go a b e0 (std_order io Hio) (C60_builtin I io)
    (builtin_constants_complex io) (builtin_small_complex io) E0) as [e [E K]]. exists e, e0. auto.
Qed.
Print Assumptions C88_apriori_complex.

(** The numbers for x c+(1) times y c(2): at most 62 roundings and tests, and a
    magnitude of at most 25 |x y|.  C88_builtin and C88_apriori have no hypothesis
    but index_order, which Z meets (ExprOrder.sto_Z). *)
Example C88_numbers : forall x y, let a := [([GFermion true 1%Z], x)] in let b := [([GFermion false 2%Z], y)] in
  steps_all a b = 62 /\ (size_all drops Rabs a b = Rabs x * Rabs y * 25)%R.
Proof. intros x y a b. split; [vm_compute; reflexivity|]. cbn. ring. Qed.

Theorem C88_scale : forall {G} (alpha : R) (a : list (list G * R)) m x y, s_is_zero dbl_ops alpha = false ->
  NoDup (map fst a) -> In (m, x) a -> In (m, y) (e_mul_const_pre dbl_ops alpha a) ->
  (Rabs (y - alpha * x) <= / 2 ^ 53 * Rabs (alpha * x))%R.
Proof. intros G alpha a m x y H N hx hy. exact (scale_error real_ops dbl_ops Rabs _ _ dbl_float alpha a m x y H hx N hy). Qed.
Print Assumptions C88_scale.
