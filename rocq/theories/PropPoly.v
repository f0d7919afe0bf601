(** * Property C93: a user-defined coefficient type, examples/parametric_loperator.cpp.
    Vocabulary: PolySpec.v, ExprSpec.v, FockSpec.v. *)
From Coq Require Import ZArith List Bool Lia QArith Qcanon Setoid Sorted.
From Verif Require Import ExprModel ExprSpec ExprOrder ExprMap ExprEval ExprStd ExprThrow ExprMain ExprInst PropExpr
  ConvSpec FockSpec PropUnique LOpModel LOpSpec PropLOp3 PolyModel PolySpec PolyProofs PolyConv PolyExpr.
Import ListNotations.
Close Scope Qc_scope.
Close Scope Q_scope.
Close Scope string_scope.
Open Scope nat_scope.
Open Scope list_scope.

(** The class computes with polynomials: p(x) is the sum of the coefficients
    times the powers of x; sums, differences, products, multiples and constants
    have the values they should have; degrees add up; is_zero() is true for the
    polynomials all of whose coefficients are zero, and these are zero
    everywhere. *)
Theorem C93_polynomial : forall T (bo : scalar_ops T), scalar_laws bo ->
  (forall a b, s_mul bo a b = s_mul bo b a) ->
  forall (p q : poly) (x c : T),
  let ev p := poly_eval bo p x in
  ev p = power_sum bo (fun i => nth i (coeffs p) (s_zero bo)) x (degree p) /\
  ev (poly_add bo p q) = s_add bo (ev p) (ev q) /\
  ev (poly_sub bo p q) = s_sub bo (ev p) (ev q) /\
  ev (poly_mul bo p q) = s_mul bo (ev p) (ev q) /\
  ev (poly_scale bo c p) = s_mul bo c (ev p) /\
  ev (poly_const bo c) = c /\
  degree (poly_add bo p q) = Nat.max (degree p) (degree q) /\
  degree (poly_sub bo p q) = Nat.max (degree p) (degree q) /\
  degree (poly_mul bo p q) = degree p + degree q /\
  (poly_is_zero bo p = true <-> forall i, nth i (coeffs p) (s_zero bo) = s_zero bo) /\
  (poly_is_zero bo p = true -> ev p = s_zero bo).
Proof.
  intros T bo L C p q x c ev. subst ev.
  assert (N : forall l, ceq bo (norm bo l) l) by apply (norm_cf bo L).
  assert (Z : poly_is_zero bo p = true <-> forall i, nth i (coeffs p) (s_zero bo) = s_zero bo).
  { unfold poly_is_zero. rewrite <- (norm_nil_iff bo). split.
    - intros E i. rewrite <- N, E. apply cf_nil.
    - intros E. rewrite <- (norm_id bo L []) by reflexivity. apply (norm_eq bo L). intros i. now rewrite E, cf_nil. }
  assert (dg : forall l, l <> [] -> degree (poly_of bo l) = length l - 1).
  { intros [|a l] H; [congruence|]. reflexivity. }
  assert (dz : forall op, degree (zip_with bo op p q) = Nat.max (degree p) (degree q)).
  { intros op. unfold zip_with. rewrite dg.
    - rewrite map_length, seq_length. lia.
    - intros E. apply (f_equal (@length T)) in E. rewrite map_length, seq_length in E. cbn in E. lia. }
  cbv beta. rewrite !(eval_heval bo L C).
  split; [|split; [|split; [|split; [|split; [|split; [|split; [|split; [|split; [|split]]]]]]]]].
  - assert (S1 : forall n (a : nat -> T), power_sum bo a x (S n) =
                   s_add bo (a 0) (s_mul bo (power_sum bo (fun i => a (S i)) x n) x)).
    { induction n as [|n IH]; intros a.
      - cbn. now rewrite !(sl_mul_1_r bo L), (sl_mul_1_l bo L).
      - change (power_sum bo a x (S (S n))) with (s_add bo (power_sum bo a x (S n)) (s_mul bo (a (S (S n))) (spow bo x (S (S n))))).
        rewrite IH, <- (sl_add_assoc bo L). f_equal. cbn [power_sum]. rewrite (sl_dist_r bo L). f_equal.
        cbn [spow]. apply (sl_mul_assoc bo L). }
    unfold degree. destruct p as [b l]. unfold coeffs. cbn [fst snd length]. idtac.
    replace (S (length l) - 1) with (length l) by lia.
    clear - L C S1; revert b. induction l as [|d l IH]; intros b.
    + cbn. now rewrite (sl_mul_1_r bo L), (ml0 bo L), (ad0 bo L).
    + cbn [length]. rewrite S1. cbn [nth]. change (heval bo x (b :: d :: l)) with (s_add bo b (s_mul bo (heval bo x (d :: l)) x)).
      now rewrite IH.
  - rewrite (heval_ext bo L x _ _ (add_cf bo L p q)). apply (heval_add bo L).
  - rewrite (heval_ext bo L x _ _ (sub_cf bo L p q)). apply (heval_sub bo L).
  - rewrite (heval_ext bo L x _ _ (mul_cf bo L p q)). apply (heval_mul bo L C).
  - rewrite (heval_ext bo L x _ _ (scale_cf bo L c p C)). apply (heval_scal bo L).
  - rewrite (heval_ext bo L x _ _ (const_cf bo c)). cbn [heval]. now rewrite (ml0 bo L), (ad0 bo L).
  - apply dz.
  - apply dz.
  - unfold poly_mul. rewrite dg.
    + assert (K : forall (is : list nat) m (f : nat -> nat -> T) r, length (fold_left (fun r i =>
          fold_left (fun r j => add_at bo r (i + j) (f i j)) (seq 0 m) r) is r) = length r).
      { induction is as [|i is IH]; intros m f r; cbn [fold_left]; auto. rewrite IH. generalize (seq 0 m). intros js. revert r.
        induction js as [|j js IHj]; intros r; cbn [fold_left]; auto. rewrite IHj. apply (len_add_at bo). }
      rewrite (K _ _ (fun i j => s_mul bo (at_ bo p i) (at_ bo q j))), repeat_length. lia.
    + assert (K : forall (is : list nat) m (f : nat -> nat -> T) r, length (fold_left (fun r i =>
          fold_left (fun r j => add_at bo r (i + j) (f i j)) (seq 0 m) r) is r) = length r).
      { induction is as [|i is IH]; intros m f r; cbn [fold_left]; auto. rewrite IH. generalize (seq 0 m). intros js. revert r.
        induction js as [|j js IHj]; intros r; cbn [fold_left]; auto. rewrite IHj. apply (len_add_at bo). }
      intros E. apply (f_equal (@length T)) in E. rewrite (K _ _ (fun i j => s_mul bo (at_ bo p i) (at_ bo q j))), repeat_length in E. cbn in E. lia.
  - exact Z.
  - intros E. apply (heval_zero bo L). intros i. rewrite cf_nil. now apply Z.
Qed.
Print Assumptions C93_polynomial.

(** A program with polynomial coefficients, evaluated at x when it is finished,
    has the value of the program with the values of the polynomials at x, in every
    ring with the relations of the sites. *)
Theorem C93_value : forall I (io : index_ops I) T (bo : scalar_ops T),
  index_order io -> scalar_domain bo -> (forall a b, s_mul bo a b = s_mul bo b a) ->
  forall (P : prog (gen I) poly) h (x : T), Forall simple (uses P) ->
  run (std_gen_ops io) (poly_ops bo) P = Ok h ->
  forall R (ro : ring_ops R) (inj : T -> R) (rho : gen I -> R),
  is_ring ro -> scalar_image bo ro inj rho -> relations_on (on_sites (map site_of (uses P))) bo ro inj rho ->
  req ro (eval_expr ro inj rho (expr_at bo x h)) (meaning ro inj rho (pmap (fun p => poly_eval bo p x) P)).
Proof.
  intros I io T bo Hio D C P h x HB E R ro inj rho Hr SI RL.
  exact (value_at io Hio bo D C x (uses P) HB ro inj rho Hr SI RL P h (incl_refl _) E).
Qed.
Print Assumptions C93_value.

Lemma drop_value {I T R} (bo : scalar_ops T) (L : scalar_laws bo) (ro : ring_ops R) (inj : T -> R) (rho : gen I -> R) e :
  is_ring ro -> scalar_image bo ro inj rho ->
  req ro (eval_expr ro inj rho (drop_zeros bo e)) (eval_expr ro inj rho e).
Proof.
  intros Hr SI. pose proof (ri_equiv _ Hr) as EQ. pose proof (ri_mul_ext _ Hr) as MX. pose proof (ri_add_ext _ Hr) as AX.
  assert (Z' : forall y, req ro (rmul ro (r0 ro) y) (r0 ro)).
  { intros y.
    assert (E : req ro (radd ro (rmul ro (r0 ro) y) (rmul ro (r0 ro) y)) (rmul ro (r0 ro) y)).
    { rewrite <- (ri_dist_r _ Hr). now rewrite (ri_add_0 _ Hr). }
    assert (E' : req ro (radd ro (radd ro (rmul ro (r0 ro) y) (rmul ro (r0 ro) y)) (ropp ro (rmul ro (r0 ro) y)))
                        (radd ro (rmul ro (r0 ro) y) (ropp ro (rmul ro (r0 ro) y)))) by now rewrite E.
    rewrite <- (ri_add_assoc _ Hr), !(ri_opp _ Hr), (ri_add_comm _ Hr), (ri_add_0 _ Hr) in E'. exact E'. }
  induction e as [|[m c] e IH]; [reflexivity|]. unfold drop_zeros in *. cbn [filter snd]. destruct (s_is_zero bo c) eqn:Zc; cbn [negb eval_expr].
  - apply (sl_is_zero _ L) in Zc. subst c. now rewrite IH, (si_0 _ _ _ _ SI), Z', (ri_add_0 _ Hr).
  - now rewrite IH.
Qed.

Section Sub.
Context {I T : Type} (io : index_ops I) (bo : scalar_ops T) (Hio : index_order io) (D : scalar_domain bo).
Context (C : forall a b, s_mul bo a b = s_mul bo b a).
Notation go := (std_gen_ops io).
Let L := sd_laws _ D.

(** what is left of a finished program at a point is in canonical form *)
Lemma at_canonical (P : prog (gen I) poly) h x : Forall simple (uses P) -> run go (poly_ops bo) P = Ok h ->
  canonical_expr io bo (drop_zeros bo (expr_at bo x h)) /\
  forall m c, In (m, c) (drop_zeros bo (expr_at bo x h)) -> Forall (on_sites (map site_of (uses P))) m.
Proof.
  intros HB E. apply (run_convert go _ _ _ (poly_exact bo L)) in E.
  assert (Bt : built io (cpoly_ops bo) (uses P) (convert_all (pj bo) h)).
  { apply (run_built io (cpoly_ops bo) (uses P) (pmap (pj bo) P)); [rewrite uses_pmap; apply incl_refl|exact E]. }
  pose proof (cpoly_domain bo L D) as DC.
  pose proof (C03_canonical_form I io _ _ (uses P) _ Hio DC (simple_consistent _ HB) Bt) as [Cs Cm].
  assert (Ks : map fst (convert_all (pj bo) h) = map fst h) by (unfold convert_all; rewrite map_map; reflexivity).
  rewrite Ks in Cs.
  assert (IN : forall m c, In (m, c) (drop_zeros bo (expr_at bo x h)) -> (exists d, In (m, d) (convert_all (pj bo) h)) /\ c <> s_zero bo).
  { intros m c i. unfold drop_zeros in i. apply filter_In in i. destruct i as [i n]. cbn [snd] in n. split.
    - unfold expr_at in i. apply in_map_iff in i. destruct i as [[m' p] [Q i]]. cbn in Q. inversion Q; subst.
      exists (pj bo p). unfold convert_all. apply in_map_iff. exists (m, p). auto.
    - intros K. subst c. rewrite (proj2 (sl_is_zero bo L _) eq_refl) in n. discriminate. }
  split; [split|].
  - unfold expr_at, drop_zeros. clear - Cs. induction h as [|[m p] h IH]; cbn [map filter fst snd] in *; [constructor|].
    inversion Cs as [|? ? C1 C2]; subst. specialize (IH C1). destruct (negb (s_is_zero bo (poly_eval bo p x))); [|exact IH].
    cbn [map fst]. constructor; [exact IH|]. rewrite Forall_forall in *. intros k i. apply C2. apply in_map_iff in i. destruct i as [[k' c] [Q i]].
    apply filter_In in i. destruct i as [i _]. apply in_map_iff in i. destruct i as [[k'' p'] [Q' i]]. cbn in *. inversion Q'. subst.
    apply in_map_iff. exists (k, p'). auto.
  - intros m c i. apply IN in i. destruct i as [[d i] n]. split; [exact (proj1 (Cm m d i))|exact n].
  - intros m c i. apply IN in i. destruct i as [[d i] n]. exact (built_on io Hio (cpoly_ops bo) DC (uses P) HB _ Bt m d i).
Qed.
End Sub.

(** Evaluating the finished expression at x gives, apart from the terms that
    vanish there, the very expression that the program computes with the values of
    the polynomials at x. *)
Theorem C93_substitution : forall I (io : index_ops I) T (bo : scalar_ops T),
  index_order io -> scalar_domain bo -> (forall a b, s_mul bo a b = s_mul bo b a) ->
  forall (P : prog (gen I) poly) h (x : T) r, Forall simple (uses P) -> half_if_spins bo (uses P) ->
  run (std_gen_ops io) (poly_ops bo) P = Ok h ->
  run (std_gen_ops io) bo (pmap (fun p => poly_eval bo p x) P) = Ok r ->
  drop_zeros bo (expr_at bo x h) = r.
Proof.
  intros I io T bo Hio D C P h x r HB HH E E'.
  destruct (at_canonical io bo Hio D P h x HB E) as [Ca Si].
  set (P' := pmap (fun p => poly_eval bo p x) P) in *.
  assert (U : uses P' = uses P) by apply uses_pmap.
  assert (Bt : built io bo (uses P) r) by (apply (run_built io bo (uses P) P'); [rewrite U; apply incl_refl|exact E']).
  apply (canonical_unique io Hio bo D (uses P)); auto.
  - exact (C03_canonical_form I io _ _ (uses P) _ Hio D (simple_consistent _ HB) Bt).
  - intros m c i. apply in_app_iff in i. destruct i as [i|i]; [exact (Si m c i)|exact (built_on io Hio bo D (uses P) HB r Bt m c i)].
  - intros R ro inj rho Hr SI RL. pose proof (ri_equiv _ Hr) as EQ.
    rewrite (drop_value bo (sd_laws _ D) ro inj rho _ Hr SI).
    rewrite (C93_value I io T bo Hio D C P h x HB E R ro inj rho Hr SI RL). symmetry.
    apply (run_value io Hio bo D (uses P) HB ro inj rho Hr SI RL P' r); [rewrite U; apply incl_refl|exact E'].
Qed.
Print Assumptions C93_substitution.

(** make_param_loperator(): called with x, the operator made of an expression with
    polynomial coefficients is the one made of the expression at x. *)
Theorem C93_operator : forall I (io : index_ops I) T (bo : scalar_ops T) (hs : HSModel.hspace I) (e : list (list (gen I) * poly)) (x : T),
  match make_loperator io (map (fun mp => (fst mp, fun a : T => (poly_eval bo (snd mp) a, a))) e) hs,
        make_loperator io (expr_at bo x e) hs with
  | LOk P, LOk Lp => plop_at P x = Lp
  | LUnknown g, LUnknown g' => g = g'
  | LNoAlgebra, LNoAlgebra | LBad, LBad => True
  | _, _ => False
  end.
Proof.
  intros I io T bo hs e x.
  pose proof (C36_substitution I io T T hs (map (fun mp => (fst mp, fun a : T => (poly_eval bo (snd mp) a, a))) e) x) as K.
  rewrite map_map in K. cbn [fst snd] in K. apply K. intros m f a i. apply in_map_iff in i. destruct i as [[m' p] [Q _]].
  inversion Q. reflexivity.
Qed.
Print Assumptions C93_operator.
