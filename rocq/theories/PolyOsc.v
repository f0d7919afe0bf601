(** The displaced oscillator of examples/parametric_loperator.cpp *)
From Coq Require Import ZArith List Bool Lia QArith Qcanon Setoid Sorted Ncring Ncring_tac Cring.
From Verif Require Import ExprModel ExprSpec ExprOrder ExprMap ExprEval ExprStd ExprThrow ExprMain ExprInst PropExpr
  ConvSpec FockSpec PropUnique PolyModel PolySpec PolyProofs PolyConv PolyExpr PropPoly.
Import ListNotations.
Close Scope Qc_scope.
Close Scope Q_scope.
Close Scope string_scope.
Open Scope nat_scope.
Open Scope list_scope.

Section Osc.
Context {I T : Type} (io : index_ops I) (bo : scalar_ops T) (Hio : index_order io) (D : scalar_domain bo).
Context (C : forall a b, s_mul bo a b = s_mul bo b a) (half : T) (w0 g : @poly T) (i : I).
Notation go := (std_gen_ops io).
Let L := sd_laws _ D.
Notation Ad := (GBoson true i).
Notation An := (GBoson false i).

Definition osc_prog : prog (gen I) (@poly T) :=
  PAddConst (PMul (PScale w0 (PSubConst (PMono (s_one (poly_ops bo)) [Ad]) g)) (PSubConst (PMono (s_one (poly_ops bo)) [An]) g))
            (poly_scale bo half w0).
Lemma osc_run : oscillator bo io half w0 g i = run go (poly_ops bo) osc_prog.
Proof.
  unfold oscillator, factory. cbn [run osc_prog].
  destruct (e_mono go (poly_ops bo) (s_one (poly_ops bo)) [Ad]) as [x| |]; cbn [rbind]; auto.
  destruct (e_mono go (poly_ops bo) (s_one (poly_ops bo)) [An]) as [y| |]; cbn [rbind]; auto.
Qed.

Definition boson (k : gen I) : Prop := match k with GBoson _ _ => True | _ => False end.
Lemma poly_alg : alg_make go (poly_ops bo) not_half.
Proof.
  assert (M : forall v, mk (cpoly_ops bo) v -> mk (poly_ops bo) v).
  { intros v. unfold mk. cbn [s_make cpoly_ops poly_ops]. destruct (s_make bo v); cbn; congruence. }
  assert (F : forall f, lf_mk (cpoly_ops bo) not_half f -> lf_mk (poly_ops bo) (@not_half I) f).
  { intros f [h1 h2]. split; [apply M; exact h1|]. eapply Forall_impl; [|exact h2]. intros t [k1 k2]. split; [exact k1|apply M; exact k2]. }
  destruct (std_make_int io (cpoly_ops bo) (cpoly_laws bo L)) as [A1 A2 A3 A4]. constructor.
  - intros a b c f Pa Pb E. destruct (A1 a b c f Pa Pb E) as [h1 h2]. split; [exact (M c h1)|exact (F f h2)].
  - intros a b f Pa Pb E. exact (F f (A2 a b f Pa Pb E)).
  - intros a n f Pa E. exact (F f (A3 a n f Pa E)).
  - intros a Pa. exact (F _ (A4 a Pa)).
Qed.

Lemma keys_boson P e : incl (uses P) [Ad; An] -> run go (poly_ops bo) P = Ok e -> Pe not_half e.
Proof.
  intros U E. assert (HB : Forall (@simple I) [Ad; An]) by (repeat constructor).
  apply (run_convert go _ _ _ (poly_exact bo L)) in E. intros m c k.
  assert (Bt : built io (cpoly_ops bo) [Ad; An] (convert_all (pj bo) e)) by (apply (run_built io (cpoly_ops bo) [Ad; An] (pmap (pj bo) P)); [now rewrite uses_pmap|exact E]).
  pose proof (built_on io Hio (cpoly_ops bo) (cpoly_domain bo L D) [Ad; An] HB _ Bt m (pj bo c)) as K.
  assert (J : In (m, pj bo c) (convert_all (pj bo) e)) by (unfold convert_all; apply in_map_iff; exists (m, c); auto).
  eapply Forall_impl; [|exact (K J)]. intros a [h1 h2]. cbn in h1. destruct a as [d j|d j|mu cc j]; cbn; auto.
  destruct h1 as [h1|[h1|[]]]; discriminate.
Qed.

Lemma osc_ok : exists h, oscillator bo io half w0 g i = Ok h.
Proof.
  rewrite osc_run. cbn [run osc_prog].
  destruct (e_mono_total go (poly_ops bo) not_half poly_alg (s_one (poly_ops bo)) [Ad]) as [x Ex]; [repeat constructor|].
  destruct (e_mono_total go (poly_ops bo) not_half poly_alg (s_one (poly_ops bo)) [An]) as [y Ey]; [repeat constructor|].
  rewrite Ex, Ey. cbn [rbind].
  destruct (e_mul_total go (poly_ops bo) not_half poly_alg (e_mul_const_pre (poly_ops bo) w0 (e_sub_const go (poly_ops bo) x g))
              (e_sub_const go (poly_ops bo) y g)) as [z Ez].
  - apply (keys_boson (PScale w0 (PSubConst (PMono (s_one (poly_ops bo)) [Ad]) g))).
    + cbn. intros a [h|[]]. now left.
    + cbn [run]. rewrite Ex. reflexivity.
  - apply (keys_boson (PSubConst (PMono (s_one (poly_ops bo)) [An]) g)).
    + cbn. intros a [h|[]]. right. now left.
    + cbn [run]. rewrite Ey. reflexivity.
  - rewrite Ez. cbn [rbind]. eauto.
Qed.

Definition osc_terms (x : T) : list (list (gen I) * T) :=
  let w := poly_eval bo w0 x in let gx := poly_eval bo g x in
  [([], s_add bo (s_mul bo half w) (s_mul bo w (s_mul bo gx gx)));
   ([Ad], s_neg bo (s_mul bo w gx)); ([An], s_neg bo (s_mul bo w gx)); ([Ad; An], w)].
Lemma no_nil (m : list (gen I)) : Forall boson m -> ~ has_nilpotent_power m.
Proof.
  intros H (pre & post & mu & c & j & n & _ & _ & n2 & E). destruct n; [lia|]. rewrite E in H. apply Forall_app in H. destruct H as [_ H].
  cbn [repeat app] in H. inversion H as [|? ? K _]. exact K.
Qed.
Lemma terms_canonical x : canonical_expr io bo (drop_zeros bo (osc_terms x)).
Proof.
  split.
  - assert (S : StronglySorted (mono_before io) (map fst (osc_terms x))).
    { assert (X : mono_before io [Ad] [An]) by (right; split; [reflexivity|]; constructor; apply gb_b_da).
      assert (Y : forall m n : list (gen I), length m < length n -> mono_before io m n) by (intros; now left).
      cbn [osc_terms map fst].
      repeat match goal with |- StronglySorted _ _ => constructor | |- Forall _ _ => constructor end;
        first [exact X|apply Y; cbn; lia]. }
    revert S. generalize (osc_terms x). unfold drop_zeros. induction l as [|[m c] l IH]; cbn [map filter fst snd]; intros S; [constructor|].
    inversion S as [|? ? S1 S2]; subst. destruct (negb (s_is_zero bo c)); [|auto]. cbn [map fst]. constructor; auto.
    rewrite Forall_forall in *. intros k j. apply S2. apply in_map_iff in j. destruct j as [p [Q j]]. apply filter_In in j. apply in_map_iff. exists p. tauto.
  - intros m c j. unfold drop_zeros in j. apply filter_In in j. destruct j as [j n]. cbn [snd] in n. split.
    + assert (B : Forall boson m) by (unfold osc_terms in j; cbn [In] in j; repeat (destruct j as [j|j]; [inversion j; repeat constructor|]); destruct j).
      split; [|split; [|now apply no_nil]].
      * unfold osc_terms in j; cbn [In] in j; destruct j as [j|[j|[j|[j|[]]]]]; inversion j; subst; repeat match goal with |- StronglySorted _ _ => constructor | |- Forall _ _ => constructor end; try (right; apply gb_b_da).
      * intros pre a b post E K. rewrite E in B. apply Forall_app in B. destruct B as [_ B]. inversion B as [|? ? B1 _]; subst. inversion K; subst; exact B1.
    + intros Z. subst c. rewrite (proj2 (sl_is_zero bo L _) eq_refl) in n. discriminate.
Qed.

Section Ring.
Context {R : Type} (ro : ring_ops R) (inj : T -> R) (rho : gen I -> R).
Context (Hr : is_ring ro) (SI : scalar_image bo ro inj rho).
Local Instance opsO : @Ring_ops R (r0 ro) (r1 ro) (radd ro) (rmul ro) (rsub ro) (ropp ro) (req ro) := nc_ops ro.
Local Instance ringO : @Ring _ _ _ _ _ _ _ _ opsO := nc_ring ro Hr.
Local Instance eqO : Equivalence (req ro) := ri_equiv _ Hr.
Local Instance addO : Morphisms.Proper (Morphisms.respectful (req ro) (Morphisms.respectful (req ro) (req ro))) (radd ro) := ri_add_ext _ Hr.
Local Instance mulO : Morphisms.Proper (Morphisms.respectful (req ro) (Morphisms.respectful (req ro) (req ro))) (rmul ro) := ri_mul_ext _ Hr.
Local Instance oppO : Morphisms.Proper (Morphisms.respectful (req ro) (req ro)) (ropp ro) := ri_opp_ext _ Hr.
Lemma terms_value x : let w := inj (poly_eval bo w0 x) in let gx := inj (poly_eval bo g x) in
  req ro (eval_expr ro inj rho (osc_terms x))
    (radd ro (rmul ro (rmul ro w (radd ro (rho Ad) (ropp ro gx))) (radd ro (rho An) (ropp ro gx))) (rmul ro (inj half) w)).
Proof.
  intros w gx. cbn [osc_terms eval_expr eval_mono].
  rewrite !(inj_neg bo L ro Hr inj rho SI), !(si_add _ _ _ _ SI), !(si_mul _ _ _ _ SI). fold w gx.
  pose proof (si_comm _ _ _ _ SI (poly_eval bo g x) Ad) as E. fold gx in E.
  transitivity (radd ro (radd ro (rmul ro w (rmul ro (rho Ad) (rho An)))
    (radd ro (ropp ro (rmul ro w (rmul ro (rho Ad) gx))) (radd ro (ropp ro (rmul ro w (rmul ro gx (rho An)))) (rmul ro w (rmul ro gx gx)))))
    (rmul ro (inj half) w)); [rewrite E|]; non_commutative_ring.
Qed.
End Ring.
End Osc.
