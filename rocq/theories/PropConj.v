(** * C12, C13: Hermitian conjugation.  Vocabulary: ExprSpec.v, FockSpec.v. *)
From Coq Require Import ZArith Bool Lia QArith Qcanon List Sorted Permutation Setoid Morphisms.
From Verif Require Import ExprModel ExprSpec ExprOrder ExprMap ExprEval ExprStd ExprCanon ExprMain
  ExprThrow ExprInst ExprConj FockSpec FockRep FockUnique PropExpr PropFactories PropUnique.
Import ListNotations.
Close Scope Qc_scope.
Close Scope Q_scope.
Open Scope nat_scope.
Open Scope list_scope.

Section Laws.
Context {I S R : Type} (io : index_ops I) (Hio : index_order io).
Context (so : scalar_ops S) (D : scalar_domain so) (CL : conj_laws so).
Context (ro : ring_ops R) (inj : S -> R) (rho : gen I -> R).
Context (Hr : is_ring ro) (SI : scalar_image so ro inj rho).
Context (B : list (gen I)) (HB : spin_consistent B).
Context (K : gen I -> Prop) (AK : forall g, admissible B g -> K g)
  (Kc : forall g, K g -> K (gen_conj_gen g)) (Ks : forall m c c' i, K (GSpin m c i) -> K (GSpin m c' i))
  (RL : relations_on K so ro inj rho).
Notation go := (std_gen_ops io).
Notation emap := (list (list (gen I) * S)).
Notation ev := (eval_expr ro inj rho).
Notation evo := (eval_expr (op_ring ro) (injc so inj) (rhoc rho)).
Let L := sd_laws _ D.

Lemma laws_sound : alg_sound go so ro inj rho (admissible B).
Proof.
  apply (alg_sound_iff go so ro inj rho (adm K B)).
  - intros g. unfold adm. split; [tauto|auto].
  - apply (std_sound_on io Hio so L ro inj rho Hr SI K Ks RL B HB).
Qed.
Lemma laws_sound_op : alg_sound go so (op_ring ro) (injc so inj) (rhoc rho) (admissible B).
Proof.
  apply (alg_sound_iff go so (op_ring ro) (injc so inj) (rhoc rho) (adm K B)).
  - intros g. unfold adm. split; [tauto|auto].
  - apply (std_sound_on io Hio so L (op_ring ro) (injc so inj) (rhoc rho) (op_is_ring _ Hr)
             (op_scalar_image so D CL ro inj rho Hr SI) K Ks
             (op_relations_on so D CL ro inj rho Hr SI K Kc Ks RL) B HB).
Qed.

Lemma built_Pe e : built io so B e -> Pexpr (admissible B) e.
Proof. intros h. apply (inv_P io so B). exact (built_inv io Hio so D B HB e h). Qed.

Lemma ev_conj e r : built io so B e -> e_conj go so e = Ok r -> req ro (ev r) (evo e).
Proof.
  intros h E. exact (conj_value io Hio so D CL ro inj rho Hr SI B HB laws_sound e r
    (built_inv io Hio so D B HB e h) E).
Qed.
Lemma evo_conj e r : built io so B e -> e_conj go so e = Ok r -> req ro (evo r) (ev e).
Proof.
  intros h E. pose proof (ri_equiv _ Hr) as EQ.
  pose proof (conj_value io Hio so D CL (op_ring ro) (injc so inj) (rhoc rho) (op_is_ring _ Hr)
    (op_scalar_image so D CL ro inj rho Hr SI) B HB laws_sound_op e r (built_inv io Hio so D B HB e h) E) as V.
  cbn [op_ring req] in V. rewrite V. exact (evo_evo so CL ro inj rho Hr e).
Qed.
Lemma evo_add (a b : emap) : req ro (evo (e_add go so a b)) (radd ro (evo a) (evo b)).
Proof.
  exact (ev_add_assign go (std_order io Hio) so L (op_ring ro) (op_is_ring _ Hr) (injc so inj) (rhoc rho)
    (op_scalar_image so D CL ro inj rho Hr SI) b a).
Qed.
Lemma evo_sub (a b : emap) : req ro (evo (e_sub go so a b)) (radd ro (evo a) (ropp ro (evo b))).
Proof.
  exact (ev_sub_assign go (std_order io Hio) so L (op_ring ro) (op_is_ring _ Hr) (injc so inj) (rhoc rho)
    (op_scalar_image so D CL ro inj rho Hr SI) a b).
Qed.
Lemma evo_mul a b r : built io so B a -> built io so B b -> e_mul go so a b = Ok r ->
  req ro (evo r) (rmul ro (evo b) (evo a)).
Proof.
  intros Ha Hb E.
  exact (e_mul_sound go (std_order io Hio) so L (op_ring ro) (op_is_ring _ Hr) (injc so inj) (rhoc rho)
    (op_scalar_image so D CL ro inj rho Hr SI) _ laws_sound_op a b r (built_Pe a Ha) (built_Pe b Hb) E).
Qed.
Lemma evo_scale z (a : emap) : req ro (evo (e_mul_const_pre so z a)) (rmul ro (evo a) (inj (s_conj so z))).
Proof.
  exact (scale_value so D (op_ring ro) (injc so inj) (rhoc rho) (op_is_ring _ Hr)
    (op_scalar_image so D CL ro inj rho Hr SI) z a).
Qed.
Lemma ev_mul_b a b r : built io so B a -> built io so B b -> e_mul go so a b = Ok r ->
  req ro (ev r) (rmul ro (ev a) (ev b)).
Proof.
  intros Ha Hb E.
  exact (e_mul_sound go (std_order io Hio) so L ro Hr inj rho SI _ laws_sound a b r (built_Pe a Ha) (built_Pe b Hb) E).
Qed.
End Laws.

Lemma scale_post_value {I S R} (so : scalar_ops S) (D : scalar_domain so) (ro : ring_ops R) (inj : S -> R)
  (rho : gen I -> R) : is_ring ro -> scalar_image so ro inj rho -> forall x (a : list (list (gen I) * S)),
  req ro (eval_expr ro inj rho (e_mul_const_post so a x)) (rmul ro (eval_expr ro inj rho a) (inj x)).
Proof.
  intros Hr SI x a. pose proof (sd_laws _ D) as L.
  pose proof (ri_equiv _ Hr) as EQ. pose proof (ri_mul_ext _ Hr) as MX. pose proof (ri_add_ext _ Hr) as AX.
  assert (Z : forall y, req ro (rmul ro y (r0 ro)) (r0 ro)).
  { intros y. assert (E : req ro (radd ro (rmul ro y (r0 ro)) (rmul ro y (r0 ro))) (rmul ro y (r0 ro))).
    { rewrite <- (ri_dist_l _ Hr). now rewrite (ri_add_0 _ Hr). }
    assert (E' : req ro (radd ro (radd ro (rmul ro y (r0 ro)) (rmul ro y (r0 ro))) (ropp ro (rmul ro y (r0 ro))))
                        (radd ro (rmul ro y (r0 ro)) (ropp ro (rmul ro y (r0 ro))))) by now rewrite E.
    rewrite <- (ri_add_assoc _ Hr), !(ri_opp _ Hr), (ri_add_comm _ Hr), (ri_add_0 _ Hr) in E'. exact E'. }
  assert (Z' : forall y, req ro (rmul ro (r0 ro) y) (r0 ro)).
  { intros y.
    assert (E : req ro (radd ro (rmul ro (r0 ro) y) (rmul ro (r0 ro) y)) (rmul ro (r0 ro) y)).
    { rewrite <- (ri_dist_r _ Hr). now rewrite (ri_add_0 _ Hr). }
    assert (E' : req ro (radd ro (radd ro (rmul ro (r0 ro) y) (rmul ro (r0 ro) y)) (ropp ro (rmul ro (r0 ro) y)))
                        (radd ro (rmul ro (r0 ro) y) (ropp ro (rmul ro (r0 ro) y)))) by now rewrite E.
    rewrite <- (ri_add_assoc _ Hr), !(ri_opp _ Hr), (ri_add_comm _ Hr), (ri_add_0 _ Hr) in E'. exact E'. }
  unfold e_mul_const_post. destruct (s_is_zero so x) eqn:Ex.
  - apply (sl_is_zero _ L) in Ex. subst x. simpl. rewrite (si_0 _ _ _ _ SI), Z. reflexivity.
  - induction a as [|[m c] a IH]; simpl.
    + now rewrite Z'.
    + rewrite IH, (ri_dist_r _ Hr), (si_mul _ _ _ _ SI), <- !(ri_mul_assoc _ Hr).
      rewrite (inj_comm_em so ro Hr inj rho SI m x). reflexivity.
Qed.

Lemma minus_swap {R} (ro : ring_ops R) : is_ring ro -> forall x y,
  req ro (radd ro x (ropp ro y)) (ropp ro (radd ro y (ropp ro x))).
Proof.
  intros Hr x y. pose proof (ri_equiv _ Hr) as EQ. pose proof (ri_add_ext _ Hr) as AX. pose proof (ri_opp_ext _ Hr) as OX.
  set (u := radd ro y (ropp ro x)).
  assert (E : req ro (radd ro (radd ro x (ropp ro y)) u) (r0 ro)).
  { unfold u. rewrite (ri_add_assoc _ Hr), <- (ri_add_assoc _ Hr x), (ri_add_comm _ Hr (ropp ro y)), (ri_opp _ Hr).
    rewrite (ri_add_comm _ Hr x), (ri_add_0 _ Hr). apply (ri_opp _ Hr). }
  assert (E' : req ro (radd ro (radd ro (radd ro x (ropp ro y)) u) (ropp ro u)) (radd ro (r0 ro) (ropp ro u))) by now rewrite E.
  rewrite (ri_add_0 _ Hr), <- (ri_add_assoc _ Hr), (ri_opp _ Hr), (ri_add_comm _ Hr), (ri_add_0 _ Hr) in E'. exact E'.
Qed.

(** Hermitian conjugation is an involutive anti-automorphism: in every ring
    with operators satisfying the relations of the algebras (fermions, bosons
    and spins of any multiplicity), for all expressions built over [B]. *)
Theorem C12_operator : forall I (io : index_ops I) S (so : scalar_ops S) R
    (ro : ring_ops R) (inj : S -> R) (rho : gen I -> R) B a b a' b',
  index_order io -> scalar_domain so -> conj_laws so -> spin_consistent B ->
  representation so ro inj rho ->
  built io so B a -> built io so B b ->
  let G := std_gen_ops io in let ev := eval_expr ro inj rho in
  e_conj G so a = Ok a' -> e_conj G so b = Ok b' ->
  (forall r, e_conj G so a' = Ok r -> req ro (ev r) (ev a)) /\
  (forall r, e_conj G so (e_add G so a b) = Ok r -> req ro (ev r) (radd ro (ev a') (ev b'))) /\
  (forall r, e_conj G so (e_sub G so a b) = Ok r -> req ro (ev r) (radd ro (ev a') (ropp ro (ev b')))) /\
  (forall ab r, e_mul G so a b = Ok ab -> e_conj G so ab = Ok r -> req ro (ev r) (rmul ro (ev b') (ev a'))) /\
  (forall z r, e_conj G so (e_mul_const_pre so z a) = Ok r -> req ro (ev r) (rmul ro (ev a') (inj (s_conj so z)))).
Proof.
  intros I io S so R ro inj rho B a b a' b' Hio D CL HB REP Ba Bb G ev Ea Eb. subst G ev.
  destruct REP as [Hr SI RL]. pose proof (ri_equiv _ Hr) as EQ.
  pose proof (ri_mul_ext _ Hr) as MX. pose proof (ri_add_ext _ Hr) as AX. pose proof (ri_opp_ext _ Hr) as OX.
  set (K := fun _ : gen I => True).
  assert (AK : forall g, admissible B g -> K g) by (intros; exact Logic.I).
  assert (Kc : forall g, K g -> K (gen_conj_gen g)) by (intros; exact Logic.I).
  assert (Ks : forall m c c' i, K (GSpin m c i) -> K (GSpin m c' i)) by (intros; exact Logic.I).
  pose proof (relations_all so ro inj rho RL) as RK. fold K in RK.
  pose proof (ev_conj io Hio so D CL ro inj rho Hr SI B HB K AK Ks RK) as V.
  pose proof (evo_conj io Hio so D CL ro inj rho Hr SI B HB K AK Kc Ks RK) as W.
  assert (Ba' : built io so B a') by exact (b_conj io so B a a' Ba Ea).
  split; [|split; [|split; [|split]]].
  - intros r E. rewrite (V _ _ Ba' E). exact (W _ _ Ba Ea).
  - intros r E. rewrite (V _ _ (b_add io so B a b Ba Bb) E), (V _ _ Ba Ea), (V _ _ Bb Eb).
    exact (evo_add io Hio so D CL ro inj rho Hr SI a b).
  - intros r E. rewrite (V _ _ (b_sub io so B a b Ba Bb) E), (V _ _ Ba Ea), (V _ _ Bb Eb).
    exact (evo_sub io Hio so D CL ro inj rho Hr SI a b).
  - intros ab r Eab E. rewrite (V _ _ (b_mul io so B a b ab Ba Bb Eab) E), (V _ _ Ba Ea), (V _ _ Bb Eb).
    exact (evo_mul io Hio so D CL ro inj rho Hr SI B HB K AK Kc Ks RK a b ab Ba Bb Eab).
  - intros z r E. rewrite (V _ _ (b_const_mul io so B a z Ba) E), (V _ _ Ba Ea).
    exact (evo_scale so D CL ro inj rho Hr SI z a).
Qed.
Print Assumptions C12_operator.

(** In a ring with an involution * under which the images of the generators
    are mutually adjoint (c_i* = c^+_i, a_i* = a^+_i, S_+* = S_-, S_z* = S_z),
    conj(e) is e*. *)
Definition adjoint_of {I} (g : gen I) : gen I :=
  match g with
  | GFermion true i => GFermion false i | GFermion false i => GFermion true i
  | GBoson true i => GBoson false i | GBoson false i => GBoson true i
  | GSpin m Plus i => GSpin m Minus i | GSpin m Minus i => GSpin m Plus i
  | GSpin m Zcomp i => GSpin m Zcomp i
  end.
Record star_ring {I S R} (so : scalar_ops S) (ro : ring_ops R) (inj : S -> R) (rho : gen I -> R)
  (star : R -> R) : Prop := {
  st_ext : Proper (req ro ==> req ro) star;
  st_add : forall x y, req ro (star (radd ro x y)) (radd ro (star x) (star y));
  st_mul : forall x y, req ro (star (rmul ro x y)) (rmul ro (star y) (star x));
  st_scalar : forall x, req ro (star (inj x)) (inj (s_conj so x));
  st_gen : forall g, req ro (star (rho g)) (rho (adjoint_of g))
}.
Theorem C12_adjoint : forall I (io : index_ops I) S (so : scalar_ops S) R
    (ro : ring_ops R) (inj : S -> R) (rho : gen I -> R) star B e r,
  index_order io -> scalar_domain so -> conj_laws so -> spin_consistent B ->
  representation so ro inj rho -> star_ring so ro inj rho star ->
  built io so B e -> e_conj (std_gen_ops io) so e = Ok r ->
  req ro (eval_expr ro inj rho r) (star (eval_expr ro inj rho e)).
Proof.
  intros I io S so R ro inj rho star B e r Hio D CL HB [Hr SI RL] [s1 s2 s3 s4 s5] Be E.
  pose proof (ri_equiv _ Hr) as EQ.
  set (K := fun _ : gen I => True).
  assert (AK : forall g, admissible B g -> K g) by (intros; exact Logic.I).
  assert (Ks : forall m c c' i, K (GSpin m c i) -> K (GSpin m c' i)) by (intros; exact Logic.I).
  pose proof (relations_all so ro inj rho RL) as RK. fold K in RK.
  rewrite (ev_conj io Hio so D CL ro inj rho Hr SI B HB K AK Ks RK e r Be E).
  apply (evo_star so D CL ro inj rho Hr SI star e); auto.
  intros g. replace (gen_conj_gen g) with (adjoint_of g); [apply s5|].
  destruct g as [[|] i|[|] i|m [| |] i]; reflexivity.
Qed.
Print Assumptions C12_adjoint.

(** For fermions, bosons and spins 1/2 the laws hold with respect to ==. *)
Theorem C12_laws : forall I (io : index_ops I) S (so : scalar_ops S) B a b a' b',
  index_order io -> scalar_domain so -> conj_laws so -> Forall simple B -> half_if_spins so B ->
  built io so B a -> built io so B b ->
  let G := std_gen_ops io in
  e_conj G so a = Ok a' -> e_conj G so b = Ok b' ->
  (forall r, e_conj G so a' = Ok r -> r = a) /\
  (forall r, e_conj G so (e_add G so a b) = Ok r -> r = e_add G so a' b') /\
  (forall r, e_conj G so (e_sub G so a b) = Ok r -> r = e_sub G so a' b') /\
  (forall ab ba r, e_mul G so a b = Ok ab -> e_conj G so ab = Ok r -> e_mul G so b' a' = Ok ba -> r = ba) /\
  (forall z r, e_conj G so (e_mul_const_pre so z a) = Ok r -> r = e_mul_const_post so a' (s_conj so z)).
Proof.
  intros I io S so B a b a' b' Hio D CL HB HH Ba Bb G Ea Eb. subst G.
  pose proof (simple_consistent B HB) as SC.
  pose proof (fun x y => built_unique io Hio so D B HB x y HH) as U.
  set (K := on_sites (map site_of B)).
  assert (AK : forall g, admissible B g -> K g) by (apply admissible_on; auto).
  assert (Kc : forall g, K g -> K (gen_conj_gen g)).
  { intros [d i|d i|m c i] [h1 h2]; (split; [exact h1|exact h2]). }
  assert (Ks : forall m c c' i, K (GSpin m c i) -> K (GSpin m c' i)) by (intros m c c' i [h1 h2]; split; auto).
  assert (Ba' : built io so B a') by exact (b_conj io so B a a' Ba Ea).
  assert (Bb' : built io so B b') by exact (b_conj io so B b b' Bb Eb).
  pose proof (fun R ro inj rho Hr SI RL => @ev_conj I S R io Hio so D CL ro inj rho Hr SI B SC K AK Ks RL) as V.
  pose proof (fun R ro inj rho Hr SI RL => @evo_conj I S R io Hio so D CL ro inj rho Hr SI B SC K AK Kc Ks RL) as W.
  split; [|split; [|split; [|split]]].
  - intros r E. apply U; [exact (b_conj io so B a' r Ba' E)|exact Ba|].
    intros R ro inj rho Hr SI RL. pose proof (ri_equiv _ Hr) as EQ.
    rewrite (V R ro inj rho Hr SI RL _ _ Ba' E). exact (W R ro inj rho Hr SI RL _ _ Ba Ea).
  - intros r E. apply U; [exact (b_conj io so B _ r (b_add io so B a b Ba Bb) E)|exact (b_add io so B a' b' Ba' Bb')|].
    intros R ro inj rho Hr SI RL. pose proof (ri_equiv _ Hr) as EQ. pose proof (ri_add_ext _ Hr) as AX.
    rewrite (V R ro inj rho Hr SI RL _ _ (b_add io so B a b Ba Bb) E), (add_value io Hio so D ro inj rho Hr SI a' b'),
      (V R ro inj rho Hr SI RL _ _ Ba Ea), (V R ro inj rho Hr SI RL _ _ Bb Eb).
    exact (evo_add io Hio so D CL ro inj rho Hr SI a b).
  - intros r E. apply U; [exact (b_conj io so B _ r (b_sub io so B a b Ba Bb) E)|exact (b_sub io so B a' b' Ba' Bb')|].
    intros R ro inj rho Hr SI RL. pose proof (ri_equiv _ Hr) as EQ. pose proof (ri_add_ext _ Hr) as AX. pose proof (ri_opp_ext _ Hr) as OX.
    rewrite (V R ro inj rho Hr SI RL _ _ (b_sub io so B a b Ba Bb) E).
    rewrite (ev_sub_assign (std_gen_ops io) (std_order io Hio) so (sd_laws _ D) ro Hr inj rho SI a' b').
    rewrite (V R ro inj rho Hr SI RL _ _ Ba Ea), (V R ro inj rho Hr SI RL _ _ Bb Eb).
    exact (evo_sub io Hio so D CL ro inj rho Hr SI a b).
  - intros ab ba r E1 E2 E3.
    pose proof (b_mul io so B a b ab Ba Bb E1) as Bab.
    apply U; [exact (b_conj io so B ab r Bab E2)|exact (b_mul io so B b' a' ba Bb' Ba' E3)|].
    intros R ro inj rho Hr SI RL. pose proof (ri_equiv _ Hr) as EQ. pose proof (ri_mul_ext _ Hr) as MX.
    rewrite (V R ro inj rho Hr SI RL _ _ Bab E2).
    rewrite (mul_value io Hio so D B HB ro inj rho Hr SI RL b' a' ba Bb' Ba' E3).
    rewrite (V R ro inj rho Hr SI RL _ _ Ba Ea), (V R ro inj rho Hr SI RL _ _ Bb Eb).
    exact (evo_mul io Hio so D CL ro inj rho Hr SI B SC K AK Kc Ks RL a b ab Ba Bb E1).
  - intros z r E. pose proof (b_const_mul io so B a z Ba) as Bz.
    apply U; [exact (b_conj io so B _ r Bz E)|exact (b_mul_const io so B a' (s_conj so z) Ba')|].
    intros R ro inj rho Hr SI RL. pose proof (ri_equiv _ Hr) as EQ. pose proof (ri_mul_ext _ Hr) as MX.
    rewrite (V R ro inj rho Hr SI RL _ _ Bz E).
    etransitivity; [exact (evo_scale so D CL ro inj rho Hr SI z a)|].
    rewrite <- (V R ro inj rho Hr SI RL _ _ Ba Ea).
    symmetry. exact (scale_post_value so D ro inj rho Hr SI (s_conj so z) a').
Qed.
Print Assumptions C12_laws.

(** The conjugates of the elements expressions are made of: scalars, and
    single generators (c_i and c^+_i, a_i and a^+_i, S_+ and S_- are swapped,
    S_z is unchanged). *)
Theorem C12_elements : forall I (io : index_ops I) S (so : scalar_ops S),
  scalar_domain so -> conj_laws so ->
  let G := std_gen_ops io in
  (forall x, e_conj G so (e_const so x) = Ok (e_const so (s_conj so x))) /\
  (forall x g, x <> s_zero so ->
     e_conj G so [([g], x)] = Ok [([adjoint_of g], s_conj so x)]).
Proof.
  intros I io S so D CL G. subst G. pose proof (sd_laws _ D) as L. split.
  - intros x. unfold e_const. destruct (s_is_zero so x) eqn:Z.
    + apply (sl_is_zero _ L) in Z. subst x. rewrite (sconj_0 so D CL).
      replace (s_is_zero so (s_zero so)) with true by (symmetry; now apply (sl_is_zero _ L)). reflexivity.
    + assert (Z' : s_is_zero so (s_conj so x) = false).
      { apply (s_is_zero_false so L). intros Q. apply (s_is_zero_false so L) in Z. apply Z.
        now apply (conj_zero so D CL). }
      unfold e_conj. cbn [conj_loop]. rewrite Z'. cbn [conj_mono rev app rbind].
      unfold e_const. rewrite Z'. reflexivity.
  - intros x g Hx. unfold e_conj. cbn [conj_loop].
    assert (Z : s_is_zero so (s_conj so x) = false).
    { apply (s_is_zero_false so L). intros Q. apply Hx. now apply (conj_zero so D CL). }
    rewrite Z. cbn [rev app conj_mono g_conj std_gen_ops]. unfold e_linfun, gen_conj.
    cbn [const_term terms linfun_terms].
    change (vn_is_zero (VInt 0)) with true. cbn [rbind]. rewrite (sl_make_int _ L).
    cbn [zmul]. change (Pos.to_nat 1) with 1%nat. cbn [nmul]. rewrite (s_add_0_r so L).
    assert (Z1 : s_is_zero so (s_one so) = false).
    { apply (s_is_zero_false so L). intros Q. apply Hx. rewrite <- (sl_mul_1_l _ L x), Q. apply (s_mul_0_l so L). }
    rewrite Z1. unfold e_const, e_mono. rewrite Z, Z1.
    assert (N : forall h y t, normalize (std_gen_ops io) so [h] y t = Ok (store_monomial (std_gen_ops io) so [h] y t)).
    { intros h y t. unfold normalize. change (norm_fuel [h]) with (Datatypes.S (Datatypes.S (norm_fuel [h] - 2))).
      rewrite normalize_S. cbn [length]. change (Nat.leb 2 1) with false. cbv iota.
      rewrite reduce_S. cbn [length reduce_scan]. reflexivity. }
    rewrite N. cbn [rbind]. unfold e_mul. cbn [mul_rows mul_row e_add_assign].
    change (e_add_assign (std_gen_ops io) so [] (store_monomial (std_gen_ops io) so [gen_conj_gen g] (s_one so) []))
      with [([gen_conj_gen g], s_one so)].
    cbn [mul_row app]. rewrite N. cbn [rbind]. rewrite (sl_mul_1_r _ L).
    replace (adjoint_of g) with (gen_conj_gen g) by (destruct g as [[|] i|[|] i|m [| |] i]; reflexivity).
    reflexivity.
Qed.
Print Assumptions C12_elements.

(** conj() does not throw when the scalar type has fractions, or when no
    spin 1/2 is involved. *)
Theorem C12_never_throws : forall I (io : index_ops I) S (so : scalar_ops S) B e,
  index_order io -> scalar_domain so -> spin_consistent B -> built io so B e ->
  (forall p q, q <> 0%Z -> s_make so (VRat p q) <> None) \/ (forall c i, ~ In (GSpin 2 c i) B) ->
  exists r, e_conj (std_gen_ops io) so e = Ok r.
Proof.
  intros I io S so B e Hio D HB Be H. pose proof (sd_laws _ D) as L.
  assert (AM : exists P : gen I -> Prop, (forall g, admissible B g -> P g) /\ alg_make (std_gen_ops io) so P).
  { destruct H as [H|H].
    - exists (fun _ => True). split; auto. now apply std_make_frac.
    - exists not_half. split; [|now apply std_make_int].
      intros [d i|d i|m c i] h; simpl; auto. intros ->. destruct h as [c' h]. now apply (H c' i). }
  destruct AM as [P [HP AM]].
  pose proof (built_inv io Hio so D B HB e Be) as IV.
  assert (IE : forall a, inv (std_gen_ops io) so (admissible B) a -> Pe P a).
  { intros a [_ [_ h]] m c i. eapply Forall_impl; [|apply (h m c i)]. auto. }
  assert (T1 : forall m, Forall (admissible B) m -> forall a, inv (std_gen_ops io) so (admissible B) a ->
     exists r, conj_mono (std_gen_ops io) so m a = Ok r).
  { induction 1 as [|g m hg hm IH]; intros a ha; cbn [conj_mono]; eauto.
    assert (EL : exists ef, e_linfun (std_gen_ops io) so (g_conj (std_gen_ops io) g) = Ok ef).
    { cbn [g_conj std_gen_ops]. unfold e_linfun, gen_conj. cbn [const_term terms linfun_terms].
      change (vn_is_zero (VInt 0)) with true. cbn [rbind]. rewrite (sl_make_int _ L).
      destruct (s_is_zero so _); eauto.
      destruct (e_mono_total (std_gen_ops io) so P AM (zmul so 1 (s_one so)) [gen_conj_gen g]) as [d Ed].
      { constructor; [|constructor]. apply HP. destruct g; exact hg. }
      rewrite Ed. cbn [rbind]. eauto. }
    destruct EL as [ef Ef]. rewrite Ef. cbn [rbind].
    assert (hf : inv (std_gen_ops io) so (admissible B) ef).
    { eapply (e_linfun_inv io Hio so D B HB); [|exact Ef]. now apply (conj_closed io B). }
    destruct (e_mul_total (std_gen_ops io) so P AM a ef (IE _ ha) (IE _ hf)) as [a1 Ea1]. rewrite Ea1. cbn [rbind].
    apply IH. eapply (e_mul_inv (std_gen_ops io) (std_order io Hio) so D _ (std_canon io Hio B HB)); [exact ha|exact hf|exact Ea1]. }
  assert (T2 : forall e', (forall m c, In (m, c) e' -> Forall (admissible B) m) -> forall mc out,
    exists r, conj_loop (std_gen_ops io) so e' mc out = Ok r).
  { induction e' as [|[m x] e' IH]; intros he mc out; cbn [conj_loop]; eauto.
    destruct (s_is_zero so (s_conj so x)).
    - cbn [rbind]. apply IH. intros m' c' i. apply (he m' c'). now right.
    - destruct (T1 (rev m) (Forall_rev (he m x (or_introl eq_refl))) (e_const so (s_conj so x))
        (e_const_inv _ (std_order io Hio) so D _ _)) as [ct Ec].
      rewrite Ec. cbn [rbind]. apply IH. intros m' c' i. apply (he m' c'). now right. }
  apply T2. destruct IV as [_ [_ h]]. intros m c i. apply (h m c i).
Qed.
Print Assumptions C12_never_throws.

(** ** C13: e + hc and e - hc *)
(** e + hc is e + conj(e), e - hc is e - conj(e); they are self-adjoint and
    anti-self-adjoint with respect to == for fermions, bosons and spins 1/2. *)
Theorem C13_hc : forall I (io : index_ops I) S (so : scalar_ops S) B e,
  index_order io -> scalar_domain so -> conj_laws so -> Forall simple B -> half_if_spins so B ->
  built io so B e ->
  let G := std_gen_ops io in
  (forall h, e_plus_hc G so e = Ok h ->
     (exists d, e_conj G so e = Ok d /\ h = e_add G so e d) /\
     (forall r, e_conj G so h = Ok r -> r = h)) /\
  (forall h, e_minus_hc G so e = Ok h ->
     (exists d, e_conj G so e = Ok d /\ h = e_sub G so e d) /\
     (forall r, e_conj G so h = Ok r -> r = e_neg so h)).
Proof.
  intros I io S so B e Hio D CL HB HH Be G. subst G.
  pose proof (simple_consistent B HB) as SC.
  pose proof (fun x y => built_unique io Hio so D B HB x y HH) as U.
  set (K := on_sites (map site_of B)).
  assert (AK : forall g, admissible B g -> K g) by (apply admissible_on; auto).
  assert (Kc : forall g, K g -> K (gen_conj_gen g)).
  { intros [d i|d i|m c i] [h1 h2]; (split; [exact h1|exact h2]). }
  assert (Ks : forall m c c' i, K (GSpin m c i) -> K (GSpin m c' i)) by (intros m c c' i [h1 h2]; split; auto).
  pose proof (fun R ro inj rho Hr SI RL => @ev_conj I S R io Hio so D CL ro inj rho Hr SI B SC K AK Ks RL) as V.
  pose proof (fun R ro inj rho Hr SI RL => @evo_conj I S R io Hio so D CL ro inj rho Hr SI B SC K AK Kc Ks RL) as W.
  split.
  - intros h Eh. unfold e_plus_hc in Eh. destruct (e_conj (std_gen_ops io) so e) as [d| |] eqn:Ed; try discriminate.
    cbn [rbind] in Eh. injection Eh as <-. split; [exists d; auto|].
    assert (Bd : built io so B d) by exact (b_conj io so B e d Be Ed).
    intros r E. apply U; [exact (b_conj io so B _ r (b_add io so B e d Be Bd) E)|exact (b_add io so B e d Be Bd)|].
    intros R ro inj rho Hr SI RL. pose proof (ri_equiv _ Hr) as EQ. pose proof (ri_add_ext _ Hr) as AX.
    rewrite (V R ro inj rho Hr SI RL _ _ (b_add io so B e d Be Bd) E), (add_value io Hio so D ro inj rho Hr SI e d).
    etransitivity; [exact (evo_add io Hio so D CL ro inj rho Hr SI e d)|].
    rewrite (W R ro inj rho Hr SI RL _ _ Be Ed), <- (V R ro inj rho Hr SI RL _ _ Be Ed). apply (ri_add_comm _ Hr).
  - intros h Eh. unfold e_minus_hc in Eh. destruct (e_conj (std_gen_ops io) so e) as [d| |] eqn:Ed; try discriminate.
    cbn [rbind] in Eh. injection Eh as <-. split; [exists d; auto|].
    assert (Bd : built io so B d) by exact (b_conj io so B e d Be Ed).
    pose proof (b_sub io so B e d Be Bd) as Bs.
    intros r E. apply U; [exact (b_conj io so B _ r Bs E)|exact (b_neg io so B _ Bs)|].
    intros R ro inj rho Hr SI RL. pose proof (ri_equiv _ Hr) as EQ. pose proof (ri_add_ext _ Hr) as AX.
    pose proof (ri_opp_ext _ Hr) as OX.
    rewrite (V R ro inj rho Hr SI RL _ _ Bs E).
    etransitivity; [exact (evo_sub io Hio so D CL ro inj rho Hr SI e d)|].
    rewrite (W R ro inj rho Hr SI RL _ _ Be Ed), <- (V R ro inj rho Hr SI RL _ _ Be Ed).
    change (e_neg so) with (neg_map (G := gen I) so).
    rewrite (ev_neg so (sd_laws _ D) ro Hr inj rho SI).
    rewrite (ev_sub_assign (std_gen_ops io) (std_order io Hio) so (sd_laws _ D) ro Hr inj rho SI e d).
    exact (minus_swap ro Hr _ _).
Qed.
Print Assumptions C13_hc.

(** For all algebras (spins of any multiplicity) the same holds of the
    operators. *)
Theorem C13_hc_operator : forall I (io : index_ops I) S (so : scalar_ops S) R
    (ro : ring_ops R) (inj : S -> R) (rho : gen I -> R) B e,
  index_order io -> scalar_domain so -> conj_laws so -> spin_consistent B ->
  representation so ro inj rho -> built io so B e ->
  let G := std_gen_ops io in let ev := eval_expr ro inj rho in
  (forall h r, e_plus_hc G so e = Ok h -> e_conj G so h = Ok r -> req ro (ev r) (ev h)) /\
  (forall h r, e_minus_hc G so e = Ok h -> e_conj G so h = Ok r -> req ro (ev r) (ropp ro (ev h))).
Proof.
  intros I io S so R ro inj rho B e Hio D CL HB [Hr SI RL] Be G ev. subst G ev.
  pose proof (ri_equiv _ Hr) as EQ. pose proof (ri_add_ext _ Hr) as AX. pose proof (ri_opp_ext _ Hr) as OX.
  set (K := fun _ : gen I => True).
  assert (AK : forall g, admissible B g -> K g) by (intros; exact Logic.I).
  assert (Kc : forall g, K g -> K (gen_conj_gen g)) by (intros; exact Logic.I).
  assert (Ks : forall m c c' i, K (GSpin m c i) -> K (GSpin m c' i)) by (intros; exact Logic.I).
  pose proof (relations_all so ro inj rho RL) as RK. fold K in RK.
  pose proof (ev_conj io Hio so D CL ro inj rho Hr SI B HB K AK Ks RK) as V.
  pose proof (evo_conj io Hio so D CL ro inj rho Hr SI B HB K AK Kc Ks RK) as W.
  split.
  - intros h r Eh E. unfold e_plus_hc in Eh. destruct (e_conj (std_gen_ops io) so e) as [d| |] eqn:Ed; try discriminate.
    cbn [rbind] in Eh. injection Eh as <-.
    assert (Bd : built io so B d) by exact (b_conj io so B e d Be Ed).
    rewrite (V _ _ (b_add io so B e d Be Bd) E), (add_value io Hio so D ro inj rho Hr SI e d).
    etransitivity; [exact (evo_add io Hio so D CL ro inj rho Hr SI e d)|].
    rewrite (W _ _ Be Ed), <- (V _ _ Be Ed). apply (ri_add_comm _ Hr).
  - intros h r Eh E. unfold e_minus_hc in Eh. destruct (e_conj (std_gen_ops io) so e) as [d| |] eqn:Ed; try discriminate.
    cbn [rbind] in Eh. injection Eh as <-.
    assert (Bd : built io so B d) by exact (b_conj io so B e d Be Ed).
    rewrite (V _ _ (b_sub io so B e d Be Bd) E).
    etransitivity; [exact (evo_sub io Hio so D CL ro inj rho Hr SI e d)|].
    rewrite (W _ _ Be Ed), <- (V _ _ Be Ed).
    rewrite (ev_sub_assign (std_gen_ops io) (std_order io Hio) so (sd_laws _ D) ro Hr inj rho SI e d).
    exact (minus_swap ro Hr _ _).
Qed.
Print Assumptions C13_hc_operator.

(** (1 + 2i) c^+_1 S_+ a_2 + i over the complex rationals *)
Definition C12_gens : list (gen (list dyn_index)) :=
  [cdag 1; cann 1; adag 2; aann 2; spin 2 Plus 0; spin 2 Minus 0].
Definition cmono (x : cx) (m : list (gen (list dyn_index))) : list (list (gen (list dyn_index)) * cx) :=
  match e_mono (std_gen_ops dyn_index_ops) cx_scalar_ops x m with Ok e => e | _ => [] end.
Definition cxi (a b : Z) : cx := (qcz a, qcz b).
Definition C12_e := e_add (std_gen_ops dyn_index_ops) cx_scalar_ops
  (cmono (cxi 1 2) [cdag 1; spin 2 Plus 0; aann 2]) (e_const cx_scalar_ops (cxi 0 1)).
(** its conjugate is (1 - 2i) c_1 a^+_2 S_- - i *)
Example C12_example :
  Forall simple C12_gens /\ half_if_spins cx_scalar_ops C12_gens /\
  built dyn_index_ops cx_scalar_ops C12_gens C12_e /\
  exists r, e_conj (std_gen_ops dyn_index_ops) cx_scalar_ops C12_e = Ok r /\
    map (fun p => (fst p, (this (fst (snd p)), this (snd (snd p))))) r =
      [([], (0, -1)%Q); ([cann 1; adag 2; spin 2 Minus 0], (1, -2)%Q)].
Proof.
  split; [repeat constructor|]. split.
  { intros m c i _. exists (Q2Qc (1 # 2), Q2Qc 0). cbn. f_equal; now apply Qc_is_canon. }
  split.
  { unfold C12_e. apply b_add; [|apply b_scalar]. unfold cmono.
    destruct (e_mono (std_gen_ops dyn_index_ops) cx_scalar_ops (cxi 1 2) [cdag 1; spin 2 Plus 0; aann 2]) as [e| |] eqn:E;
      [|vm_compute in E; discriminate|vm_compute in E; discriminate].
    eapply b_mono; [|exact E]. intros g i. simpl in i. unfold C12_gens. simpl. tauto. }
  destruct (e_conj (std_gen_ops dyn_index_ops) cx_scalar_ops C12_e) as [r| |] eqn:E;
    [|vm_compute in E; discriminate|vm_compute in E; discriminate].
  exists r. split; [reflexivity|]. vm_compute in E. injection E as <-. reflexivity.
Qed.
