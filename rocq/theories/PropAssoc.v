(** C61: associativity for user-defined algebras.  C62: the gamma matrix
    example.  C63: Lie algebras and the Virasoro example. *)
From Coq Require Import ZArith QArith Qcanon Bool Lia List Sorted Ring.
From Verif Require Import ExprModel ExprSpec ExprOrder ExprMap ExprEval ExprCanon ExprLin ExprHom ExprInst ExprConj
  LinSpec AssocSpec AssocProofs LieProofs UserModel.
Import ListNotations.
Close Scope Qc_scope.
Close Scope Q_scope.
Open Scope nat_scope.
Open Scope list_scope.

(** ** C61 *)
(** If (x*y)*z == x*(y*z) for all generators x, y, z then this holds for all
    expressions. *)
Theorem C61_associative : forall G S (go : gen_ops G) (so : scalar_ops S),
  scalar_domain so -> (forall x y, s_mul so x y = s_mul so y x) -> regular_algebra go so ->
  (forall x y z, associates go so (generator_expr so x) (generator_expr so y) (generator_expr so z)) ->
  forall a b c, stored_expr go so a -> stored_expr go so b -> stored_expr go so c -> associates go so a b c.
Proof.
  intros G S go so D comm RA H a b c [_ ha] [_ hb] [_ hc]. exact (assoc_all go so D comm RA H a b c ha hb hc).
Qed.

(** It is enough to look at triples in which both pairs are rewritten: x y is
    out of order or simplifiable, and so is y z. *)
Theorem C61_overlaps : forall G S (go : gen_ops G) (so : scalar_ops S),
  scalar_domain so -> (forall x y, s_mul so x y = s_mul so y x) -> regular_algebra go so ->
  (forall x y z, rewritten go x y -> rewritten go y z ->
     associates go so (generator_expr so x) (generator_expr so y) (generator_expr so z)) ->
  forall a b c, stored_expr go so a -> stored_expr go so b -> stored_expr go so c -> associates go so a b c.
Proof.
  intros G S go so D comm RA H a b c [_ ha] [_ hb] [_ hc].
  assert (R : forall x y, F go so x y <> None -> rewritten go x y).
  { intros x y h. unfold F in h. unfold rewritten. destruct (g_gt go x y); auto. right.
    destruct (g_simplify go x y); congruence. }
  apply (assoc_conf go so D comm RA); auto.
  assert (K : forall n x y z, M go [x; y; z] < n -> F go so x y <> None -> F go so y z <> None -> Res go so RA x y z).
  { induction n as [|n IH]; intros x y z h1 h2 h3; [lia|]. apply (res_of_assoc go so D RA); auto.
    intros v hv. destruct (M go [x; y; z]) as [|m] eqn:Em; [lia|].
    apply (confluence go so D comm RA m); [|lia]. intros x' y' z' h. apply IH. lia. }
  intros w. apply (confluence go so D comm RA (M go w)); auto. intros x y z h. apply (K (Datatypes.S (M go w))). lia.
Qed.

(** ** C62: gamma matrices *)
Definition eta (i j : Z) : Z := if Z.eqb i j then (if Z.eqb i 0 then 1 else -1) else 0.

Section Gamma.
Context {S : Type} (so : scalar_ops S) (D : scalar_domain so) (comm : forall x y, s_mul so x y = s_mul so y x).
Let L := sd_laws _ D.
Notation go := gamma_ops.
Notation gx := (generator_expr so).
Add Ring Sring_g : (Sring so D comm).

Lemma gamma_order : gen_order gamma_ops.
Proof. exact sto_Z. Qed.
Lemma make_int z : s_make so (VInt z) <> None.
Proof. rewrite (sl_make_int _ L). discriminate. Qed.
Lemma gamma_regular : regular_algebra gamma_ops so.
Proof.
  assert (K : forall z, representable so (mk_linfun (VInt z) (@nil (Z * var_number)))).
  { intros z. split; [apply make_int|intros g v []]. }
  constructor.
  - apply gamma_order.
  - constructor.
    + intros a b c f _ E. cbn in E. injection E as <- <-. split; [intros g v []|reflexivity].
    + intros a b f _ E g v i. cbn in E. unfold gamma_simplify in E. destruct (a =? b)%Z; inversion E; subst. destruct i.
  - intros a b c f h1 h2. cbn in *. unfold gamma_simplify in h2. destruct (Z.eqb_spec a b); [|congruence].
    subst. rewrite Z.ltb_irrefl in h1. discriminate.
  - reflexivity.
  - intros a b c f E. cbn in E. injection E as <- <-. split; [apply make_int|apply K].
  - intros a b f E. cbn in E. unfold gamma_simplify in E. destruct (a =? b)%Z; inversion E; subst. apply K.
  - intros a. cbn. unfold gamma_conj. destruct (a =? 0)%Z; (split; [apply make_int|]);
      intros g v [e|[]]; injection e as <- <-; apply make_int.
Qed.
Notation RA := gamma_regular.
Notation V := (V go so RA).

Definition m1 : S := s_neg so (s_one so).
Definition sq (x : Z) : S := zmul so (eta x x) (s_one so).
Lemma gF_gt x y : (y < x)%Z -> F go so x y = Some [(m1, [y; x])].
Proof.
  intros h. unfold F. cbn [g_gt gamma_ops]. rewrite (proj2 (Z.ltb_lt y x) h).
  unfold g_swap, gamma_swap. cbn. destruct (Z.eqb_spec x y); [lia|]. cbn. unfold mkc.
  rewrite (sl_make_int _ L), (zmul_m1 so L). reflexivity.
Qed.
Lemma gF_eq x : F go so x x = Some [(sq x, [])].
Proof.
  unfold F. cbn [g_gt gamma_ops]. rewrite Z.ltb_irrefl. cbn. unfold gamma_simplify. rewrite Z.eqb_refl.
  unfold lf_sum, sq, eta. rewrite Z.eqb_refl. cbn [const_term terms map].
  destruct (x =? 0)%Z; cbn [vn_is_zero Z.eqb app]; unfold mkc; rewrite (sl_make_int _ L); reflexivity.
Qed.
Lemma gF_lt x y : (x < y)%Z -> F go so x y = None.
Proof.
  intros h. unfold F. cbn [g_gt gamma_ops]. destruct (Z.ltb_spec y x); [lia|]. cbn. unfold gamma_simplify.
  destruct (Z.eqb_spec x y); [lia|]. reflexivity.
Qed.
Lemma gNL_gt x y phi : (y < x)%Z -> ev so phi (NL go so [x; y]) = s_neg so (phi [y; x]).
Proof.
  intros h. rewrite (NL2 go so RA x y _ (gF_gt x y h)), (ev_bind so D). cbn [ev].
  rewrite (NL_irr go so [y; x]) by (cbn [first_red]; now rewrite (gF_lt y x h)). cbn [ev]. unfold m1. ring.
Qed.
Lemma gNL_eq x phi : ev so phi (NL go so [x; x]) = s_mul so (sq x) (phi []).
Proof.
  rewrite (NL2 go so RA x x _ (gF_eq x)), (ev_bind so D). cbn [ev].
  rewrite (NL_irr go so []) by reflexivity. cbn [ev]. ring.
Qed.
Lemma gV_step k p x y s ts : first_red go so (p ++ x :: y :: s) = Some (p, ts, s) ->
  V k (p ++ x :: y :: s) = ev so (fun u => V k (p ++ u ++ s)) ts.
Proof. apply (V_red go so D RA). Qed.

Lemma gamma_res x y z : F go so x y <> None -> F go so y z <> None -> Res go so RA x y z.
Proof.
  intros h1 h2 k.
  destruct (Z.lt_trichotomy x y) as [h|[h|h]]; [now rewrite (gF_lt _ _ h) in h1| |];
  (destruct (Z.lt_trichotomy y z) as [h'|[h'|h']]; [now rewrite (gF_lt _ _ h') in h2| |]); subst.
  - rewrite !gNL_eq. reflexivity.
  - rewrite gNL_eq, (gNL_gt _ _ _ h'). cbn [app].
    pose proof (gV_step k [] y z [y] [(m1, [z; y])]) as A. cbn [app] in A. rewrite !first_red_cons, (gF_gt _ _ h') in A.
    rewrite (A eq_refl). cbn [ev app].
    pose proof (gV_step k [z] y y [] [(sq y, [])]) as B. cbn [app] in B. rewrite !first_red_cons, (gF_lt _ _ h'), gF_eq in B.
    rewrite (B eq_refl). cbn [ev app]. unfold m1. ring.
  - rewrite gNL_eq, (gNL_gt _ _ _ h). cbn [app].
    pose proof (gV_step k [z] x z [] [(m1, [z; x])]) as A. cbn [app] in A. rewrite !first_red_cons, (gF_lt _ _ h), (gF_gt _ _ h) in A.
    rewrite (A eq_refl). cbn [ev app].
    pose proof (gV_step k [] z z [x] [(sq z, [])]) as B. cbn [app] in B. rewrite !first_red_cons, gF_eq in B.
    rewrite (B eq_refl). cbn [ev app]. unfold m1. ring.
  - rewrite (gNL_gt _ _ _ h), (gNL_gt _ _ _ h'). cbn [app].
    assert (h3 : (z < x)%Z) by lia.
    pose proof (gV_step k [y] x z [] [(m1, [z; x])]) as A. cbn [app] in A. rewrite !first_red_cons, (gF_lt _ _ h), (gF_gt _ _ h3) in A.
    rewrite (A eq_refl). cbn [ev app].
    pose proof (gV_step k [] y z [x] [(m1, [z; y])]) as B. cbn [app] in B. rewrite !first_red_cons, (gF_gt _ _ h') in B.
    rewrite (B eq_refl). cbn [ev app].
    pose proof (gV_step k [] x z [y] [(m1, [z; x])]) as A'. cbn [app] in A'. rewrite !first_red_cons, (gF_gt _ _ h3) in A'.
    rewrite (A' eq_refl). cbn [ev app].
    pose proof (gV_step k [z] x y [] [(m1, [y; x])]) as B'. cbn [app] in B'. rewrite !first_red_cons, (gF_lt _ _ h3), (gF_gt _ _ h) in B'.
    rewrite (B' eq_refl). cbn [ev app]. unfold m1. ring.
Qed.

Lemma gamma_pair x y k e : e_mul go so (gx x) (gx y) = Ok e -> stored go so e /\ coef go so e k = V k [x; y].
Proof.
  intros E. destruct (mul_coef go so D RA _ _ _ k (gx_nonzero so D x) (gx_nonzero so D y) E) as [h K]. split; auto.
  rewrite K, (ev_wprod so D), !fs_gx. cbn [ev app]. rewrite (nf2 go so D RA) by (simpl; lia). ring.
Qed.
Lemma gV2 x y k : s_add so (V k [x; y]) (V k [y; x]) = coef go so (e_const so (zmul so (2 * eta x y) (s_one so))) k.
Proof.
  assert (Z2 : forall z, zmul so (2 * z) (s_one so) = s_add so (zmul so z (s_one so)) (zmul so z (s_one so))).
  { intros z. replace (2 * z)%Z with (z + z)%Z by lia. apply (zmul_add so D). }
  assert (Kc : forall c, coef go so (e_const so c) k = s_mul so c (del go so RA k [])).
  { intros c. unfold e_const, del. destruct (s_is_zero so c) eqn:Z.
    - apply (sl_is_zero _ L) in Z. subst c. rewrite coef_nil. ring.
    - destruct (wdec go so RA [] k) as [<-|n]; [rewrite (coef_cons_eq go gamma_order); ring|].
      rewrite (coef_cons_ne go gamma_order), coef_nil; [ring| |congruence]. repeat constructor. }
  assert (VL : forall a b, (a < b)%Z -> V k [b; a] = s_neg so (V k [a; b])).
  { intros a b h. pose proof (gV_step k [] b a [] [(m1, [a; b])]) as A. cbn [app] in A.
    rewrite !first_red_cons, (gF_gt _ _ h) in A. rewrite (A eq_refl). cbn [ev app]. unfold m1. ring. }
  rewrite Kc, Z2. unfold eta. destruct (Z.lt_trichotomy x y) as [h|[h|h]].
  - destruct (Z.eqb_spec x y); [lia|]. rewrite (VL _ _ h). cbn [zmul]. ring.
  - subst y. rewrite Z.eqb_refl. pose proof (gV_step k [] x x [] [(sq x, [])]) as A. cbn [app] in A.
    rewrite !first_red_cons, gF_eq in A. rewrite (A eq_refl). cbn [ev app].
    rewrite (V_irr go so D RA) by reflexivity. unfold sq, eta. rewrite Z.eqb_refl. ring.
  - destruct (Z.eqb_spec x y); [lia|]. rewrite (VL _ _ h). cbn [zmul]. ring.
Qed.

End Gamma.

(** {g_i, g_j} = 2 eta(i,j), for all integer indices and scalar types. *)
Theorem C62_clifford_relations : forall S (so : scalar_ops S),
  scalar_domain so -> (forall x y, s_mul so x y = s_mul so y x) ->
  forall i j, exists ij ji,
    e_mul gamma_ops so (generator_expr so i) (generator_expr so j) = Ok ij /\
    e_mul gamma_ops so (generator_expr so j) (generator_expr so i) = Ok ji /\
    e_add gamma_ops so ij ji = e_const so (zmul so (2 * eta i j) (s_one so)).
Proof.
  intros S so D comm i j. pose proof (gamma_regular so D) as RA.
  destruct (e_mul_ok gamma_ops so RA (generator_expr so i) (generator_expr so j)) as [ij E1].
  destruct (e_mul_ok gamma_ops so RA (generator_expr so j) (generator_expr so i)) as [ji E2].
  exists ij, ji. split; auto. split; auto.
  assert (S1 := proj1 (gamma_pair so D comm _ _ [] _ E1)). assert (S2 := proj1 (gamma_pair so D comm _ _ [] _ E2)).
  apply (stored_ext gamma_ops gamma_order so D).
  - now apply (stored_add gamma_ops gamma_order so D).
  - apply (stored_const gamma_ops so D).
  - intros k. unfold e_add. rewrite (coef_add_assign gamma_ops gamma_order so (sd_laws _ D)) by (apply S1 || apply S2).
    rewrite (proj2 (gamma_pair so D comm _ _ k _ E1)), (proj2 (gamma_pair so D comm _ _ k _ E2)).
    apply gV2; auto.
Qed.

(** The product of gamma expressions is associative. *)
Theorem C62_gamma_associative : forall S (so : scalar_ops S),
  scalar_domain so -> (forall x y, s_mul so x y = s_mul so y x) ->
  forall a b c, stored_expr gamma_ops so a -> stored_expr gamma_ops so b -> stored_expr gamma_ops so c ->
  associates gamma_ops so a b c.
Proof.
  intros S so D comm a b c [_ ha] [_ hb] [_ hc].
  apply (assoc_res gamma_ops so D comm (gamma_regular so D)); auto. apply gamma_res; auto.
Qed.

(** conj(g_0) = g_0, conj(g_k) = -g_k *)
Theorem C62_gamma_conj : forall S (so : scalar_ops S), scalar_domain so -> conj_laws so ->
  forall i, e_conj gamma_ops so (generator_expr so i) =
    Ok (if Z.eqb i 0 then generator_expr so i else e_neg so (generator_expr so i)).
Proof.
  intros S so D CL i. pose proof (sd_laws _ D) as L.
  assert (O1 : s_is_zero so (s_one so) = false) by (apply (s_is_zero_false so L), (one_nz so D)).
  assert (O2 : s_is_zero so (s_neg so (s_one so)) = false).
  { apply (s_is_zero_false so L). intros h. apply (one_nz so D). now apply (s_neg_zero_iff so L). }
  unfold e_conj, generator_expr. cbn [conj_loop rev app]. rewrite (sconj_1 so D CL), O1.
  unfold conj_mono, e_linfun, linfun_terms. cbn [g_conj gamma_ops]. unfold gamma_conj, e_const. rewrite O1.
  assert (B : forall x c, c <> s_zero so -> e_mono gamma_ops so c [x] = Ok [([x], c)]).
  { intros x c h. unfold e_mono. rewrite (proj2 (s_is_zero_false so L c) h). reflexivity. }
  assert (C : forall x c, e_mul gamma_ops so [([], s_one so)] [([x], c)] = Ok [([x], c)]).
  { intros x c. unfold e_mul. cbn [mul_rows mul_row app]. rewrite (sl_mul_1_l _ L). reflexivity. }
  destruct (i =? 0)%Z; cbn [const_term terms vn_is_zero Z.eqb rbind]; rewrite (sl_make_int _ L).
  - rewrite (zmul_1 so L), O1, B by (apply (one_nz so D)). cbn [rbind].
    change (e_add_assign gamma_ops so [] [([i], s_one so)]) with [([i], s_one so)].
    rewrite C. reflexivity.
  - rewrite (zmul_m1 so L), O2, B by (now apply (s_is_zero_false so L)). cbn [rbind].
    change (e_add_assign gamma_ops so [] [([i], s_neg so (s_one so))]) with [([i], s_neg so (s_one so))].
    rewrite C. reflexivity.
Qed.

(** Every product is stored as a combination of products of different gamma
    matrices with increasing indices. *)
Theorem C62_gamma_canonical : forall S (so : scalar_ops S), scalar_domain so ->
  forall a b e, stored_expr gamma_ops so a -> stored_expr gamma_ops so b -> e_mul gamma_ops so a b = Ok e ->
  forall m c, In (m, c) e -> StronglySorted Z.lt m.
Proof.
  intros S so D a b e ha hb E m c i. pose proof (gamma_regular so D) as RA.
  assert (K : inv gamma_ops so (fun _ => True) e).
  { assert (R : forall m1 c1 b t t', c1 <> s_zero so -> nonzero so b -> inv gamma_ops so (fun _ => True) t ->
      mul_row gamma_ops so m1 c1 b t = Ok t' -> inv gamma_ops so (fun _ => True) t').
    { intros m1 c1 b0. induction b0 as [|[m2 c2] b0 IH]; cbn [mul_row]; intros t t' h1 h2 h3 E1.
      - injection E1 as <-. exact h3.
      - destruct (normalize gamma_ops so (m1 ++ m2) (s_mul so c1 c2) t) as [t1| |] eqn:E2; try discriminate.
        cbn [rbind] in E1. destruct (nonzero_inv so _ _ _ h2) as [h4 h5].
        eapply (IH t1 t' h1 h5); [|exact E1].
        eapply (normalize_inv gamma_ops gamma_order so D (fun _ => True) (AC gamma_ops so RA)); [apply all_True| |exact h3|exact E2].
        now apply (s_nz so D). }
    assert (R2 : forall a t t', nonzero so a -> inv gamma_ops so (fun _ => True) t ->
      mul_rows gamma_ops so a b t = Ok t' -> inv gamma_ops so (fun _ => True) t').
    { induction a0 as [|[m1 c1] a0 IH]; cbn [mul_rows]; intros t t' h1 h3 E1.
      - injection E1 as <-. exact h3.
      - destruct (mul_row gamma_ops so m1 c1 b t) as [t1| |] eqn:E2; try discriminate. cbn [rbind] in E1.
        destruct (nonzero_inv so _ _ _ h1) as [h4 h5]. eapply (IH t1 t' h5); [|exact E1].
        eapply (R m1 c1 b); [exact h4|exact (proj2 hb)|exact h3|exact E2]. }
    eapply (R2 a); [exact (proj2 ha)|apply inv_nil|exact E]. }
  destruct K as [_ [_ K]]. destruct (K m c i) as [[K1 _] _].
  apply Sorted_StronglySorted; [intros x y z; apply Z.lt_trans|].
  revert K1. clear. induction m as [|x m IH]; intros h; constructor.
  - inversion h; auto.
  - inversion h as [|? ? _ h2]; subst. inversion h2 as [|y m' h3]; subst; constructor.
    destruct h3 as [h3 h4]. unfold gle in h3. cbn in h3, h4. unfold gamma_simplify in h4.
    destruct (Z.eqb_spec x y); [discriminate|]. apply Z.ltb_ge in h3. lia.
Qed.

(** ** C63: Lie algebras *)
Theorem C63_jacobi_iff_associative : forall G S (go : gen_ops G) (so : scalar_ops S),
  scalar_domain so -> (forall x y, s_mul so x y = s_mul so y x) -> regular_algebra go so -> lie_type go ->
  ((forall x y z, jacobi_identity go so (generator_expr so x) (generator_expr so y) (generator_expr so z)) <->
   (forall a b c, stored_expr go so a -> stored_expr go so b -> stored_expr go so c -> associates go so a b c)).
Proof.
  intros G S go so D comm RA LT. split.
  - intros HJ a b c [_ ha] [_ hb] [_ hc]. exact (assoc_of_jacobi go so D comm RA LT HJ a b c ha hb hc).
  - intros HA x y z. apply (jacobi_of_conf go so D comm RA). apply (all_conf go so D comm RA).
    assert (K : forall g, stored_expr go so (generator_expr so g)).
    { intros g. split; [repeat constructor|apply (gx_nonzero so D)]. }
    intros x' y' z'. apply HA; auto.
Qed.

(** ** Concrete cases *)
(** C61, C62: the hypotheses hold for the gamma matrices over the complex
    numbers; there are overlapping pairs, and products of stored expressions *)
Lemma cx_comm (x y : cx) : s_mul cx_scalar_ops x y = s_mul cx_scalar_ops y x.
Proof. destruct x, y. cbn. f_equal; ring. Qed.
Example C61_case : regular_algebra gamma_ops cx_scalar_ops /\
  rewritten gamma_ops 2%Z 1%Z /\ rewritten gamma_ops 1%Z 1%Z /\
  (forall x y z, associates gamma_ops cx_scalar_ops
     (generator_expr cx_scalar_ops x) (generator_expr cx_scalar_ops y) (generator_expr cx_scalar_ops z)).
Proof.
  split; [apply gamma_regular, cx_domain|]. split; [left; reflexivity|]. split; [right; discriminate|].
  intros x y z. apply (C62_gamma_associative _ _ cx_domain cx_comm);
    (split; [repeat constructor|apply (gx_nonzero cx_scalar_ops cx_domain)]).
Qed.
(** C63: a Lie algebra *)
Example C63_case : lie_type virasoro_lie_ops /\ g_gt virasoro_lie_ops 2%Z 1%Z = true.
Proof.
  split; [|reflexivity]. constructor; [|reflexivity]. intros a b c f _ E. cbn in E. now injection E as <- _.
Qed.

(** examples/gamma.expression.cpp l.47-60: gamma^5 = i g0 g1 g2 g3 *)
Definition prod4 (a b c d : list (list Z * cx)) : res (list (list Z * cx)) :=
  rbind (e_mul gamma_ops cx_scalar_ops a b) (fun ab =>
  rbind (e_mul gamma_ops cx_scalar_ops ab c) (fun abc => e_mul gamma_ops cx_scalar_ops abc d)).
Definition gamma5 : list (list Z * cx) := [([0; 1; 2; 3]%Z, (Q2Qc 0, Q2Qc 1))].
Notation g i := (generator_expr cx_scalar_ops i%Z).
Example C62_gamma5_product :
  rbind (prod4 (g 0) (g 1) (g 2) (g 3)) (fun p => Ok (e_mul_const_pre cx_scalar_ops (Q2Qc 0, Q2Qc 1) p)) = Ok gamma5.
Proof. vm_compute. unfold gamma5. repeat f_equal; apply Qc_is_canon; reflexivity. Qed.
Example C62_gamma5_square : e_mul gamma_ops cx_scalar_ops gamma5 gamma5 = Ok (e_const cx_scalar_ops (s_one cx_scalar_ops)).
Proof. vm_compute. repeat f_equal; apply Qc_is_canon; reflexivity. Qed.
Example C62_gamma5_conj : e_conj gamma_ops cx_scalar_ops gamma5 = Ok gamma5.
Proof. vm_compute. repeat f_equal; apply Qc_is_canon; reflexivity. Qed.
Example C62_gamma5_anticommutes : forall i, In i [0; 1; 2; 3]%Z ->
  rbind (e_mul gamma_ops cx_scalar_ops gamma5 (g i)) (fun p =>
  rbind (e_mul gamma_ops cx_scalar_ops (g i) gamma5) (fun q => Ok (e_add gamma_ops cx_scalar_ops p q))) = Ok [].
Proof. intros i [<-|[<-|[<-|[<-|[]]]]]; vm_compute; reflexivity. Qed.

Print Assumptions C61_associative.
Print Assumptions C61_overlaps.
Print Assumptions C62_clifford_relations.
Print Assumptions C62_gamma_associative.
Print Assumptions C62_gamma_conj.
Print Assumptions C62_gamma_canonical.
Print Assumptions C63_jacobi_iff_associative.
