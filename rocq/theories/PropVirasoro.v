(** C63: the Virasoro example.  The commutators are right for all indices; with
    the shipped simplify_prod() the product is not associative, without it it is. *)
From Coq Require Import ZArith QArith Qcanon Bool Lia List Sorted Ring Zwf.
From Verif Require Import ExprModel ExprSpec ExprOrder ExprMap ExprEval ExprCanon ExprLin ExprHom ExprInst ExprConj
  LinSpec AssocSpec AssocProofs LieProofs UserModel PropAssoc.
Import ListNotations.
Close Scope Qc_scope.
Close Scope Q_scope.
Open Scope nat_scope.
Open Scope list_scope.

(** ** Specification: [L_m, L_n] = (m-n) L_{m+n} + c (m^3-m) delta(m,-n), c = 2 *)
Definition num (z : Z) : Qc := Q2Qc (inject_Z z).
Definition central (m n : Z) : Z := if Z.eqb (m + n) 0 then 2 * (m * m * m - m) else 0.
Definition virasoro_bracket (go : gen_ops Z) (m n : Z) : list (list Z * Qc) :=
  e_add go double_scalar_ops
    (e_mul_const_pre double_scalar_ops (num (m - n)) (generator_expr double_scalar_ops (m + n)%Z))
    (e_const double_scalar_ops (num (central m n))).

Section Vir.
Context (simp : Z -> Z -> option (linfun Z)).
Context (Hsimp : forall x y f, simp x y = Some f -> x = y /\ f = mk_linfun (VInt 0) []).
Let go : gen_ops Z :=
  mk_gen_ops Z Z.eqb Z.ltb (fun a b => Z.ltb b a) virasoro_swap simp base_reduce virasoro_conj.
Notation so := double_scalar_ops.
Notation D := double_domain.
Let L := sd_laws _ D.
Notation gx := (generator_expr so).
Lemma dcomm (x y : Qc) : s_mul so x y = s_mul so y x.
Proof. apply Qcmult_comm. Qed.
Add Ring Sring_v : (Sring so D dcomm).

Lemma num_zmul z : num z = zmul so z (s_one so).
Proof.
  pose proof (sl_make_int _ L z) as H. cbn [s_make double_scalar_ops flt_of_vn qc_of_vn] in H.
  injection H as H. exact H.
Qed.
Lemma num_add x y : num (x + y) = s_add so (num x) (num y).
Proof. rewrite !num_zmul. apply (zmul_add so D). Qed.
Lemma num_mul x y : num (x * y) = s_mul so (num x) (num y).
Proof. rewrite !num_zmul. apply (zmul_mul so D). Qed.
Lemma num_opp x : num (- x) = s_neg so (num x).
Proof. rewrite !num_zmul. apply (zmul_opp so D). Qed.
Lemma num_0 : num 0 = s_zero so.
Proof. reflexivity. Qed.
Lemma mk_int z : mkc so (VInt z) = num z.
Proof. reflexivity. Qed.
Lemma mk_real z : mkc so (VReal (inject_Z z)) = num z.
Proof. reflexivity. Qed.
Lemma vir_order : gen_order go.
Proof. exact sto_Z. Qed.
Lemma vir_regular : regular_algebra go so.
Proof.
  constructor.
  - apply vir_order.
  - constructor.
    + intros a b c f h E. cbn in E. injection E as <- <-. cbn in h. apply Z.ltb_lt in h. split; [|reflexivity].
      intros g v [e|[]]. injection e as <- <-. cbn. apply Z.eqb_neq. lia.
    + intros a b f _ E g v i. destruct (Hsimp _ _ _ E) as [_ ->]. destruct i.
  - intros a b c f h1 h2. cbn in *. destruct (simp a b) as [f'|] eqn:E; [|congruence].
    destruct (Hsimp _ _ _ E) as [-> _]. rewrite Z.ltb_irrefl in h1. discriminate.
  - reflexivity.
  - intros a b c f E. cbn in E. injection E as <- <-. split; [discriminate|]. split; [discriminate|].
    intros g v [e|[]]. injection e as <- <-. discriminate.
  - intros a b f E. destruct (Hsimp _ _ _ E) as [_ ->]. split; [discriminate|intros g v []].
  - intros a. split; [discriminate|]. intros g v [e|[]]. injection e as <- <-. discriminate.
Qed.
Notation RA := vir_regular.
Notation V := (V go so RA).
Notation del := (del go so RA).

(** the value of [x,y] under a linear functional *)
Definition B (phi : list Z -> Qc) (x y : Z) : Qc :=
  s_add so (s_mul so (num (x - y)) (phi [(x + y)%Z])) (s_mul so (num (central x y)) (phi [])).
Lemma central_swap x y : central y x = (- central x y)%Z.
Proof.
  unfold central. rewrite (Z.add_comm y x). destruct (Z.eqb_spec (x + y) 0); [|lia].
  replace y with (- x)%Z by lia. ring.
Qed.
Lemma B_swap phi x y : B phi y x = s_neg so (B phi x y).
Proof.
  unfold B. rewrite central_swap, num_opp. replace (y - x)%Z with (- (x - y))%Z by lia.
  rewrite num_opp, (Z.add_comm y x). ring.
Qed.
Lemma B_same phi x : B phi x x = s_zero so.
Proof.
  unfold B. rewrite Z.sub_diag, num_0. unfold central. destruct (Z.eqb_spec (x + x) 0); [|rewrite num_0; ring].
  replace x with 0%Z by lia. change (num (2 * (0 * 0 * 0 - 0))) with (s_zero so). ring.
Qed.
Lemma vF_gt x y : (y < x)%Z -> exists l, F go so x y = Some ((s_one so, [y; x]) :: l) /\
  forall phi, ev so phi l = B phi x y.
Proof.
  intros h. unfold F. cbn [g_gt go]. rewrite (proj2 (Z.ltb_lt y x) h). cbn [g_swap].
  unfold virasoro_swap. cbn [vn_eqb Z.eqb app]. eexists. split.
  - replace (mkc so (VInt 1)) with (s_one so) by reflexivity. reflexivity.
  - intros phi. unfold lf_sum. cbn [const_term terms map fst snd]. unfold B, central, central_charge.
    rewrite mk_int.
    replace (x =? - y)%Z with (x + y =? 0)%Z by (destruct (Z.eqb_spec (x + y) 0), (Z.eqb_spec x (- y)); lia).
    destruct (x + y =? 0)%Z.
    + destruct (vn_is_zero (VReal (inject_Z (2 * (x * x * x - x))))) eqn:E; rewrite (ev_app so D); cbn [ev].
      * cbn in E. apply Qeq_bool_iff in E. 
        assert (E' : num (2 * (x * x * x - x)) = s_zero so).
        { unfold num. apply Qc_is_canon. cbn [this Q2Qc]. rewrite !Qred_correct. exact E. }
        rewrite E'. ring.
      * rewrite mk_real. ring.
    + change (vn_is_zero (VReal (inject_Z 0))) with true. cbn [ev app]. rewrite num_0. ring.
Qed.
Lemma vF_lt x y : (x < y)%Z -> F go so x y = None.
Proof.
  intros h. unfold F. cbn [g_gt go]. destruct (Z.ltb_spec y x); [lia|]. cbn [g_simplify go].
  destruct (simp x y) as [f|] eqn:E; auto. destruct (Hsimp _ _ _ E) as [e _]. clear - h e. lia.
Qed.
Lemma del_short k u : length u <= 1 -> V k u = del k u.
Proof. intros h. apply (V_irr go so D RA). destruct u as [|a [|b u]]; auto. simpl in h; lia. Qed.
Lemma vV_gt x y k : (y < x)%Z -> s_sub so (V k [x; y]) (V k [y; x]) = B (del k) x y.
Proof.
  intros h. destruct (vF_gt x y h) as [l [E K]].
  rewrite (V_red go so D RA k [x; y] [] ((s_one so, [y; x]) :: l) []) by (cbn [first_red]; now rewrite E).
  cbn [ev app]. rewrite <- K.
  replace (ev so (fun u => V k (u ++ [])) l) with (ev so (del k) l); [ring|].
  apply ev_ext. intros c u i. rewrite app_nil_r. symmetry. apply del_short.
  assert (F go so x y = Some ((s_one so, [y; x]) :: l)) by exact E.
  unfold F in H. cbn [g_gt go] in H. rewrite (proj2 (Z.ltb_lt y x) h) in H. cbn [g_swap] in H.
  unfold virasoro_swap in H. cbn [vn_eqb Z.eqb app] in H. injection H as H. subst l. exact (lf_shapes so _ _ _ i).
Qed.
Lemma vV x y k : s_sub so (V k [x; y]) (V k [y; x]) = B (del k) x y.
Proof.
  destruct (Z.lt_trichotomy x y) as [h|[h|h]].
  - rewrite B_swap, <- (vV_gt y x k h). ring.
  - subst. rewrite B_same. ring.
  - now apply vV_gt.
Qed.

Lemma del_const k c : coef go so (e_const so c) k = s_mul so c (del k []).
Proof.
  unfold e_const, AssocProofs.del. destruct (s_is_zero so c) eqn:Z.
  - apply (sl_is_zero _ L) in Z. subst c. rewrite coef_nil. ring.
  - destruct (wdec go so RA [] k) as [<-|n]; [rewrite (coef_cons_eq go vir_order); ring|].
    rewrite (coef_cons_ne go vir_order), coef_nil; [ring| |congruence]. repeat constructor.
Qed.
Lemma del_gx k c x : coef go so (e_mul_const_pre so c (gx x)) k = s_mul so c (del k [x]).
Proof.
  unfold e_mul_const_pre, generator_expr, AssocProofs.del. cbn [map fst snd].
  destruct (s_is_zero so c) eqn:Z.
  - apply (sl_is_zero _ L) in Z. subst c. rewrite coef_nil. ring.
  - destruct (wdec go so RA [x] k) as [<-|n]; [rewrite (coef_cons_eq go vir_order); ring|].
    rewrite (coef_cons_ne go vir_order), coef_nil; [ring| |congruence]. repeat constructor.
Qed.
Lemma gx_stored x : stored go so (gx x).
Proof. split; [repeat constructor|apply (gx_nonzero so D)]. Qed.
Lemma bracket_stored m n : stored go so (virasoro_bracket go m n).
Proof.
  unfold virasoro_bracket. apply (stored_add go vir_order so D).
  - apply (stored_pre go so D), gx_stored.
  - apply (stored_const go so D).
Qed.
Lemma bracket_coef m n k : coef go so (virasoro_bracket go m n) k = B (del k) m n.
Proof.
  unfold virasoro_bracket, e_add. rewrite (coef_add_assign go vir_order so L).
  - rewrite del_gx, del_const. reflexivity.
  - apply (stored_pre go so D), gx_stored.
  - apply (stored_const go so D).
Qed.
Theorem vir_comm m n : commutator go so (gx m) (gx n) (virasoro_bracket go m n).
Proof.
  destruct (comm_exists go so RA (gx m) (gx n)) as [e E].
  replace (virasoro_bracket go m n) with e; auto.
  apply (stored_ext go vir_order so D).
  - apply (gx_comm_coef go so D dcomm RA m n e [] E).
  - apply bracket_stored.
  - intros k. rewrite (proj2 (gx_comm_coef go so D dcomm RA m n e k E)), bracket_coef. apply vV.
Qed.
Lemma comm_fun a b e e' : commutator go so a b e -> commutator go so a b e' -> e = e'.
Proof. intros [p [q [E1 [E2 ->]]]] [p' [q' [E3 [E4 ->]]]]. congruence. Qed.

(** *** The Jacobi identity *)
Lemma bracket_ev m n phi : ev so phi (fs (virasoro_bracket go m n)) = B phi m n.
Proof.
  transitivity (ev so phi [(num (m - n), [(m + n)%Z]); (num (central m n), [])]).
  - apply (ev_coefs go so D RA). intros k.
    change (tv so (del k) (virasoro_bracket go m n) = ev so (del k) [(num (m - n), [(m + n)%Z]); (num (central m n), [])]).
    rewrite (tv_del go so D RA k _ (proj1 (bracket_stored m n))), bracket_coef. unfold B. cbn [ev]. ring.
  - unfold B. cbn [ev]. ring.
Qed.
Lemma bracket_words m n c u : In (c, u) (fs (virasoro_bracket go m n)) -> length u <= 1.
Proof.
  intros i. assert (N : coef go so (virasoro_bracket go m n) u <> s_zero so).
  { unfold fs in i. apply in_map_iff in i. destruct i as [[u' c'] [e1 i]]. cbn [fst snd] in e1. injection e1 as -> ->.
    unfold coef. rewrite (proj2 (find_In go vir_order u c _ (proj1 (bracket_stored m n))) i).
    exact (proj2 (bracket_stored m n) _ _ i). }
  rewrite bracket_coef in N. unfold B, AssocProofs.del in N.
  destruct (wdec go so RA [(m + n)%Z] u) as [<-|n1]; [simpl; lia|].
  destruct (wdec go so RA [] u) as [<-|n2]; [simpl; lia|]. exfalso. apply N. ring.
Qed.
Lemma double_comm x y z k p : commutator go so (virasoro_bracket go x y) (gx z) p ->
  stored go so p /\ coef go so p k = s_mul so (num (x - y)) (B (del k) (x + y) z).
Proof.
  intros E. destruct (comm_gx_coef go so D dcomm RA _ z p k (proj2 (bracket_stored x y)) E) as [s K]. split; auto.
  rewrite K.
  transitivity (ev so (fun u => s_sub so (V k (u ++ [z])) (V k (z :: u))) (fs (virasoro_bracket go x y))).
  - apply ev_ext. intros c u i. apply bracket_words in i.
    rewrite !(nf2 go so D RA); auto; [simpl; lia|rewrite app_length; simpl; lia].
  - rewrite bracket_ev. unfold B at 1. cbn [app]. rewrite vV. ring.
Qed.
Lemma jacobi_scalar x y z phi :
  s_add so (s_add so (s_mul so (num (x - y)) (B phi (x + y) z)) (s_mul so (num (y - z)) (B phi (y + z) x)))
    (s_mul so (num (z - x)) (B phi (z + x) y)) = s_zero so.
Proof.
  unfold B. replace (y + z + x)%Z with (x + y + z)%Z by lia. replace (z + x + y)%Z with (x + y + z)%Z by lia.
  transitivity (s_add so
    (s_mul so (num ((x - y) * (x + y - z) + (y - z) * (y + z - x) + (z - x) * (z + x - y))) (phi [(x + y + z)%Z]))
    (s_mul so (num ((x - y) * central (x + y) z + (y - z) * central (y + z) x + (z - x) * central (z + x) y)) (phi []))).
  { rewrite !num_add, !num_mul. ring. }
  replace ((x - y) * (x + y - z) + (y - z) * (y + z - x) + (z - x) * (z + x - y))%Z with 0%Z by ring.
  replace ((x - y) * central (x + y) z + (y - z) * central (y + z) x + (z - x) * central (z + x) y)%Z with 0%Z.
  - rewrite num_0. ring.
  - unfold central. replace (y + z + x)%Z with (x + y + z)%Z by lia. replace (z + x + y)%Z with (x + y + z)%Z by lia.
    destruct (Z.eqb_spec (x + y + z) 0) as [e|e]; [|ring].
    replace z with (- x - y)%Z by lia. ring.
Qed.
Theorem vir_jacobi x y z : jacobi_identity go so (gx x) (gx y) (gx z).
Proof.
  destruct (comm_exists go so RA (virasoro_bracket go x y) (gx z)) as [p P1].
  destruct (comm_exists go so RA (virasoro_bracket go y z) (gx x)) as [q P2].
  destruct (comm_exists go so RA (virasoro_bracket go z x) (gx y)) as [r P3].
  exists (virasoro_bracket go x y), (virasoro_bracket go y z), (virasoro_bracket go z x), p, q, r.
  do 3 (split; [apply vir_comm|]). split; [exact P1|]. split; [exact P2|]. split; [exact P3|].
  assert (S1 := proj1 (double_comm _ _ _ [] _ P1)). assert (S2 := proj1 (double_comm _ _ _ [] _ P2)).
  assert (S3 := proj1 (double_comm _ _ _ [] _ P3)). assert (S12 := stored_add go vir_order so D _ _ S1 S2).
  apply (stored_ext go vir_order so D); [now apply (stored_add go vir_order so D)|apply stored_nil|]. intros k.
  unfold e_add at 1. rewrite (coef_add_assign go vir_order so L) by (apply S12 || apply S3).
  unfold e_add. rewrite (coef_add_assign go vir_order so L) by (apply S1 || apply S2).
  rewrite (proj2 (double_comm _ _ _ k _ P1)), (proj2 (double_comm _ _ _ k _ P2)), (proj2 (double_comm _ _ _ k _ P3)).
  rewrite coef_nil. apply jacobi_scalar.
Qed.
End Vir.

(** ** Theorems *)
Lemma shipped_simp x y f : virasoro_simplify x y = Some f -> x = y /\ f = mk_linfun (VInt 0) [].
Proof. unfold virasoro_simplify. destruct (Z.eqb_spec x y); intros H; inversion H; auto. Qed.
Lemma no_simp (x y : Z) (f : linfun Z) : (fun _ _ : Z => @None (linfun Z)) x y = Some f ->
  x = y /\ f = mk_linfun (VInt 0) [].
Proof. discriminate. Qed.

(** The example class: all commutators of generators are those of the Virasoro
    algebra, and they satisfy the Jacobi identity. *)
Theorem C63_virasoro_commutators : forall m n,
  commutator virasoro_ops double_scalar_ops
    (generator_expr double_scalar_ops m) (generator_expr double_scalar_ops n) (virasoro_bracket virasoro_ops m n).
Proof. exact (vir_comm virasoro_simplify shipped_simp). Qed.
Theorem C63_virasoro_jacobi : forall x y z,
  jacobi_identity virasoro_ops double_scalar_ops
    (generator_expr double_scalar_ops x) (generator_expr double_scalar_ops y) (generator_expr double_scalar_ops z).
Proof. exact (vir_jacobi virasoro_simplify shipped_simp). Qed.

(** Its product is not associative (finding F24): simplify_prod() sends L_1 L_1
    to 0, hence (L_1 L_1) L_{-1} = 0, but L_1 (L_1 L_{-1}) is not 0. *)
Theorem C63_virasoro_not_associative :
  exists x y z, regular_algebra virasoro_ops double_scalar_ops /\
  ~ associates virasoro_ops double_scalar_ops
      (generator_expr double_scalar_ops x) (generator_expr double_scalar_ops y) (generator_expr double_scalar_ops z).
Proof.
  exists 1%Z, 1%Z, (-1)%Z. split; [exact (vir_regular virasoro_simplify shipped_simp)|].
  intros [xy [yz [r [E1 [E2 [E3 E4]]]]]].
  vm_compute in E1. injection E1 as <-. vm_compute in E3. injection E3 as <-.
  vm_compute in E2. injection E2 as <-. vm_compute in E4. discriminate.
Qed.

(** Without that simplify_prod() the class implements the universal enveloping
    algebra of the Virasoro algebra: the product of all expressions is
    associative. *)
Theorem C63_virasoro_enveloping :
  (forall m n, commutator virasoro_lie_ops double_scalar_ops
    (generator_expr double_scalar_ops m) (generator_expr double_scalar_ops n) (virasoro_bracket virasoro_lie_ops m n)) /\
  (forall a b c, stored_expr virasoro_lie_ops double_scalar_ops a -> stored_expr virasoro_lie_ops double_scalar_ops b ->
     stored_expr virasoro_lie_ops double_scalar_ops c -> associates virasoro_lie_ops double_scalar_ops a b c).
Proof.
  split; [exact (vir_comm _ no_simp)|].
  apply (C63_jacobi_iff_associative _ _ virasoro_lie_ops double_scalar_ops double_domain dcomm (vir_regular _ no_simp)).
  - constructor; [|reflexivity]. intros a b c f _ E. cbn in E. now injection E as <- _.
  - exact (vir_jacobi _ no_simp).
Qed.

(** The checks made by main() of examples/virasoro_algebra.cpp (l.143-168):
    L_{n+1} = [L_n, L_1] / (n-1) and L_{-n-1} = [L_{-n}, L_{-1}] / (1-n),
    here for all n > 1. *)
Theorem C63_virasoro_recurrences : forall n, (1 < n)%Z -> exists up down,
  commutator virasoro_ops double_scalar_ops
    (generator_expr double_scalar_ops n) (generator_expr double_scalar_ops 1%Z) up /\
  commutator virasoro_ops double_scalar_ops
    (generator_expr double_scalar_ops (- n)%Z) (generator_expr double_scalar_ops (-1)%Z) down /\
  e_mul_const_pre double_scalar_ops (/ num (n - 1))%Qc up = generator_expr double_scalar_ops (n + 1)%Z /\
  e_mul_const_pre double_scalar_ops (/ num (1 - n))%Qc down = generator_expr double_scalar_ops (- n - 1)%Z.
Proof.
  intros n h. do 2 eexists. split; [apply C63_virasoro_commutators|]. split; [apply C63_virasoro_commutators|].
  assert (NZ : forall z, z <> 0%Z -> num z <> Q2Qc 0).
  { intros z hz E. apply (f_equal this) in E. unfold num in E. cbn [this Q2Qc] in E.
    assert (inject_Z z == 0)%Q by (rewrite <- (Qred_correct (inject_Z z)), E; reflexivity).
    unfold Qeq in H. cbn in H. lia. }
  assert (BB : forall m k, central m k = 0%Z -> (m - k <> 0)%Z ->
    virasoro_bracket virasoro_ops m k = [([(m + k)%Z], num (m - k))]).
  { intros m k h1 h2. unfold virasoro_bracket. rewrite h1. unfold e_mul_const_pre.
    replace (s_is_zero double_scalar_ops (num (m - k))) with false.
    - change (e_const double_scalar_ops (num 0)) with (@nil (list Z * Qc)). cbn [map generator_expr fst snd].
      change (e_add virasoro_ops double_scalar_ops ?a []) with a. do 2 f_equal.
      change (num (m - k) * Q2Qc 1 = num (m - k))%Qc. ring.
    - symmetry. apply (s_is_zero_false double_scalar_ops (sd_laws _ double_domain)). now apply NZ. }
  assert (C1 : forall m k, (m + k <> 0)%Z -> central m k = 0%Z).
  { intros m k h1. unfold central. now rewrite (proj2 (Z.eqb_neq _ _) h1). }
  assert (RR : forall z (k : Z), z <> 0%Z -> e_mul_const_pre double_scalar_ops (/ num z)%Qc [([k], num z)] =
    generator_expr double_scalar_ops k).
  { intros z k hz. unfold e_mul_const_pre. replace (s_is_zero double_scalar_ops (/ num z)%Qc) with false.
    - cbn [map fst snd]. unfold generator_expr. do 2 f_equal. change (/ num z * num z = Q2Qc 1)%Qc.
      apply Qcmult_inv_l. now apply NZ.
    - symmetry. apply (s_is_zero_false double_scalar_ops (sd_laws _ double_domain)). intros E.
      pose proof (Qcmult_inv_l (num z) (NZ z hz)) as I. change (s_zero double_scalar_ops) with (Q2Qc 0) in E.
      rewrite E in I. rewrite Qcmult_0_l in I. discriminate. }
  split.
  - rewrite BB; [apply RR; lia|apply C1; lia|lia].
  - rewrite BB; [|apply C1; lia|lia]. replace (- n - -1)%Z with (1 - n)%Z by lia.
    replace (- n + -1)%Z with (- n - 1)%Z by lia. apply RR. lia.
Qed.

(** ** Concrete cases *)
(** [L_2, L_{-2}] = 4 L_0 + 12 *)
Example C63_virasoro_case : virasoro_bracket virasoro_ops 2 (-2) = [([], num 12); ([0%Z], num 4)].
Proof. vm_compute. reflexivity. Qed.
Example C63_enveloping_case : exists a, stored_expr virasoro_lie_ops double_scalar_ops a /\
  a = [([], num 12); ([0%Z], num 4); ([-2; 2]%Z, num 1)] /\
  e_mul virasoro_lie_ops double_scalar_ops (generator_expr double_scalar_ops 2%Z)
    (generator_expr double_scalar_ops (-2)%Z) = Ok a.
Proof.
  eexists. split; [|split; reflexivity]. split.
  - repeat constructor.
  - intros m c [e|[e|[e|[]]]]; injection e as <- <-; discriminate.
Qed.

Print Assumptions C63_virasoro_commutators.
Print Assumptions C63_virasoro_jacobi.
Print Assumptions C63_virasoro_not_associative.
Print Assumptions C63_virasoro_enveloping.
Print Assumptions C63_virasoro_recurrences.
