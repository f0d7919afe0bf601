(** C66: generators of different algebras in one expression. *)
From Coq Require Import ZArith QArith Qcanon Bool Lia List Sorted Ring.
From Verif Require Import ExprModel ExprSpec ExprOrder ExprMap ExprEval ExprCanon ExprLin ExprHom ExprInst ExprConj
  LinSpec AssocSpec AssocProofs LieProofs UserModel PropAssoc PropVirasoro ConjUser PropConjUser MixSpec MixProofs.
Import ListNotations.
Close Scope Qc_scope.
Close Scope Q_scope.
Open Scope nat_scope.
Open Scope list_scope.

Section C66.
Context {G1 G2 S : Type} (id1 : G1 -> Z) (id2 : G2 -> Z) (o1 : gen_ops G1) (o2 : gen_ops G2) (so : scalar_ops S).
Context (D : scalar_domain so) (comm : forall x y, s_mul so x y = s_mul so y x).
Context (R1 : regular_algebra o1 so) (R2 : regular_algebra o2 so) (Hid : forall a b, (id1 a < id2 b)%Z).
Context (A1 : generators_associate o1 so) (A2 : generators_associate o2 so).
Notation go := (mix_ops id1 id2 o1 o2).
Notation RM := (mix_regular id1 id2 o1 o2 so D R1 R2 Hid).
Let c1 := all_conf o1 so D comm R1 A1.
Let c2 := all_conf o2 so D comm R2 A2.
Let cm := mix_conf id1 id2 o1 o2 so D comm R1 R2 Hid c1 c2.

Lemma mix_assoc a b c : stored_expr go so a -> stored_expr go so b -> stored_expr go so c -> associates go so a b c.
Proof. intros [_ ha] [_ hb] [_ hc]. exact (assoc_conf go so D comm RM cm a b c ha hb hc). Qed.
Lemma coefficient_coef {G} (g : gen_ops G) (Hg : gen_order g) (e : list (list G * S)) m c : stored_expr g so e ->
  (coefficient so e m c <-> coef g so e m = c).
Proof.
  intros h. split.
  - intros [i|[ -> n]].
    + unfold coef. now rewrite (proj2 (find_In g Hg m c e (proj1 h)) i).
    + unfold coef. destruct (map_find g m e) as [v|] eqn:E; auto. exfalso. apply (n v). now apply (find_In g Hg m v e (proj1 h)).
  - unfold coef. destruct (map_find g m e) as [v|] eqn:E.
    + intros <-. left. now apply (find_In g Hg m v e (proj1 h)).
    + intros <-. right. split; auto. intros c' i. apply (find_In g Hg m c' e (proj1 h)) in i. congruence.
Qed.
Lemma canon {G} (g : gen_ops G) (e : list (list G * S)) : canonical g e -> forall m c, In (m, c) e -> first_red g so m = None.
Proof. intros h m c i. eapply canonical_irr; eauto. Qed.
End C66.

(** If every algebra ID on one side is smaller than every one on the other, the
    mixture is an algebra with all the properties that C59-C64 need. *)
Theorem C66_regular : forall G1 G2 S (id1 : G1 -> Z) (id2 : G2 -> Z) (o1 : gen_ops G1) (o2 : gen_ops G2) (so : scalar_ops S),
  scalar_domain so -> regular_algebra o1 so -> regular_algebra o2 so -> (forall a b, (id1 a < id2 b)%Z) ->
  regular_algebra (mix_ops id1 id2 o1 o2) so.
Proof. intros G1 G2 S id1 id2 o1 o2 so D R1 R2 H. exact (mix_regular id1 id2 o1 o2 so D R1 R2 H). Qed.

(** Products of expressions with generators of both algebras are associative. *)
Theorem C66_associative : forall G1 G2 S (id1 : G1 -> Z) (id2 : G2 -> Z) (o1 : gen_ops G1) (o2 : gen_ops G2) (so : scalar_ops S),
  scalar_domain so -> (forall x y, s_mul so x y = s_mul so y x) ->
  regular_algebra o1 so -> regular_algebra o2 so -> (forall a b, (id1 a < id2 b)%Z) ->
  generators_associate o1 so -> generators_associate o2 so ->
  forall a b c, stored_expr (mix_ops id1 id2 o1 o2) so a -> stored_expr (mix_ops id1 id2 o1 o2) so b ->
    stored_expr (mix_ops id1 id2 o1 o2) so c -> associates (mix_ops id1 id2 o1 o2) so a b c.
Proof.
  intros G1 G2 S id1 id2 o1 o2 so D comm R1 R2 H A1 A2 a b c. exact (mix_assoc id1 id2 o1 o2 so D comm R1 R2 H A1 A2 a b c).
Qed.

(** Adding a second algebra to a program does not change products and
    conjugates of expressions over the first one, and vice versa. *)
Theorem C66_conservative : forall G1 G2 S (id1 : G1 -> Z) (id2 : G2 -> Z) (o1 : gen_ops G1) (o2 : gen_ops G2) (so : scalar_ops S),
  scalar_domain so -> (forall x y, s_mul so x y = s_mul so y x) -> conj_laws so ->
  regular_algebra o1 so -> regular_algebra o2 so -> (forall a b, (id1 a < id2 b)%Z) ->
  generators_associate o1 so -> generators_associate o2 so ->
  (forall a b r, stored_expr o1 so a -> stored_expr o1 so b -> e_mul o1 so a b = Ok r ->
     e_mul (mix_ops id1 id2 o1 o2) so (lift_expr inl a) (lift_expr inl b) = Ok (lift_expr inl r)) /\
  (forall a r, stored_expr o1 so a -> e_conj o1 so a = Ok r ->
     e_conj (mix_ops id1 id2 o1 o2) so (lift_expr inl a) = Ok (lift_expr inl r)) /\
  (forall a b r, stored_expr o2 so a -> stored_expr o2 so b -> e_mul o2 so a b = Ok r ->
     e_mul (mix_ops id1 id2 o1 o2) so (lift_expr inr a) (lift_expr inr b) = Ok (lift_expr inr r)) /\
  (forall a r, stored_expr o2 so a -> e_conj o2 so a = Ok r ->
     e_conj (mix_ops id1 id2 o1 o2) so (lift_expr inr a) = Ok (lift_expr inr r)).
Proof.
  intros G1 G2 S id1 id2 o1 o2 so D comm CL R1 R2 H A1 A2.
  set (c1 := all_conf o1 so D comm R1 A1). set (c2 := all_conf o2 so D comm R2 A2).
  set (RM := mix_regular id1 id2 o1 o2 so D R1 R2 H).
  assert (cm : forall w, Conf (mix_ops id1 id2 o1 o2) so RM w) by exact (mix_conf id1 id2 o1 o2 so D comm R1 R2 H c1 c2).
  split; [|split; [|split]]; intros.
  - eapply (mul_lift o1 _ inl so D R1 RM (emb1 id1 id2 o1 o2) c1 cm); eauto.
  - eapply (conj_lift o1 _ inl so D comm R1 RM (emb1 id1 id2 o1 o2) c1 cm CL); eauto.
  - eapply (mul_lift o2 _ inr so D R2 RM (emb2 id1 id2 o1 o2) c2 cm); eauto.
  - eapply (conj_lift o2 _ inr so D comm R2 RM (emb2 id1 id2 o1 o2) c2 cm CL); eauto.
Qed.

(** Expressions over different algebras commute. *)
Theorem C66_commute : forall G1 G2 S (id1 : G1 -> Z) (id2 : G2 -> Z) (o1 : gen_ops G1) (o2 : gen_ops G2) (so : scalar_ops S),
  scalar_domain so -> (forall x y, s_mul so x y = s_mul so y x) ->
  regular_algebra o1 so -> regular_algebra o2 so -> (forall a b, (id1 a < id2 b)%Z) ->
  generators_associate o1 so -> generators_associate o2 so ->
  forall a b, stored_expr o1 so a -> stored_expr o2 so b ->
    commute (mix_ops id1 id2 o1 o2) so (lift_expr inl a) (lift_expr inr b).
Proof.
  intros G1 G2 S id1 id2 o1 o2 so D comm R1 R2 H A1 A2 a b ha hb.
  exact (commute_lift id1 id2 o1 o2 so D comm R1 R2 H (all_conf o1 so D comm R1 A1) (all_conf o2 so D comm R2 A2) a b ha hb).
Qed.

(** The product of two expressions over different algebras is their tensor
    product: the coefficient of m n is the product of the coefficients of m and n,
    and there are no other monomials. *)
Theorem C66_tensor : forall G1 G2 S (id1 : G1 -> Z) (id2 : G2 -> Z) (o1 : gen_ops G1) (o2 : gen_ops G2) (so : scalar_ops S),
  scalar_domain so -> (forall x y, s_mul so x y = s_mul so y x) ->
  regular_algebra o1 so -> regular_algebra o2 so -> (forall a b, (id1 a < id2 b)%Z) ->
  generators_associate o1 so -> generators_associate o2 so ->
  forall a b r, stored_expr o1 so a -> stored_expr o2 so b -> canonical o1 a -> canonical o2 b ->
    e_mul (mix_ops id1 id2 o1 o2) so (lift_expr inl a) (lift_expr inr b) = Ok r ->
    (forall m n c d, coefficient so a m c -> coefficient so b n d ->
       coefficient so r (map inl m ++ map inr n) (s_mul so c d)) /\
    (forall k c, In (k, c) r -> exists m n, k = map inl m ++ map inr n).
Proof.
  intros G1 G2 S id1 id2 o1 o2 so D comm R1 R2 H A1 A2 a b r ha hb ca cb E.
  set (c1 := all_conf o1 so D comm R1 A1). set (c2 := all_conf o2 so D comm R2 A2).
  set (RM := mix_regular id1 id2 o1 o2 so D R1 R2 H).
  set (Om := mix_order id1 id2 o1 o2 so R1 R2 H).
  assert (Sr : stored_expr (mix_ops id1 id2 o1 o2) so r).
  { exact (proj1 (mul_coef _ so D RM _ _ r [] (proj2 (stored_lift o1 _ inl so (emb1 id1 id2 o1 o2) _ ha))
      (proj2 (stored_lift o2 _ inr so (emb2 id1 id2 o1 o2) _ hb)) E)). }
  split.
  - intros m n c d hc hd. apply (coefficient_coef so _ Om r _ _ Sr).
    apply (coefficient_coef so o1 (ra_order _ _ R1) a m c ha) in hc. apply (coefficient_coef so o2 (ra_order _ _ R2) b n d hb) in hd.
    rewrite <- hc, <- hd. apply (tensor id1 id2 o1 o2 so D comm R1 R2 H c1 c2 a b r m n ha hb); auto.
    + eapply canon; eauto.
    + eapply canon; eauto.
  - intros k c i.
    (* decidable by inspection of the word *)
    assert (Dec : (exists m n, k = map inl m ++ map inr n) \/ (forall m n, k <> map inl m ++ map inr n)).
    { clear. induction k as [|x k IH].
      - left. exists [], []. reflexivity.
      - destruct x as [x|x].
        + destruct IH as [[m [n -> ]]|n0]; [left; exists (x :: m), n; reflexivity|]. right. intros [|y m] n e; cbn in e.
          * destruct n; discriminate.
          * inversion e; subst. exact (n0 m n eq_refl).
        + destruct IH as [[m [n -> ]]|n0].
          * destruct m as [|y m]; [left; exists [], (x :: n); reflexivity|]. right. intros [|z m'] n' e; cbn in e; [|discriminate].
            destruct n' as [|w n']; [discriminate|]. cbn in e. inversion e as [[e1 e2]]. destruct n'; discriminate.
          * right. intros [|y m] n e; cbn in e; [|discriminate]. destruct n as [|w n]; [discriminate|]. cbn in e. inversion e; subst.
            exact (n0 [] n eq_refl). }
    destruct Dec as [K|K]; auto. exfalso. apply (proj2 Sr _ _ i).
    rewrite <- (tensor_0 id1 id2 o1 o2 so D comm R1 R2 H c1 c2 a b r k ha hb) by (auto; eapply canon; eauto).
    symmetry. apply (coefficient_coef so _ Om r _ _ Sr). now left.
Qed.

(** conj(a*b) == conj(b)*conj(a) and conj(conj(a)) == a in the mixture, if they
    hold for the generators of each algebra. *)
Theorem C66_conj : forall G1 G2 S (id1 : G1 -> Z) (id2 : G2 -> Z) (o1 : gen_ops G1) (o2 : gen_ops G2) (so : scalar_ops S),
  scalar_domain so -> (forall x y, s_mul so x y = s_mul so y x) -> conj_laws so ->
  regular_algebra o1 so -> regular_algebra o2 so -> (forall a b, (id1 a < id2 b)%Z) ->
  generators_associate o1 so -> generators_associate o2 so -> generators_conjugate o1 so -> generators_conjugate o2 so ->
  (forall a b, stored_expr (mix_ops id1 id2 o1 o2) so a -> stored_expr (mix_ops id1 id2 o1 o2) so b ->
     conj_reverses (mix_ops id1 id2 o1 o2) so a b) /\
  (forall a, stored_expr (mix_ops id1 id2 o1 o2) so a -> canonical (mix_ops id1 id2 o1 o2) a ->
     conj_involutive (mix_ops id1 id2 o1 o2) so a).
Proof.
  intros G1 G2 S id1 id2 o1 o2 so D comm CL R1 R2 H A1 A2 [J1 I1] [J2 I2].
  set (c1 := all_conf o1 so D comm R1 A1). set (c2 := all_conf o2 so D comm R2 A2).
  set (RM := mix_regular id1 id2 o1 o2 so D R1 R2 H).
  assert (cm : forall w, Conf (mix_ops id1 id2 o1 o2) so RM w) by exact (mix_conf id1 id2 o1 o2 so D comm R1 R2 H c1 c2).
  assert (HR : forall x y, F (mix_ops id1 id2 o1 o2) so x y <> None -> Rev2 (mix_ops id1 id2 o1 o2) so x y).
  { apply (mix_rev2 id1 id2 o1 o2 so D comm R1 R2 H CL).
    - intros x y h. apply (rev2_of o1 so D comm CL R1 c1). apply J1. now apply F_rewritten in h.
    - intros x y h. apply (rev2_of o2 so D comm CL R2 c2). apply J2. now apply F_rewritten in h. }
  split.
  - intros a b ha hb. exact (reverses _ so D comm CL RM cm HR a b ha hb).
  - intros a ha hc. apply (involutive _ so D comm CL RM cm HR); auto; [|eapply canon; eauto].
    apply (mix_invol1 id1 id2 o1 o2 so D comm R1 R2 H CL); intros x.
    + apply (invol1_of o1 so D comm CL R1 c1), I1.
    + apply (invol1_of o2 so D comm CL R2 c2), I2.
Qed.

(** ** A concrete case: gamma matrices (ID 0), Virasoro generators (ID 1), and
    in addition a second set of gamma matrices (ID 2). *)
Definition gv_ops : gen_ops (Z + Z) := mix_ops (fun _ => 0%Z) (fun _ => 1%Z) gamma_ops virasoro_lie_ops.
Definition gvg_ops : gen_ops ((Z + Z) + Z) := mix_ops (mix_id (fun _ => 0%Z) (fun _ => 1%Z)) (fun _ => 2%Z) gv_ops gamma_ops.
Lemma gx_stored {G} (g : gen_ops G) (x : G) : stored_expr g double_scalar_ops (generator_expr double_scalar_ops x).
Proof. split; [repeat constructor|apply (gx_nonzero double_scalar_ops double_domain)]. Qed.
Lemma gamma_ga : generators_associate gamma_ops double_scalar_ops.
Proof.
  intros x y z. apply (assoc_res gamma_ops double_scalar_ops double_domain dcomm (gamma_regular _ double_domain));
    try apply (gx_nonzero double_scalar_ops double_domain). intros a b c. apply gamma_res. exact dcomm.
Qed.
Lemma vir_ga : generators_associate virasoro_lie_ops double_scalar_ops.
Proof. intros x y z. apply (proj2 C63_virasoro_enveloping); apply gx_stored. Qed.
Example C66_case :
  regular_algebra gv_ops double_scalar_ops /\ generators_associate gv_ops double_scalar_ops /\
  regular_algebra gvg_ops double_scalar_ops /\ generators_associate gvg_ops double_scalar_ops /\
  generators_conjugate gamma_ops double_scalar_ops /\ generators_conjugate virasoro_lie_ops double_scalar_ops.
Proof.
  assert (Ra : regular_algebra gv_ops double_scalar_ops).
  { apply C66_regular; [exact double_domain|exact (gamma_regular _ double_domain)|exact (vir_regular _ no_simp)|intros; lia]. }
  assert (As : generators_associate gv_ops double_scalar_ops).
  { intros x y z. apply C66_associative; try apply gx_stored; try exact gamma_ga; try exact vir_ga;
      [exact double_domain|exact dcomm|exact (gamma_regular _ double_domain)|exact (vir_regular _ no_simp)|intros; lia]. }
  assert (Hid : forall (a : Z + Z) (b : Z), (mix_id (fun _ => 0%Z) (fun _ => 1%Z) a < 2)%Z) by (intros [a|a] b; cbn; lia).
  split; auto. split; auto. split; [|split; [|split]].
  - apply C66_regular; [exact double_domain|exact Ra|exact (gamma_regular _ double_domain)|exact Hid].
  - intros x y z. apply C66_associative; try apply gx_stored; try exact gamma_ga; try exact As;
      [exact double_domain|exact dcomm|exact Ra|exact (gamma_regular _ double_domain)|exact Hid].
  - destruct (C64_gamma _ _ double_domain dcomm double_conj_laws) as [K1 K2]. split.
    + intros x y _. apply K1; apply gx_stored.
    + intros x. apply K2; [apply gx_stored|]. intros p a b s c [e|[]]. injection e as e _. destruct p as [|? [|? ?]]; discriminate.
  - destruct C64_virasoro as [K1 K2]. split.
    + intros x y _. apply K1; apply gx_stored.
    + intros x. apply K2; [apply gx_stored|]. intros p a b s c [e|[]]. injection e as e _. destruct p as [|? [|? ?]]; discriminate.
Qed.
(** (gamma(1) L(1)) * (gamma(1) L(-1)) = - L(-1) L(1) - 2 L(0): the gammas pass the L's *)
Example C66_compute :
  e_mul gv_ops double_scalar_ops [([inl 1; inr 1]%Z, 1%Qc)] [([inl 1; inr (-1)]%Z, 1%Qc)] =
  Ok [([inr 0]%Z, Q2Qc (-2 # 1)); ([inr (-1); inr 1]%Z, Q2Qc (-1 # 1))].
Proof. vm_compute. repeat f_equal; apply Qc_is_canon; reflexivity. Qed.

Print Assumptions C66_regular.
Print Assumptions C66_associative.
Print Assumptions C66_conservative.
Print Assumptions C66_commute.
Print Assumptions C66_tensor.
Print Assumptions C66_conj.
