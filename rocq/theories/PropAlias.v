(** * Property C81: scalar arguments that are coefficients of the expression itself *)
From Coq Require Import ZArith Bool Lia List Sorted Arith.
From Verif Require Import ExprModel ExprSpec ExprOrder ExprMap ExprEval ExprStd ExprCanon ExprMain ExprInst AliasModel.
Import ListNotations.
Open Scope nat_scope.
Open Scope list_scope.

Section LEM.
  Context {G S : Type} (so : scalar_ops S).
  Lemma read_write (a : list (list G * S)) : forall i j x, i < length a ->
    read_ref (write_coeff a i x) j = if j =? i then Some x else read_ref a j.
  Proof.
    unfold read_ref. induction a as [|p a IH]; intros i j x h; [simpl in h; lia|]. destruct i as [|i], j as [|j]; simpl in *; auto.
    rewrite IH by lia. destruct (j =? i); reflexivity.
  Qed.
  Lemma write_keys (a : list (list G * S)) : forall i x, map fst (write_coeff a i x) = map fst a.
  Proof. induction a as [|p a IH]; intros [|i] x; simpl; auto. now rewrite IH. Qed.
  Lemma mul_alias_loop_spec n : forall cnt i (a : list (list G * S)) alpha, n < length a -> i + cnt = length a ->
    read_ref a n = Some (if n <? i then s_mul so alpha alpha else alpha) ->
    exists r, mul_alias_loop so cnt i n a = Some r /\ map fst r = map fst a /\
      forall j x, read_ref a j = Some x ->
        read_ref r j = Some (if j <? i then x else s_mul so x (if n <? j then s_mul so alpha alpha else alpha)).
  Proof.
    induction cnt as [|cnt IH]; intros i a alpha hn hi hr.
    - exists a. split; [reflexivity|]. split; [reflexivity|]. intros j x hj. rewrite hj.
      assert (j < i) as L. { replace i with (length a) by lia. unfold read_ref in hj. destruct (nth_error a j) eqn:E; [|discriminate]. apply nth_error_Some. congruence. }
      apply Nat.ltb_lt in L. now rewrite L.
    - cbn [mul_alias_loop]. destruct (read_ref a i) as [x|] eqn:Ex.
      2: { unfold read_ref in Ex. destruct (nth_error a i) eqn:E; [discriminate|]. apply nth_error_None in E. lia. }
      rewrite hr. set (cur := if n <? i then s_mul so alpha alpha else alpha) in *.
      assert (length (write_coeff a i (s_mul so x cur)) = length a) as LW.
      { rewrite <- (map_length fst), write_keys. apply map_length. }
      destruct (IH (Datatypes.S i) (write_coeff a i (s_mul so x cur)) alpha) as (r & R1 & R2 & R3).
      + lia. + lia.
      + rewrite read_write by lia. destruct (Nat.eqb_spec n i) as [->|N].
        * assert (x = cur) as -> by congruence. unfold cur. rewrite Nat.ltb_irrefl.
          replace (i <? Datatypes.S i) with true by (symmetry; apply Nat.ltb_lt; lia). reflexivity.
        * rewrite hr. unfold cur. f_equal. destruct (Nat.ltb_spec n i), (Nat.ltb_spec n (Datatypes.S i)); try lia; reflexivity.
      + exists r. split; [exact R1|]. split; [now rewrite R2, write_keys|]. intros j y hj.
        destruct (Nat.eqb_spec j i) as [->|N].
        * assert (y = x) as -> by congruence. rewrite Nat.ltb_irrefl.
          rewrite (R3 i (s_mul so x cur)) by (now rewrite read_write, Nat.eqb_refl by lia).
          replace (i <? Datatypes.S i) with true by (symmetry; apply Nat.ltb_lt; lia). reflexivity.
        * rewrite (R3 j y). 2: { rewrite read_write by lia. apply Nat.eqb_neq in N. now rewrite N. }
          destruct (Nat.ltb_spec j i), (Nat.ltb_spec j (Datatypes.S i)); try lia; reflexivity.
  Qed.
End LEM.

(** e *= (coefficient number n of e): all monomials up to and including the n-th are
    multiplied by the coefficient, the later ones by its square. *)
Theorem C81_mul_aliased : forall G S (so : scalar_ops S) (a : list (list G * S)) n m alpha,
  scalar_laws so -> nth_error a n = Some (m, alpha) -> alpha <> s_zero so ->
  exists r, mul_const_alias so a n = Some r /\ length r = length a /\
  forall j k x, nth_error a j = Some (k, x) ->
    nth_error r j = Some (k, s_mul so x (if n <? j then s_mul so alpha alpha else alpha)).
Proof.
  intros G S so a n m alpha L hn hz.
  assert (n < length a) as ln by (apply nth_error_Some; congruence).
  unfold mul_const_alias, read_ref at 1. rewrite hn. cbn [option_map snd].
  rewrite (proj2 (s_is_zero_false so L alpha) hz).
  destruct (mul_alias_loop_spec so n (length a) 0 a alpha ln eq_refl) as (r & R1 & R2 & R3).
  { unfold read_ref. now rewrite hn. }
  exists r. split; [exact R1|]. split; [rewrite <- (map_length fst r), R2; apply map_length|].
  intros j k x hj. specialize (R3 j x). unfold read_ref in R3. rewrite hj in R3. specialize (R3 eq_refl). change (j <? 0) with false in R3.
  destruct (nth_error r j) as [[k' y]|] eqn:E; [|discriminate]. cbn [option_map snd] in R3. injection R3 as ->.
  pose proof (map_nth_error fst j r E) as K. rewrite R2 in K. rewrite (map_nth_error fst j a hj) in K. cbn [fst] in K. injection K as ->. reflexivity.
Qed.
Print Assumptions C81_mul_aliased.

Lemma mul_cancel_l S (so : scalar_ops S) (D : scalar_domain so) x y z :
  x <> s_zero so -> s_mul so x y = s_mul so x z -> y = z.
Proof.
  intros hx E. pose proof (sd_laws _ D) as L.
  assert (s_mul so x (s_add so y (s_neg so z)) = s_zero so) as Z.
  { rewrite (sl_dist_l _ L), (s_mul_neg_r so L), E. apply (sl_neg _ L). }
  destruct (sd_nzd _ D _ _ Z) as [K|K]; [contradiction|].
  apply (s_add_cancel so L (s_neg so z)). rewrite (sl_add_comm _ L _ y), K, (sl_add_comm _ L). symmetry. apply (sl_neg _ L).
Qed.
Lemma list_nth_ext {X} (l l' : list X) : (forall i, nth_error l i = nth_error l' i) -> l = l'.
Proof.
  revert l'. induction l as [|x l IH]; intros [|y l'] H; auto.
  - specialize (H 0). discriminate. - specialize (H 0). discriminate.
  - pose proof (H 0) as H0. cbn in H0. injection H0 as ->. f_equal. apply IH. intros i. exact (H (Datatypes.S i)).
Qed.

(** So the statement has the effect of multiplication by the value of the coefficient
    exactly if that is one or belongs to the last monomial. *)
Theorem C81_mul_aliased_iff : forall I (io : index_ops I) S (so : scalar_ops S) a n m alpha,
  scalar_domain so -> canonical_expr io so a -> nth_error a n = Some (m, alpha) ->
  (mul_const_alias so a n = Some (e_mul_const_post so a alpha) <-> alpha = s_one so \/ n = length a - 1).
Proof.
  intros I io S so a n m alpha D [C1 C2] hn. pose proof (sd_laws _ D) as L.
  assert (alpha <> s_zero so) as hz by (apply (C2 m); eapply nth_error_In; eauto).
  destruct (C81_mul_aliased _ S so a n m alpha L hn hz) as (r & -> & Lr & R).
  assert (n < length a) as ln by (apply nth_error_Some; unfold mono in *; congruence).
  unfold e_mul_const_post. rewrite (proj2 (s_is_zero_false so L alpha) hz).
  set (g := fun p : list (gen I) * S => (fst p, s_mul so (snd p) alpha)).
  assert (r = map g a <->
    forall j k x, nth_error a j = Some (k, x) -> n < j -> s_mul so x (s_mul so alpha alpha) = s_mul so x alpha) as EQ.
  { split.
    - intros E j k x hj lj. pose proof (R j k x hj) as Rj. rewrite E, (map_nth_error g j a hj) in Rj. unfold g in Rj. cbn [fst snd] in Rj.
      apply Nat.ltb_lt in lj. rewrite lj in Rj. congruence.
    - intros H. apply list_nth_ext. intros j. destruct (nth_error a j) as [[k x]|] eqn:E.
      + rewrite (R j k x E), (map_nth_error g j a E). unfold g. cbn [fst snd]. destruct (Nat.ltb_spec n j) as [l|l]; [|reflexivity].
        do 2 f_equal. exact (H j k x E l).
      + apply nth_error_None in E. rewrite (proj2 (nth_error_None r j)) by (rewrite Lr; exact E).
        symmetry. apply nth_error_None. now rewrite map_length. }
  split.
  - intros H0. injection H0 as H0. pose proof (proj1 EQ H0) as H. destruct (Nat.eq_dec n (length a - 1)) as [|N]; [auto|left].
    destruct (nth_error a (Datatypes.S n)) as [[k x]|] eqn:E; [|apply nth_error_None in E; unfold mono in *; lia].
    pose proof (H (Datatypes.S n) k x E ltac:(lia)) as K.
    assert (x <> s_zero so) as hx by (apply (C2 k); eapply nth_error_In; eauto).
    apply (mul_cancel_l S so D x) in K; [|exact hx]. apply (mul_cancel_l S so D alpha); [exact hz|]. now rewrite (sl_mul_1_r _ L).
  - intros H. f_equal. apply EQ. destruct H as [-> |H]; intros j k x hj lj.
    + now rewrite (sl_mul_1_r _ L).
    + assert (j < length a) by (apply nth_error_Some; unfold mono in *; congruence). unfold mono in *. lia.
Qed.
Print Assumptions C81_mul_aliased_iff.

(** += and -= with a coefficient of the expression are the same as with its value
    (all algebras, all scalars). *)
Theorem C81_add_sub_aliased : forall G (go : gen_ops G) S (so : scalar_ops S) a n m alpha,
  nth_error a n = Some (m, alpha) ->
  add_const_alias go so a n = Some (e_add_assign_const go so a alpha) /\
  sub_const_alias go so a n = Some (e_sub_const go so a alpha).
Proof.
  intros G go S so a n m alpha hn.
  assert (read_ref a n = Some alpha) as hr by (unfold read_ref; now rewrite hn).
  unfold add_const_alias, sub_const_alias, e_add_assign_const, e_sub_const. rewrite !hr.
  destruct (s_is_zero so alpha); [auto|]. destruct (map_find go [] a); auto.
Qed.
Print Assumptions C81_add_sub_aliased.

(** Non-vacuity, and the wrong result: e = 2 c^+_0 + 3 c_0; [e *= (first coefficient)]
    gives 4 c^+_0 + 12 c_0 instead of 4 c^+_0 + 6 c_0; with the last coefficient it is right. *)
Definition al_e : list (list (gen Z) * Z) := [([GFermion true 0%Z], 2%Z); ([GFermion false 0%Z], 3%Z)].
Example C81_ex :
  canonical_expr int_index_ops int_scalar_ops al_e /\
  mul_const_alias int_scalar_ops al_e 0 = Some [([GFermion true 0%Z], 4%Z); ([GFermion false 0%Z], 12%Z)] /\
  e_mul_const_post int_scalar_ops al_e 2%Z = [([GFermion true 0%Z], 4%Z); ([GFermion false 0%Z], 6%Z)] /\
  mul_const_alias int_scalar_ops al_e 1 = Some (e_mul_const_post int_scalar_ops al_e 3%Z).
Proof.
  split; [|vm_compute; auto].
  assert (forall g : gen Z, canonical_mono int_index_ops [g]) as CM.
  { intros g. split; [repeat constructor|]. split.
    - intros pre g1 g2 post E. destruct pre as [|x [|y pre]]; discriminate.
    - intros (pre & post & mu & c & i & n & _ & _ & hn & E). apply (f_equal (@length _)) in E.
      rewrite !app_length, repeat_length in E. cbn in E. lia. }
  split.
  - unfold al_e. cbn [map fst]. constructor; [constructor; constructor|]. constructor; [|constructor].
    right. split; [reflexivity|]. apply lb_here. constructor.
  - intros m c h. simpl in h. destruct h as [h|[h|[]]]; injection h as <- <-; split; try discriminate; apply CM.
Qed.
