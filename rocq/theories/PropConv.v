(** * Property C78: expressions with different scalar types.
    Vocabulary: ConvSpec.v, ExprSpec.v. *)
From Coq Require Import String ZArith Bool Lia QArith Qcanon List Sorted.
From Verif Require Import ExprModel ExprSpec ExprOrder ExprMap ExprEval ExprStd ExprCanon ExprMain
  ExprHom ExprInst ConvModel ConvSpec ConvProofs.
Import ListNotations.
Close Scope Qc_scope.
Close Scope Q_scope.
Close Scope string_scope.
Open Scope nat_scope.
Open Scope list_scope.

(** Construction and assignment from an expression of another scalar type
    convert the coefficients, keep the monomials and forget the old value of
    the target; the result is in canonical form. *)
Theorem C78_conversion : forall I (io : index_ops I) S T (so : scalar_ops S) (to : scalar_ops T)
  (mo : mixed_ops S T) (x : list (list (gen I) * T)) (old : list (list (gen I) * S)),
  index_order io -> scalar_laws to -> exact_conversion to so (mx_conv mo) -> canonical_expr io to x ->
  e_from (std_gen_ops io) mo x = convert_all (mx_conv mo) x /\
  e_assign_from (std_gen_ops io) mo old x = convert_all (mx_conv mo) x /\
  (scalar_laws so -> canonical_expr io so (e_from (std_gen_ops io) mo x)) /\
  (forall m c, coeff_is to x m c -> coeff_is so (e_from (std_gen_ops io) mo x) m (mx_conv mo c)).
Proof.
  intros I io S T so to mo x old Hio Lt X Hx. pose proof (canonical_wf io Hio to x Hx) as [hs hz].
  assert (E : e_from (std_gen_ops io) mo x = convert_all (mx_conv mo) x) by now apply e_from_eq.
  rewrite E. split; [reflexivity|]. split; [now apply e_from_eq|]. destruct Hx as [h1 h2]. split.
  - intros Ls. split.
    + unfold convert_all. rewrite map_map. exact h1.
    + intros m c i. apply in_map_iff in i. destruct i as [[n d] [K i]]. injection K as <- <-.
      destruct (h2 _ _ i) as [c1 c2]. split; auto. simpl. intros K. apply c2.
      apply (sl_is_zero _ Lt). rewrite <- (xc_is_zero _ _ _ X). now apply (sl_is_zero _ Ls).
  - intros m c [i|[-> i]].
    + left. apply in_map_iff. exists (m, c). auto.
    + right. split; [apply (xc_zero _ _ _ X)|]. intros c' j. apply in_map_iff in j.
      destruct j as [[n d] [K j]]. injection K as <- <-. exact (i _ j).
Qed.
Print Assumptions C78_conversion.

(** It does not matter whether one converts before or after computing
    (any algebra). *)
Theorem C78_commutes : forall G (go : gen_ops G) S T (so : scalar_ops S) (to : scalar_ops T) (f : T -> S),
  exact_conversion to so f ->
  let C := @convert_all G S T f in
  (forall a b, e_add go so (C a) (C b) = C (e_add go to a b)) /\
  (forall a b, e_sub go so (C a) (C b) = C (e_sub go to a b)) /\
  (forall a b e, e_mul go to a b = Ok e -> e_mul go so (C a) (C b) = Ok (C e)) /\
  (forall a, e_neg so (C a) = C (e_neg to a)) /\
  (forall a e, e_conj go to a = Ok e -> e_conj go so (C a) = Ok (C e)) /\
  (forall x m e, e_mono go to x m = Ok e -> e_mono go so (f x) m = Ok (C e)) /\
  (forall x, e_const so (f x) = C (e_const to x)) /\
  (forall a x, e_mul_const_post so (C a) (f x) = C (e_mul_const_post to a x)) /\
  (forall a x, e_mul_const_pre so (f x) (C a) = C (e_mul_const_pre to x a)) /\
  (forall a x, e_add_const go so (C a) (f x) = C (e_add_const go to a x)) /\
  (forall a x, e_sub_const go so (C a) (f x) = C (e_sub_const go to a x)) /\
  (forall a x, e_const_sub go so (f x) (C a) = C (e_const_sub go to x a)).
Proof.
  intros G go S T so to f X C. apply exact_is_hom in X. subst C.
  repeat split; intros.
  - exact (hom_add go to so f X b a).
  - exact (hom_sub go to so f X b a).
  - exact (hom_mul go to so f X a b e H).
  - exact (hom_neg to so f X a).
  - exact (hom_conj go to so f X a e H).
  - exact (hom_e_mono go to so f X x m e H).
  - exact (hom_const to so f X x).
  - exact (hm_mul_post to so f X a x).
  - exact (hm_mul_pre to so f X a x).
  - exact (hm_add_const go to so f X a x).
  - exact (hm_sub_const go to so f X a x).
  - exact (hm_const_sub go to so f X a x).
Qed.
Print Assumptions C78_commutes.

(** Compound assignments and constructors with an operand of another type do
    the same as with the converted operand. *)
Theorem C78_mixed_assignments : forall I (io : index_ops I) S T (so : scalar_ops S) (to : scalar_ops T) (f : T -> S),
  index_order io -> exact_conversion to so f ->
  let G := std_gen_ops io in let mo := mixed_by so f in
  (forall a b, canonical_expr io to b ->
     e_add_assign_from G so mo a b = e_add_assign G so a (e_from G mo b) /\
     e_sub_assign_from G so mo a b = e_sub_assign G so a (e_from G mo b) /\
     e_mul_assign_from G so mo a b = e_mul G so a (e_from G mo b)) /\
  (forall a x, e_mul_assign_scalar to mo a x = e_mul_const_post so a (f x) /\
     e_add_assign_scalar G so to mo a x = e_add_assign_const G so a (f x) /\
     e_add_scalar G so to mo a x = e_add_const G so a (f x) /\
     e_sub_assign_scalar G so to mo a x = e_sub_const G so a (f x)) /\
  (forall x m, e_const_from to mo x = @e_const (gen I) S so (f x) /\ e_mono_from G so to mo x m = e_mono G so (f x) m).
Proof.
  intros I io S T so to f Hio X G mo. pose proof (exact_is_hom _ _ _ X) as H. subst G mo. split; [|split].
  - intros a b Hb. apply (canonical_wf io Hio) in Hb. destruct Hb as [hb _].
    unfold e_from. rewrite e_from_eq by auto. cbn [mx_conv mixed_by].
    split; [apply from_add_assign|]. split; [apply from_sub_assign|apply from_mul_assign].
  - intros a x. split; [now apply from_mul_scalar|]. split; [now apply from_add_assign_scalar|].
    split; [now apply from_add_scalar|now apply from_sub_scalar].
  - intros x m. split; [now apply from_const|now apply from_mono].
Qed.
Print Assumptions C78_mixed_assignments.

(** Operators whose operands have the scalar types [S] and [T] and whose result has
    the type [R] convert both operands and compute in [R] (for + and - of two
    expressions see C05). *)
Theorem C78_mixed_operators : forall I (io : index_ops I) S T R (so : scalar_ops S) (to : scalar_ops T)
  (ro : scalar_ops R) (f1 : S -> R) (f2 : T -> R),
  index_order io -> exact_conversion so ro f1 -> exact_conversion to ro f2 ->
  let G := std_gen_ops io in
  forall a, canonical_expr io so a ->
  (forall b, canonical_expr io to b ->
     e_mul_mixed G ro f1 f2 a b = e_mul G ro (e_from G (mixed_by ro f1) a) (e_from G (mixed_by ro f2) b)) /\
  (forall x, let a' := e_from G (mixed_by ro f1) a in
     e_mul_post_mixed G to ro f1 f2 a x = e_mul_const_post ro a' (f2 x) /\
     e_mul_pre_mixed G to ro f1 f2 x a = e_mul_const_pre ro (f2 x) a' /\
     e_add_scalar_mixed G to ro f1 f2 a x = e_add_const G ro a' (f2 x) /\
     e_sub_scalar_mixed G to ro f1 f2 a x = e_sub_const G ro a' (f2 x) /\
     e_scalar_sub_mixed G to ro f1 f2 x a = e_const_sub G ro (f2 x) a').
Proof.
  intros I io S T R so to ro f1 f2 Hio X1 X2 G a Ha. subst G. pose proof (exact_is_hom _ _ _ X2) as H2.
  apply (canonical_wf io Hio) in Ha. destruct Ha as [ha _].
  assert (Ea : e_from (std_gen_ops io) (mixed_by ro f1) a = convert_all f1 a) by now apply e_from_eq.
  split.
  - intros b Hb. apply (canonical_wf io Hio) in Hb. destruct Hb as [hb _].
    assert (Eb : e_from (std_gen_ops io) (mixed_by ro f2) b = convert_all f2 b) by now apply e_from_eq.
    rewrite Eb. unfold e_mul_mixed. apply from_mul_assign.
  - intros x a'. subst a'. rewrite !Ea. repeat split.
    + unfold e_mul_post_mixed, e_mul_const_post. rewrite (sh_is_zero _ _ _ H2). destruct (s_is_zero to x); auto.
      rewrite (fold_emplace (std_gen_ops io) (fun y => s_mul ro (f1 y) (f2 x))); auto. unfold convert_all. simpl.
      now rewrite map_map.
    + unfold e_mul_pre_mixed, e_mul_const_pre. rewrite (sh_is_zero _ _ _ H2). destruct (s_is_zero to x); auto.
      rewrite (fold_emplace (std_gen_ops io) (fun y => s_mul ro (f2 x) (f1 y))); auto. unfold convert_all. simpl.
      now rewrite map_map.
    + unfold e_add_scalar_mixed. rewrite Ea. now apply from_add_scalar.
    + unfold e_sub_scalar_mixed. rewrite Ea. now apply from_sub_scalar.
    + unfold e_scalar_sub_mixed, e_const_sub. rewrite (from_add_scalar _ _ _ f2 H2). f_equal.
      rewrite (fold_emplace (std_gen_ops io) (fun y => s_sub ro (f2 (s_zero to)) (f1 y))); auto.
      unfold convert_all. simpl. rewrite map_map. apply map_ext. intros p. simpl. now rewrite (sh_zero _ _ _ H2).
Qed.
Print Assumptions C78_mixed_operators.

(** The conversions of the library are exact: integers to rationals, rationals
    to (exact) floating point numbers and to complex numbers, and their
    compositions. *)
Definition q_complex (x : Qc) : cx := (x, Q2Qc 0).
Theorem C78_conversions :
  exact_conversion int_scalar_ops rational_scalar_ops qcz /\
  exact_conversion int_scalar_ops double_scalar_ops qcz /\
  exact_conversion rational_scalar_ops double_scalar_ops (fun x => x) /\
  exact_conversion double_scalar_ops cx_scalar_ops q_complex /\
  exact_conversion int_scalar_ops cx_scalar_ops (fun z => q_complex (qcz z)).
Proof.
  assert (A : exact_conversion int_scalar_ops rational_scalar_ops qcz)
    by (destruct int_to_rational; constructor; auto).
  assert (B : exact_conversion rational_scalar_ops double_scalar_ops (fun x => x)).
  { constructor; intros; try reflexivity. destruct v; simpl in *; auto; discriminate. }
  assert (C : exact_conversion double_scalar_ops cx_scalar_ops q_complex).
  { constructor; intros; unfold q_complex; cbn -[flt_of_vn Qcmult Qcplus Qcopp]; try reflexivity.
    all: try (f_equal; ring).
    - cbn -[flt_of_vn] in H. rewrite H. reflexivity. }
  assert (D : exact_conversion int_scalar_ops double_scalar_ops qcz) by exact (exact_comp _ _ _ _ _ A B).
  exact (conj A (conj D (conj B (conj C (exact_comp _ _ _ _ _ D C))))).
Qed.
Print Assumptions C78_conversions.

(** The conversion that truncates towards zero (double to int) *)
Definition q_trunc (x : Qc) : Z := Z.quot (Qnum (this x)) (Zpos (Qden (this x))).
(** int op= double: the operation is done in double and the result truncated *)
Definition int_from_double : mixed_ops Z Qc := {|
  mx_conv := q_trunc;
  mx_add_assign := fun a b => q_trunc (qcz a + b)%Qc;
  mx_sub_assign := fun a b => q_trunc (qcz a - b)%Qc;
  mx_mul_assign := fun a b => q_trunc (qcz a * b)%Qc;
  mx_zero_sub := fun b => q_trunc (qcz 0 - b)%Qc;
  mx_mul := fun a b => q_trunc (qcz a * b)%Qc
|}.

(** With any conversion the monomials are kept and the coefficients converted;
    the result is in canonical form exactly if no coefficient becomes zero. *)
Theorem C78_any_conversion : forall I (io : index_ops I) S T (so : scalar_ops S) (to : scalar_ops T)
  (mo : mixed_ops S T) (x : list (list (gen I) * T)),
  index_order io -> canonical_expr io to x ->
  e_from (std_gen_ops io) mo x = convert_all (mx_conv mo) x /\
  (canonical_expr io so (e_from (std_gen_ops io) mo x) <->
   forall m c, In (m, c) x -> mx_conv mo c <> s_zero so).
Proof.
  intros I io S T so to mo x Hio Hx. pose proof (canonical_wf io Hio to x Hx) as [hs hz].
  assert (E : e_from (std_gen_ops io) mo x = convert_all (mx_conv mo) x) by now apply e_from_eq.
  rewrite E. split; [reflexivity|]. destruct Hx as [h1 h2]. split.
  - intros [_ K] m c i. apply (K m). apply in_map_iff. exists (m, c). auto.
  - intros K. split.
    + unfold convert_all. rewrite map_map. exact h1.
    + intros m c i. apply in_map_iff in i. destruct i as [[n d] [K' i]]. injection K' as <- <-.
      split; [now apply (h2 n d)|eapply K; eauto].
Qed.
Print Assumptions C78_any_conversion.

(** An expression<int> made from, or added to, an expression<double> with a
    coefficient below 1 stores a zero coefficient: it is not canonical, not ==
    to the zero expression, and has one monomial. *)
Definition half_c : list (list (gen Z) * Qc) := [([GFermion false 0%Z], Q2Qc (1 # 2))].
Theorem C78_narrowing_refuted :
  let G := std_gen_ops int_index_ops in
  canonical_expr int_index_ops double_scalar_ops half_c /\
  e_from G int_from_double half_c = [([GFermion false 0%Z], 0%Z)] /\
  e_add_assign_from G int_scalar_ops int_from_double [] half_c = [([GFermion false 0%Z], 0%Z)] /\
  e_sub_assign_from G int_scalar_ops int_from_double [] half_c = [([GFermion false 0%Z], 0%Z)] /\
  e_mul_assign_from G int_scalar_ops int_from_double [([], 1%Z)] half_c = Ok [([GFermion false 0%Z], 0%Z)] /\
  e_const_from (G := gen Z) double_scalar_ops int_from_double (Q2Qc (1 # 2)) = [([], 0%Z)] /\
  e_mul_assign_scalar (G := gen Z) double_scalar_ops int_from_double [([], 1%Z)] (Q2Qc (1 # 2)) = [([], 0%Z)] /\
  ~ canonical_expr int_index_ops int_scalar_ops (e_from G int_from_double half_c).
Proof.
  cbn zeta. split; [|repeat (split; [vm_compute; reflexivity|])].
  - split.
    + constructor; constructor.
    + intros m c [E|[]]. injection E as <- <-. split.
      * split; [repeat constructor|]. split.
        -- intros [|? [|? ?]] u v post E; discriminate.
        -- intros (pre & post & mu & c & i & n & _ & _ & h & E).
           apply (f_equal (@length _)) in E. rewrite !app_length, repeat_length in E. simpl in E. lia.
      * intros E. apply (f_equal (fun x => Qnum (this x))) in E. vm_compute in E. discriminate.
  - intros [_ K]. assert (i : In ([GFermion false 0%Z], 0%Z)
      (e_from (std_gen_ops int_index_ops) int_from_double half_c)) by (vm_compute; auto).
    apply K in i. now destruct i.
Qed.
Print Assumptions C78_narrowing_refuted.

(** Non-vacuity: (2 c^+_0 + 3) * (i c_0), int and complex *)
Definition ex_int : list (list (gen Z) * Z) := [([], 3%Z); ([GFermion true 0%Z], 2%Z)].
Definition ex_cx : list (list (gen Z) * cx) := [([GFermion false 0%Z], (Q2Qc 0, Q2Qc 1))].
Example C78_ex :
  canonical_expr int_index_ops int_scalar_ops ex_int /\ canonical_expr int_index_ops cx_scalar_ops ex_cx /\
  e_mul_mixed (std_gen_ops int_index_ops) cx_scalar_ops (fun z => q_complex (qcz z)) (fun x => x) ex_int ex_cx =
  Ok [([GFermion false 0%Z], (Q2Qc 0, Q2Qc 3)); ([GFermion true 0%Z; GFermion false 0%Z], (Q2Qc 0, Q2Qc 2))].
Proof.
  assert (M : forall g : gen Z, canonical_mono int_index_ops [g]).
  { intros g. split; [repeat constructor|]. split.
    - intros [|? [|? ?]] u v post E; discriminate.
    - intros (pre & post & mu & c & i & n & _ & _ & h & E).
      apply (f_equal (@length _)) in E. rewrite !app_length, repeat_length in E. simpl in E. lia. }
  assert (N : canonical_mono int_index_ops (I := Z) []).
  { split; [constructor|]. split.
    - intros [|? ?] u v post E; discriminate.
    - intros (pre & post & mu & c & i & n & _ & _ & h & E).
      apply (f_equal (@length _)) in E. rewrite !app_length, repeat_length in E. simpl in E. lia. }
  split; [|split].
  - split.
    + repeat constructor.
    + intros m c [E|[E|[]]]; injection E as <- <-; split; auto; discriminate.
  - split.
    + repeat constructor.
    + intros m c [E|[]]; injection E as <- <-; split; auto.
      intros E. apply (f_equal (fun x => Qnum (this (snd x)))) in E. vm_compute in E. discriminate.
  - vm_compute. repeat f_equal; apply Qc_is_canon; reflexivity.
Qed.
