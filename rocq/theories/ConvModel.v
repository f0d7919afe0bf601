(** Expressions with different scalar types in one operation: conversions,
    assignments and the overloads of the arithmetic operators whose operands
    have different scalar types.  [ScalarType] of the expression is [S], the
    other scalar type is [T]; [R] is the type of a mixed sum, difference or
    product ([sum_res_t], [diff_res_t], [mul_res_t] of scalar_traits.hpp).

    Simplifications: as in ExprModel (maps are sorted lists, arithmetic is
    exact, exceptions of allocation are left out).  Which overload is chosen
    (the std::true_type / std::false_type dispatch) is not modelled: both are. *)
From Coq Require Import List ZArith Bool.
From Verif Require Import ExprModel.
Import ListNotations.
Open Scope list_scope.

(** What C++ does with an [S] and a [T] when the result is stored in an [S]. *)
Record mixed_ops (S T : Type) : Type := {
  (** scalar_type(y), the conversion in emplace(p): expression.hpp l.130, l.252 *)
  mx_conv : T -> S;
  (** add_assign(a, b), sub_assign(a, b), mul_assign(a, b):
      scalar_traits.hpp l.162-189: a = a OP b, converted back to S *)
  mx_add_assign : S -> T -> S;
  mx_sub_assign : S -> T -> S;
  mx_mul_assign : S -> T -> S;
  (** z - b with z of type S, converted to S: expression.hpp l.267, l.414 *)
  mx_zero_sub : T -> S;
  (** a * b passed as scalar_type: expression.hpp l.282 *)
  mx_mul : S -> T -> S
}.
Arguments mx_conv {S T} _ _.
Arguments mx_add_assign {S T} _ _ _.
Arguments mx_sub_assign {S T} _ _ _.
Arguments mx_mul_assign {S T} _ _ _.
Arguments mx_zero_sub {S T} _ _.
Arguments mx_mul {S T} _ _ _.

Section Two.
Context {G S T : Type} (go : gen_ops G) (so : scalar_ops S) (to : scalar_ops T) (mo : mixed_ops S T).
Notation emapS := (@emap G S).
Notation emapT := (@emap G T).
Notation mono := (@mono G).

(** operator=(expression<S> const&): expression.hpp l.122-132; the old
    contents [old] are cleared first.  Note that the converted coefficients
    are not tested for zero. *)
Definition e_assign_from (old : emapS) (x : emapT) : emapS :=
  fold_left (fun e p => fst (map_emplace go (fst p) (mx_conv mo (snd p)) e)) x [].
(** expression(expression<S> const&): expression.hpp l.79-86 *)
Definition e_from (x : emapT) : emapS := e_assign_from [] x.

(** explicit expression(S const& x): expression.hpp l.89-94; the test is done
    on the unconverted value *)
Definition e_const_from (x : T) : emapS :=
  if s_is_zero to x then [] else [([], mx_conv mo x)].
(** expression(S const& x, monomial_t const&): expression.hpp l.97-104 *)
Definition e_mono_from (x : T) (m : mono) : res emapS :=
  if s_is_zero to x then Ok [] else normalize go so m (mx_conv mo x) [].

(** operator+=(expression_t<S> const&): expression.hpp l.248-259 *)
Definition add_entry_from (p : mono * T) (e : emapS) : emapS :=
  match map_find go (fst p) e with
  | None => fst (map_emplace go (fst p) (mx_conv mo (snd p)) e)
  | Some v =>
      let v' := mx_add_assign mo v (snd p) in
      let e' := map_assign go (fst p) v' e in
      if s_is_zero so v' then map_erase go (fst p) e' else e'
  end.
Definition e_add_assign_from (a : emapS) (b : emapT) : emapS :=
  fold_left (fun e p => add_entry_from p e) b a.

(** operator-=(expression_t<S> const&): expression.hpp l.262-274 *)
Definition sub_entry_from (p : mono * T) (e : emapS) : emapS :=
  match map_find go (fst p) e with
  | None => fst (map_emplace go (fst p) (mx_zero_sub mo (snd p)) e)
  | Some v =>
      let v' := mx_sub_assign mo v (snd p) in
      let e' := map_assign go (fst p) v' e in
      if s_is_zero so v' then map_erase go (fst p) e' else e'
  end.
Definition e_sub_assign_from (a : emapS) (b : emapT) : emapS :=
  fold_left (fun e p => sub_entry_from p e) b a.

(** operator*=(expression_t<S> const&): expression.hpp l.277-288 *)
Fixpoint mul_row_from (m1 : mono) (c1 : S) (b : emapT) (target : emapS) : res emapS :=
  match b with
  | [] => Ok target
  | (m2, c2) :: b' =>
      rbind (normalize go so (m1 ++ m2) (mx_mul mo c1 c2) target) (mul_row_from m1 c1 b')
  end.
Fixpoint mul_rows_from (a : emapS) (b : emapT) (target : emapS) : res emapS :=
  match a with
  | [] => Ok target
  | (m1, c1) :: a' => rbind (mul_row_from m1 c1 b target) (mul_rows_from a' b)
  end.
Definition e_mul_assign_from (a : emapS) (b : emapT) : res emapS := mul_rows_from a b [].

(** operator*=(S const& alpha): expression.hpp l.378-386; also
    mul_const_postfix_impl, true_type: l.757-762 behind the test of l.304.
    The prefix form (l.781-786) computes alpha * p.second instead. *)
Definition e_mul_assign_scalar (a : emapS) (alpha : T) : emapS :=
  if s_is_zero to alpha then [] else map (fun p => (fst p, mx_mul_assign mo (snd p) alpha)) a.

(** operator+=(S const& alpha): expression.hpp l.389-404 *)
Definition e_add_assign_scalar (a : emapS) (alpha : T) : emapS :=
  if s_is_zero to alpha then a
  else
    match map_find go [] a with
    | None => fst (map_emplace go [] (mx_add_assign mo (s_zero so) alpha) a)
    | Some v =>
        let v' := mx_add_assign mo v alpha in
        let a' := map_assign go [] v' a in
        if s_is_zero so v' then map_erase go [] a' else a'
    end.

(** operator+(S const& alpha), both forms, sum type = ScalarType:
    expression.hpp l.807-822, l.848-863 *)
Definition e_add_scalar (a : emapS) (alpha : T) : emapS :=
  if s_is_zero to alpha then a
  else
    match map_find go [] a with
    | None => fst (map_emplace go [] (mx_conv mo alpha) a)
    | Some v =>
        let v' := mx_add_assign mo v alpha in
        let a' := map_assign go [] v' a in
        if s_is_zero so v' then map_erase go [] a' else a'
    end.

(** operator-=(S const& alpha): expression.hpp l.407-421; operator-(S const&),
    diff type = ScalarType: l.893-909 *)
Definition e_sub_assign_scalar (a : emapS) (alpha : T) : emapS :=
  if s_is_zero to alpha then a
  else
    match map_find go [] a with
    | None => fst (map_emplace go [] (mx_zero_sub mo alpha) a)
    | Some v =>
        let v' := mx_sub_assign mo v alpha in
        let a' := map_assign go [] v' a in
        if s_is_zero so v' then map_erase go [] a' else a'
    end.
End Two.

(** ** The result has a third type [R] (usual arithmetic conversions: both
    operands are converted, then the operation of [R] is done) *)
Section Three.
Context {G S T R : Type} (go : gen_ops G) (so : scalar_ops S) (to : scalar_ops T) (ro : scalar_ops R)
        (f1 : S -> R) (f2 : T -> R).
Notation emapS := (@emap G S).
Notation emapT := (@emap G T).
Notation emapR := (@emap G R).

(** Arithmetic between an [R] and a [T] whose common type is [R] *)
Definition mixed_by {T' : Type} (f : T' -> R) : mixed_ops R T' := {|
  mx_conv := f;
  mx_add_assign := fun a b => s_add ro a (f b);
  mx_sub_assign := fun a b => s_sub ro a (f b);
  mx_mul_assign := fun a b => s_mul ro a (f b);
  mx_zero_sub := fun b => s_sub ro (s_zero ro) (f b);
  mx_mul := fun a b => s_mul ro a (f b)
|}.

(** operator*(expression_t<S> const&): expression.hpp l.235-241: a copy
    converted to [R] and operator*= *)
Definition e_mul_mixed (a : emapS) (b : emapT) : res emapR :=
  e_mul_assign_from go ro (mixed_by f2) (e_from go (mixed_by f1) a) b.

(** operator*(S const&), mul type <> ScalarType: expression.hpp l.301-309,
    l.767-775 (postfix), l.312-322, l.791-799 (prefix) *)
Definition e_mul_post_mixed (a : emapS) (alpha : T) : emapR :=
  if s_is_zero to alpha then []
  else fold_left (fun e p => fst (map_emplace go (fst p) (s_mul ro (f1 (snd p)) (f2 alpha)) e)) a [].
Definition e_mul_pre_mixed (alpha : T) (a : emapS) : emapR :=
  if s_is_zero to alpha then []
  else fold_left (fun e p => fst (map_emplace go (fst p) (s_mul ro (f2 alpha) (f1 (snd p))) e)) a [].

(** operator+(S const&), sum type <> ScalarType: expression.hpp l.826-843,
    l.867-884 *)
Definition e_add_scalar_mixed (a : emapS) (alpha : T) : emapR :=
  e_add_scalar go ro to (mixed_by f2) (e_from go (mixed_by f1) a) alpha.
(** operator-(S const&), diff type <> ScalarType: expression.hpp l.913-932 *)
Definition e_sub_scalar_mixed (a : emapS) (alpha : T) : emapR :=
  e_sub_assign_scalar go ro to (mixed_by f2) (e_from go (mixed_by f1) a) alpha.
(** alpha - expr: expression.hpp l.352-371; here [z - p.second] with [z] of
    the type of alpha *)
Definition e_scalar_sub_mixed (alpha : T) (a : emapS) : emapR :=
  e_add_scalar go ro to (mixed_by f2)
    (fold_left (fun e p => fst (map_emplace go (fst p) (s_sub ro (f2 (s_zero to)) (f1 (snd p))) e)) a [])
    alpha.
End Three.
