(** Specification for C70: element access through a view of a state vector. *)
From Coq Require Import NArith List.
From Verif Require Import ExprModel LOpModel.
Import ListNotations.
Open Scope N_scope.

(** A view [view] of the vector v shows the element number i of v as the
    amplitude of the basis state xs[i]: get_element() reads it,
    update_add_element() changes it and no other element, and set_zeros() makes
    all elements of v zero. *)
Record window {V S} (so : scalar_ops S) (view : sv_ops V S) (ok : V -> Prop) (amp : V -> N -> S) (size : V -> N)
    (xs : list N) (v : V) : Prop := {
  wi_get : forall i x, nth_error xs i = Some x -> sv_get view v x = Some (amp v (N.of_nat i));
  wi_add : forall i x a, nth_error xs i = Some x ->
    exists v', sv_add view v x a = Some v' /\ ok v' /\ size v' = size v /\
      amp v' (N.of_nat i) = s_add so (amp v (N.of_nat i)) a /\
      forall k, k <> N.of_nat i -> amp v' k = amp v k;
  wi_zero : ok (sv_zero view v) /\ size (sv_zero view v) = size v /\ forall k, amp (sv_zero view v) k = s_zero so
}.
