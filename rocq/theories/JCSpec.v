(** Jaynes-Cummings model: specification *)
From Coq Require Import NArith List Reals.
From Verif Require Import ExprModel HSModel LOpModel LOpSpec LOpReal.
Local Open Scope R_scope.

(** the operator Lp can be applied to v, and then gives a vector with the
    amplitudes f, in whatever order foreach() visits the elements of v *)
Definition applied {V} (sv : sv_ops V R) (amp : V -> N -> R) (Lp : lop R) (v : V) (f : N -> R) : Prop :=
  (exists ent, sv_entries sv v ent) /\
  forall ent, sv_entries sv v ent ->
    exists u, lop_apply real_ops real_sq real_half sv Lp v ent = Some u /\ forall x, amp u x = f x.

(** amplitudes of c1 |x1> + c2 |x2> *)
Definition two (x1 : N) (c1 : R) (x2 : N) (c2 : R) (x : N) : R :=
  if N.eqb x x1 then c1 else if N.eqb x x2 then c2 else 0.
(** amplitudes of |x1> *)
Definition one_state (x1 x : N) : R := if N.eqb x x1 then 1 else 0.
(** the sign of a real number that is not zero *)
Definition rsign (x : R) : R := if Rlt_dec 0 x then 1 else -1.
