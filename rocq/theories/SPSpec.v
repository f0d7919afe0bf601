(** * Specification vocabulary for space partitions *)
From Coq Require Import List Arith Relations.
Import ListNotations.

(** [op] (given by its non-zero matrix elements out of each basis state) connects x to y *)
Definition links {A} (op : nat -> list (nat * A)) (x y : nat) : Prop := exists a, In (y, a) (op x).

(** connected by a chain of non-zero matrix elements of h between visited states, in either direction *)
Definition h_connected {A} (states : list nat) (h : nat -> list (nat * A)) : nat -> nat -> Prop :=
  clos_refl_sym_trans nat (fun x y => In x states /\ links h x y).

(** operators map visited basis states to visited basis states, and each output vector
    stores at most one amplitude per basis state *)
Definition op_on {A} (states : list nat) (op : nat -> list (nat * A)) : Prop :=
  forall x, In x states -> NoDup (map fst (op x)) /\ forall y, links op x y -> In y states.

(** Each class of [P] is linked by [op] to at most one class *)
Definition one_to_one {A} (states : list nat) (P : nat -> nat -> Prop) (op : nat -> list (nat * A)) : Prop :=
  forall x x' y y', In x states -> In x' states -> P x x' -> links op x y -> links op x' y' -> P y y'.
