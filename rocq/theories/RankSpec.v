(** * Independent specification for ranking of fixed-weight bit patterns *)
From Coq Require Import NArith List Bool Arith.
From Verif Require Import BitsSpec.
Import ListNotations.
Open Scope N_scope.

(** Binomial coefficients by Pascal's rule. *)
Fixpoint binom (n k : nat) : N :=
  match n, k with
  | _, O => 1
  | O, S _ => 0
  | S n', S k' => binom n' k' + binom n' (S k')
  end.

(** The numbers [0 .. x-1], in increasing order. *)
Definition below (x : N) : list N := map N.of_nat (seq 0 (N.to_nat x)).

(** [y] describes a state of [M] modes with exactly [K] occupied ones. *)
Definition in_sector (M K : nat) (y : N) : bool :=
  (y <? 2 ^ N.of_nat M) && (weight y =? K)%nat.

(** All [K]-particle states of [M] modes, in increasing order. *)
Definition sector_states (M K : nat) : list N :=
  filter (fun y => (weight y =? K)%nat) (below (2 ^ N.of_nat M)).

(** How many numbers below [x] have exactly [K] set bits. *)
Definition count_below (K : nat) (x : N) : N :=
  N.of_nat (length (filter (fun y => (weight y =? K)%nat) (below x))).

(** The canonical position of a sector state [x]: if at most half of the modes are
    occupied it is the number of smaller sector states, otherwise the number of
    larger ones (the library ranks by holes in that case). *)
Definition sector_position (M K : nat) (x : N) : N :=
  if (K <=? M / 2)%nat then count_below K x
  else N.of_nat (length (filter (fun y => x <? y) (sector_states M K))).
