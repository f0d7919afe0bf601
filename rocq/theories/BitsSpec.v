(** * Independent specification of the bit-level notions *)
From Coq Require Import NArith List Bool.
Import ListNotations.
Open Scope N_scope.

(** Positions of the set bits of [n], in increasing order. *)
Definition ones (n : N) : list nat :=
  filter (fun i => N.testbit n (N.of_nat i)) (seq 0 (N.size_nat n)).

(** Number of set bits. *)
Definition weight (n : N) : nat := length (ones n).

(** A machine word *)
Definition u64 (n : N) : Prop := n < 2 ^ 64.

(** [p] is the least power of two that is not smaller than [n]. *)
Definition least_pow2_ge (n p : N) : Prop :=
  (exists k, p = 2 ^ k) /\ n <= p /\ (forall k, n <= 2 ^ k -> p <= 2 ^ k).

(** [r] packs the bits of [val] selected by [mask] into the low bits. *)
Definition is_extract (val mask r : N) : Prop :=
  forall j : nat,
    N.testbit r (N.of_nat j) =
    match nth_error (ones mask) j with
    | Some p => N.testbit val (N.of_nat p)
    | None => false
    end.

(** [r] scatters the low bits of [src] to the positions selected by [mask]. *)
Definition is_deposit (src mask r : N) : Prop :=
  (forall p : nat, ~ In p (ones mask) -> N.testbit r (N.of_nat p) = false) /\
  (forall j p : nat, nth_error (ones mask) j = Some p ->
     N.testbit r (N.of_nat p) = N.testbit src (N.of_nat j)).
