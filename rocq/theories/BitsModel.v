(** * Model of the bit-level primitives
    Source: /repo/include/libcommute/loperator/bit_ops.hpp

    Conventions: [sv_index_type] = std::uint64_t values are [N]; the intended
    domain is [n < 2^64], and every operation that may leave it is wrapped
    explicitly by [w64].  [unsigned int] bit positions / counts are [nat].
    Undefined behaviour (shift by >= 64, __builtin_ctzll(0)) is [None]. *)
From Coq Require Import NArith List Bool.
Import ListNotations.
Open Scope N_scope.

Definition w64 (n : N) : N := n mod 2 ^ 64.

(** unsigned 64-bit subtraction [a - b] with wrap-around (C++ semantics) *)
Definition sub64 (a b : N) : N := w64 (w64 a + (2 ^ 64 - w64 b)).

(** unsigned 64-bit negation [-a] and complement [~a] *)
Definition neg64 (a : N) : N := sub64 0 a.
Definition not64 (a : N) : N := N.lxor a (N.ones 64).

(** bit_ops.hpp:32-34  [pow2(n) = uint64_t(1) << n]; a shift by 64 or more is UB *)
Definition pow2 (n : nat) : option N :=
  if Nat.ltb n 64 then Some (2 ^ N.of_nat n) else None.

(** __builtin_clzll(i), i <> 0: number of leading zeros of a 64-bit word *)
Definition clz64 (i : N) : option nat :=
  if i =? 0 then None else Some (64 - N.size_nat i)%nat.

(** bit_ops.hpp:37-40  next_pow2, compiler-intrinsic branch *)
Definition next_pow2 (i : N) : option N :=
  if i <? 2 then Some 1
  else match clz64 (i - 1) with
       | None => None
       | Some z => pow2 (64 - z)
       end.

(** bit_ops.hpp:41-52  next_pow2, portable branch *)
Definition next_pow2_portable (i : N) : N :=
  if i <? 2 then 1
  else
    let i := i - 1 in
    let i := N.lor i (N.shiftr i 1) in
    let i := N.lor i (N.shiftr i 2) in
    let i := N.lor i (N.shiftr i 4) in
    let i := N.lor i (N.shiftr i 8) in
    let i := N.lor i (N.shiftr i 16) in
    let i := N.lor i (N.shiftr i 32) in
    w64 (i + 1).

(** __builtin_popcountll *)
Fixpoint pos_popcount (p : positive) : nat :=
  match p with
  | xH => 1
  | xO p => pos_popcount p
  | xI p => S (pos_popcount p)
  end.
(** bit_ops.hpp:56-58  popcount, intrinsic branch *)
Definition popcount (n : N) : nat :=
  match n with 0 => 0%nat | Npos p => pos_popcount p end.

(** bit_ops.hpp:59-67 and 74-80: the xor-folding used by the portable branches *)
Definition xor_fold (i : N) : N :=
  let i := N.lxor i (N.shiftr i 32) in
  let i := N.lxor i (N.shiftr i 16) in
  let i := N.lxor i (N.shiftr i 8) in
  let i := N.lxor i (N.shiftr i 4) in
  let i := N.lxor i (N.shiftr i 2) in
  N.lxor i (N.shiftr i 1).

(** bit_ops.hpp:59-67  popcount, portable branch: returns the folded word,
    converted to [unsigned int] (32 bits) *)
Definition popcount_portable (i : N) : N := xor_fold i mod 2 ^ 32.

(** bit_ops.hpp:71-73  parity_popcount, intrinsic branch *)
Definition parity (i : N) : bool := Nat.odd (popcount i).
(** bit_ops.hpp:74-82  parity_popcount, portable branch *)
Definition parity_portable (i : N) : bool := N.testbit (xor_fold i) 0.

(** __builtin_ctzll; bit_ops.hpp:86-88  count_trailing_zeros, intrinsic branch;
    UB for 0 *)
Fixpoint pos_ctz (p : positive) : nat :=
  match p with
  | xO p => S (pos_ctz p)
  | _ => 0%nat
  end.
Definition ctz (i : N) : option nat :=
  match i with 0 => None | Npos p => Some (pos_ctz p) end.

(** bit_ops.hpp:89-114  count_trailing_zeros, portable branch *)
Definition ctz_step (m : N) (sh : N) (st : N * N) : N * N :=
  let '(n, i) := st in
  if N.land i m =? 0 then (n + sh, N.shiftr i sh) else (n, i).
Definition ctz_portable (i : N) : N :=
  let st := (1, i) in
  let st := ctz_step 0xffffffff 32 st in
  let st := ctz_step 0x0000ffff 16 st in
  let st := ctz_step 0x000000ff 8 st in
  let st := ctz_step 0x0000000f 4 st in
  let '(n, i) := ctz_step 0x00000003 2 st in
  n - N.land i 1.

(** [i & (i - 1)]: clear the lowest set bit (i <> 0) *)
Definition clear_lowest (i : N) : N := N.land i (sub64 i 1).
(** [i & -i]: isolate the lowest set bit *)
Definition lowest_bit (i : N) : N := N.land i (neg64 i).

(** bit_ops.hpp:118-131  deposit_bits (serial implementation; the BMI2 branch
    is the hardware instruction with the same contract).
    The [for] loop runs until [mask] becomes 0; [fuel] bounds the iterations and
    [None] marks exhausted fuel (proved unreachable). *)
Fixpoint deposit_loop (fuel : nat) (src mask bb res : N) : option N :=
  if mask =? 0 then Some res
  else match fuel with
       | O => None
       | S f =>
           deposit_loop f src (clear_lowest mask) (w64 (bb + bb))
             (if N.land src bb =? 0 then res else N.lor res (lowest_bit mask))
       end.
Definition deposit_bits (src mask : N) : option N := deposit_loop 64 src mask 1 0.

(** bit_ops.hpp:134-146  extract_bits (serial implementation) *)
Fixpoint extract_loop (fuel : nat) (val mask bb res : N) : option N :=
  if mask =? 0 then Some res
  else match fuel with
       | O => None
       | S f =>
           extract_loop f val (clear_lowest mask) (w64 (bb + bb))
             (if N.land (N.land val mask) (neg64 mask) =? 0 then res else N.lor res bb)
       end.
Definition extract_bits (val mask : N) : option N := extract_loop 64 val mask 1 0.
