(** * Properties C38, C39: bit-level primitives (bit_ops.hpp) *)
From Coq Require Import NArith List Bool Arith.
From Verif Require Import BitsModel BitsSpec BitsProofs.
Import ListNotations.
Open Scope N_scope.

(** C38a: next_pow2 (both branches) is the least power of two >= i, for every i whose
    answer is representable. *)
Theorem C38_next_pow2_least : forall i : N, i <= 2 ^ 63 ->
  exists p, next_pow2 i = Some p /\ least_pow2_ge i p.
Proof. exact next_pow2_correct. Qed.
Print Assumptions C38_next_pow2_least.
Theorem C38_next_pow2_branches_agree : forall i : N, i <= 2 ^ 63 -> next_pow2 i = Some (next_pow2_portable i).
Proof. exact next_pow2_portable_agrees. Qed.
Print Assumptions C38_next_pow2_branches_agree.
Example C38_next_pow2_ex : next_pow2 37 = Some 64 /\ next_pow2 64 = Some 64 /\ 37 <= 2 ^ 63.
Proof. vm_compute. repeat split; discriminate. Qed.

(** C38b: count_trailing_zeros (both branches) returns the position of the lowest set bit. *)
Theorem C38_ctz_lowest : forall (x : N) (z : nat),
  ctz x = Some z <->
  N.testbit x (N.of_nat z) = true /\ (forall j, j < N.of_nat z -> N.testbit x j = false).
Proof. exact ctz_testbit. Qed.
Print Assumptions C38_ctz_lowest.
Theorem C38_ctz_branches_agree : forall x : N, u64 x -> x <> 0 -> ctz x = Some (N.to_nat (ctz_portable x)).
Proof. exact ctz_portable_correct. Qed.
Print Assumptions C38_ctz_branches_agree.
Example C38_ctz_ex : ctz 96 = Some 5%nat /\ ctz_portable 96 = 5.
Proof. vm_compute. auto. Qed.

(** C38c: parity_popcount (both branches) is the parity of the number of set bits. *)
Theorem C38_parity : forall x : N, u64 x ->
  parity x = Nat.odd (weight x) /\ parity_portable x = Nat.odd (weight x).
Proof. exact (fun x H => conj (parity_correct x) (parity_portable_correct x H)). Qed.
Print Assumptions C38_parity.
Example C38_parity_ex : parity_portable 0xF0000000000000F3 = false /\ parity 0x7 = true.
Proof. vm_compute. auto. Qed.

(** C38d: popcount (intrinsic branch) is the number of set bits. *)
Theorem C38_popcount : forall x : N, popcount x = weight x.
Proof. exact (fun x => eq_sym (weight_popcount x)). Qed.
Print Assumptions C38_popcount.

(** C38e: extract_bits / deposit_bits gather and scatter the masked bits ... *)
Theorem C38_extract : forall val mask : N, u64 val -> u64 mask ->
  exists r, extract_bits val mask = Some r /\ is_extract val mask r.
Proof. exact extract_bits_spec. Qed.
Print Assumptions C38_extract.
Theorem C38_deposit : forall src mask : N, u64 mask ->
  exists r, deposit_bits src mask = Some r /\ is_deposit src mask r.
Proof. exact deposit_bits_spec. Qed.
Print Assumptions C38_deposit.

(** ... and are mutually inverse on the masked bits. *)
Theorem C38_extract_deposit_inverse : forall src mask d e : N, u64 src -> u64 mask -> u64 d ->
  deposit_bits src mask = Some d -> extract_bits d mask = Some e ->
  e = N.land src (N.ones (N.of_nat (weight mask))).
Proof.
  exact (fun src mask d e Hs Hm Hd H1 H2 =>
    match deposit_bits_spec src mask Hm, extract_bits_spec d mask Hd Hm with
    | ex_intro _ r (conj A B), ex_intro _ r' (conj A' B') =>
        extract_deposit src mask d e
          (eq_ind r (fun z => is_deposit src mask z) B d (f_equal (fun o => match o with Some x => x | None => 0 end) (eq_trans (eq_sym A) H1)))
          (eq_ind r' (fun z => is_extract d mask z) B' e (f_equal (fun o => match o with Some x => x | None => 0 end) (eq_trans (eq_sym A') H2)))
    end).
Qed.
Print Assumptions C38_extract_deposit_inverse.
Theorem C38_deposit_extract_inverse : forall v mask e d : N, u64 v -> u64 mask ->
  extract_bits v mask = Some e -> deposit_bits e mask = Some d -> d = N.land v mask.
Proof.
  exact (fun v mask e d Hv Hm H1 H2 =>
    match extract_bits_spec v mask Hv Hm, deposit_bits_spec e mask Hm with
    | ex_intro _ r (conj A B), ex_intro _ r' (conj A' B') =>
        deposit_extract v mask e d
          (eq_ind r (fun z => is_extract v mask z) B e (f_equal (fun o => match o with Some x => x | None => 0 end) (eq_trans (eq_sym A) H1)))
          (eq_ind r' (fun z => is_deposit e mask z) B' d (f_equal (fun o => match o with Some x => x | None => 0 end) (eq_trans (eq_sym A') H2)))
    end).
Qed.
Print Assumptions C38_deposit_extract_inverse.
Example C38_extract_ex : extract_bits 0xB4 0xF0 = Some 0xB /\ deposit_bits 0xB 0xF0 = Some 0xB0.
Proof. vm_compute. auto. Qed.

(** C39 is false: the portable popcount returns the prefix-xor of the word. *)
Theorem C39_popcount_portable_refuted : exists x : N, u64 x /\ popcount_portable x <> N.of_nat (weight x).
Proof. exact (ex_intro _ 2 (conj eq_refl popcount_portable_2)). Qed.
Print Assumptions C39_popcount_portable_refuted.
