(** C39: what the portable popcount computes, and when it is right. *)
From Coq Require Import NArith List Bool Arith Lia.
From Verif Require Import BitsModel BitsSpec BitsProofs.
Import ListNotations.
Open Scope N_scope.

(** Bit i (i < 32) of the result is the parity of the number of set bits at
    positions >= i. *)
Theorem C39_value : forall x i, u64 x -> i < 32 ->
  N.testbit (popcount_portable x) i = Nat.odd (weight (N.shiftr x i)).
Proof.
  intros x i H hi. unfold popcount_portable. rewrite N.mod_pow2_bits_low by exact hi.
  rewrite <- (parity_portable_correct (N.shiftr x i)).
  2: { unfold u64 in *. rewrite N.shiftr_div_pow2. apply N.le_lt_trans with x; [|exact H]. apply N.div_le_upper_bound; [apply N.pow_nonzero; discriminate|].
       pose proof (N.pow_nonzero 2 i ltac:(discriminate)). nia. }
  unfold parity_portable. rewrite !xor_fold_spec. clear. induction fold_list as [|d l IH]; cbn [xorall fold_right]; [reflexivity|].
  f_equal; [|exact IH]. rewrite N.shiftr_spec'. f_equal. lia.
Qed.
Print Assumptions C39_value.

(** Among the arguments below 2^32 it is right for 0, 1 and 3 only. *)
Theorem C39_right_iff : forall x, x < 2 ^ 32 ->
  (popcount_portable x = N.of_nat (weight x) <-> x = 0 \/ x = 1 \/ x = 3).
Proof.
  intros x hx. split; [|intros [ -> | [ -> | -> ]]; reflexivity].
  intros E. destruct (N.eq_dec x 0) as [|nz]; auto. right.
  assert (H : u64 x) by (unfold u64; apply N.lt_trans with (2 ^ 32); [exact hx|reflexivity]).
  set (t := N.log2 x). pose proof (N.log2_spec x ltac:(lia)) as [T1 T2]. fold t in T1, T2.
  assert (ht : t < 32) by (apply (N.pow_lt_mono_r_iff 2); [lia|]; apply N.le_lt_trans with x; auto).
  pose proof (C39_value x t H ht) as B.
  assert (O : N.shiftr x t = 1).
  { rewrite N.shiftr_div_pow2. symmetry. apply N.div_unique with (x - 2 ^ t); [|lia].
    rewrite N.pow_succ_r' in T2. lia. }
  rewrite O in B. change (Nat.odd (weight 1)) with true in B.
  assert (G : 2 ^ t <= popcount_portable x).
  { destruct (N.lt_ge_cases (popcount_portable x) (2 ^ t)) as [L|]; auto.
    destruct (N.eq_dec (popcount_portable x) 0) as [Z|NZ]; [rewrite Z, N.bits_0 in B; discriminate|].
    rewrite N.bits_above_log2 in B; [discriminate|]. apply N.log2_lt_pow2; [lia|exact L]. }
  assert (WL : (weight x <= N.to_nat t + 1)%nat).
  { apply weight_le. replace (N.of_nat (N.to_nat t + 1)) with (N.succ t) by lia. exact T2. }
  assert (K : 2 ^ t <= t + 1) by lia.
  assert (t < 2).
  { destruct (N.lt_ge_cases t 2) as [|G2]; auto. exfalso. replace t with (2 + (t - 2)) in K by lia. rewrite N.pow_add_r in K.
    pose proof (N.pow_gt_lin_r 2 (t - 2) ltac:(lia)). change (2 ^ 2) with 4 in K. lia. }
  assert (X : x < 4). { apply N.lt_le_trans with (2 ^ N.succ t); auto. apply (N.pow_le_mono_r 2 (N.succ t) 2); lia. }
  assert (x = 1 \/ x = 2 \/ x = 3) as [ -> | [ -> | -> ]] by lia; auto. exfalso. apply (popcount_portable_2 E).
Qed.
Print Assumptions C39_right_iff.
Example C39_ex : popcount_portable 5 = 6 /\ weight 5 = 2%nat.
Proof. split; reflexivity. Qed.
