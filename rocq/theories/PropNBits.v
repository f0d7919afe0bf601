(** * C74: the number of bits of an elementary space, computed in double precision *)
From Coq Require Import Reals NArith ZArith Lia.
From Flocq Require Import Core.
From Verif Require Import HSModel NBitsModel NBitsSpec NBitsProofs.

(** With any faithfully rounded std::log2, n_bits() is the least number of binary
    digits for every elementary space of dimension up to 2^48. *)
Theorem C74_least : forall (lg : R -> R), faithful_log2 lg ->
  forall (I : Type) (e : espace I), (1 <= es_dim e <= 2 ^ 48)%N ->
  least_bits (Z.of_N (es_dim e)) (es_nbits_code lg e).
Proof.
  intros lg Hf I e Hd.
  assert (Hz : (1 <= Z.of_N (es_dim e) <= 2 ^ 48)%Z).
  { destruct Hd as [H1 H2]. split; [lia|]. apply N2Z.inj_le in H2. rewrite N2Z.inj_pow in H2. exact H2. }
  assert (He : es_nbits_code lg e = Z.log2_up (Z.of_N (es_dim e))).
  { destruct e as [i | d i | m i]; cbn [es_nbits_code es_dim] in *.
    - reflexivity.
    - apply bits_exact; assumption.
    - rewrite nat_N_Z in *. apply bits_exact; assumption. }
  rewrite He. apply log2_up_least. lia.
Qed.

(** spins: every multiplicity that fits in an int *)
Theorem C74_spin : forall (lg : R -> R), faithful_log2 lg ->
  forall (I : Type) (i : I) (mult : nat), (1 <= Z.of_nat mult < 2 ^ 31)%Z ->
  least_bits (Z.of_nat mult) (es_nbits_code lg (ESSpin mult i)).
Proof.
  intros lg Hf I i m Hm.
  pose proof (C74_least lg Hf I (ESSpin m i)) as H. cbn [es_dim] in H. rewrite nat_N_Z in H.
  apply H. split; [lia|]. apply N2Z.inj_le. rewrite nat_N_Z, N2Z.inj_pow. simpl Z.of_N. lia.
Qed.

(** the idealised number of bits that the model of Hilbert spaces (HSModel.v)
    uses is the one that is computed *)
Theorem C74_model : forall (lg : R -> R), faithful_log2 lg ->
  forall (I : Type) (e : espace I), (1 <= es_dim e <= 2 ^ 48)%N ->
  es_nbits_code lg e = Z.of_nat (es_nbits e).
Proof.
  intros lg Hf I e Hd.
  destruct (C74_least lg Hf I e Hd) as (H0 & H1 & H2).
  set (n := es_nbits_code lg e) in *. clearbody n.
  assert (Hl : forall d, (1 <= d)%N -> least_bits (Z.of_N d) (Z.of_N (N.log2_up d))).
  { intros d Hd1. split; [apply N2Z.is_nonneg | split].
    - change 2%Z with (Z.of_N 2). rewrite <- N2Z.inj_pow. apply N2Z.inj_le.
      destruct (N.eq_dec d 1) as [-> | Hn1];
        [discriminate | exact (proj2 (N.log2_up_spec d ltac:(lia)))].
    - intros m Hm H. destruct (Z_of_nat_complete m Hm) as (k & ->).
      rewrite <- nat_N_Z in *. apply N2Z.inj_le.
      change 2%Z with (Z.of_N 2) in H. rewrite <- N2Z.inj_pow in H. apply N2Z.inj_le in H.
      apply N.log2_up_le_pow2; lia. }
  assert (Hm : least_bits (Z.of_N (es_dim e)) (Z.of_nat (es_nbits e))).
  { destruct e as [i | d i | m i]; cbn [es_nbits es_dim] in *.
    - exact (Hl 2%N ltac:(lia)).
    - rewrite N_nat_Z. apply Hl. lia.
    - rewrite N_nat_Z. apply Hl. lia. }
  destruct Hm as (M0 & M1 & M2). pose proof (H2 _ M0 M1). pose proof (M2 _ H0 H1). lia.
Qed.

(** Beyond this it is not: even with a correctly rounded std::log2 a bosonic
    space with 2^49 + 1 states is given 49 bits. *)
Theorem C74_large_refuted : forall (lg : R -> R), nearest_log2 lg ->
  forall (I : Type) (i : I),
  es_nbits_code lg (ESBoson (2 ^ 49 + 1) i) = 49%Z /\
  ~ (Z.of_N (es_dim (ESBoson (2 ^ 49 + 1) i)) <= 2 ^ es_nbits_code lg (ESBoson (2 ^ 49 + 1) i))%Z.
Proof.
  intros lg Hn I i.
  assert (H : es_nbits_code lg (ESBoson (2 ^ 49 + 1) i) = 49%Z) by exact (bits_wrong lg Hn).
  split; [exact H|]. rewrite H. cbn [es_dim]. apply Z.lt_nge. vm_compute. reflexivity.
Qed.

(** the hypotheses can be met: correct rounding is a faithful rounding, and exists *)
Example C74_ex_lg : nearest_log2 lg_nearest /\ faithful_log2 lg_nearest.
Proof. split; [exact lg_nearest_ok | apply nearest_faithful, lg_nearest_ok]. Qed.
Example C74_ex_boson : least_bits 5 (es_nbits_code lg_nearest (ESBoson 5 tt)).
Proof. apply (C74_least lg_nearest (proj2 C74_ex_lg) unit (ESBoson 5 tt)). cbn [es_dim]. split; [lia|]. vm_compute. discriminate. Qed.

Print Assumptions C74_least.
Print Assumptions C74_spin.
Print Assumptions C74_model.
Print Assumptions C74_large_refuted.
