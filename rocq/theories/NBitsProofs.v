From Coq Require Import Reals NArith ZArith Lia Lra Psatz.
From Flocq Require Import Core.
From Verif Require Import HSModel NBitsModel NBitsSpec.
Open Scope R_scope.

Lemma ln2_lo : / 2 < ln 2.
Proof. exact Rpower.ln_lt_2. Qed.

Lemma ln2_pos : 0 < ln 2.
Proof. pose proof ln2_lo; lra. Qed.

Lemma ln2_hi : ln 2 <= 8 / 10.
Proof.
  rewrite <- (ln_exp (8 / 10)). apply Rlt_le, ln_increasing; [lra|].
  replace (8 / 10) with (2 / 10 + 2 / 10 + (2 / 10 + 2 / 10)) by lra.
  rewrite !exp_plus. pose proof (exp_ineq1 (2 / 10) ltac:(lra)) as H.
  set (t := exp (2 / 10)) in *. assert (1 + 2/10 < t) by lra.
  assert (1.44 < t * t) by nra. nra.
Qed.

Lemma ln1p_hi : forall x, 0 < x -> ln (1 + x) <= x.
Proof.
  intros x Hx. rewrite <- (ln_exp x) at 2. apply Rlt_le, ln_increasing; [lra|].
  apply exp_ineq1; lra.
Qed.

Lemma ln1p_lo : forall x, 0 < x -> x / (1 + x) <= ln (1 + x).
Proof.
  intros x Hx.
  assert (H : ln (/ (1 + x)) <= / (1 + x) - 1).
  { rewrite <- (ln_exp (/ (1 + x) - 1)).
    assert (Hp : 0 < / (1 + x)) by (apply Rinv_0_lt_compat; lra).
    assert (Hn : / (1 + x) - 1 <> 0).
    { assert (/ (1 + x) < 1) by (rewrite <- Rinv_1; apply Rinv_lt_contravar; lra). lra. }
    pose proof (exp_ineq1 _ Hn). apply Rlt_le, ln_increasing; lra. }
  rewrite ln_Rinv in H by lra.
  replace (x / (1 + x)) with (1 - / (1 + x)) by (field; lra). lra.
Qed.

Lemma log2_le : forall x y, 0 < x -> x <= y -> log2 x <= log2 y.
Proof.
  intros x y H0 H. unfold log2, Rdiv. apply Rmult_le_compat_r.
  - left; apply Rinv_0_lt_compat, ln2_pos.
  - destruct H as [H | H]; [left; apply ln_increasing; auto | subst; lra].
Qed.

Lemma log2_mul : forall x y, 0 < x -> 0 < y -> log2 (x * y) = log2 x + log2 y.
Proof. intros; unfold log2. rewrite ln_mult by assumption. field. pose proof ln2_pos; lra. Qed.

Lemma log2_pow : forall k : nat, log2 (2 ^ k) = INR k.
Proof.
  induction k as [|k IH].
  - simpl. unfold log2. rewrite ln_1. field. pose proof ln2_pos; lra.
  - rewrite <- tech_pow_Rmult, log2_mul, IH, S_INR by (try apply pow_lt; lra).
    unfold log2. field. pose proof ln2_pos; lra.
Qed.

Lemma log2_1p_lo : forall x, 0 < x -> x <= / 4 -> x <= log2 (1 + x).
Proof.
  intros x H0 H4. pose proof (ln1p_lo x H0) as H. pose proof ln2_hi. pose proof ln2_pos.
  unfold log2. apply Rmult_le_reg_r with (ln 2); [assumption|].
  replace (ln (1 + x) / ln 2 * ln 2) with (ln (1 + x)) by (field; lra).
  eapply Rle_trans; [|exact H].
  apply Rmult_le_reg_r with (1 + x); [lra|].
  replace (x / (1 + x) * (1 + x)) with x by (field; lra).
  assert (ln 2 * (1 + x) <= 1) by nra. nra.
Qed.

Lemma log2_1p_hi : forall x, 0 < x -> log2 (1 + x) < 2 * x.
Proof.
  intros x H0. pose proof (ln1p_hi x H0). pose proof ln2_lo. pose proof ln2_pos.
  unfold log2. apply Rmult_lt_reg_r with (ln 2); [assumption|].
  replace (ln (1 + x) / ln 2 * ln 2) with (ln (1 + x)) by (field; lra). nra.
Qed.

(** ** doubles *)
Lemma double_Z : forall z, (Z.abs z < 2 ^ 53)%Z -> is_double (IZR z).
Proof. intros z H. exists z, 0%Z. split; [split; [exact H | lia]|]. simpl. lra. Qed.

Lemma powerRZ_neg : forall n : nat, powerRZ 2 (- Z.of_nat n) = / 2 ^ n.
Proof. intros [|n]; simpl; [lra|]. rewrite SuccNat2Pos.id_succ. reflexivity. Qed.

Lemma pow47 : powerRZ 2 (-47) = / 2 ^ 47.
Proof. exact (powerRZ_neg 47). Qed.

Lemma double_eps : forall k : Z, (1 <= k <= 47)%Z -> is_double (IZR k + / 2 ^ 47).
Proof.
  intros k H. exists (k * 2 ^ 47 + 1)%Z, (-47)%Z. split; [split; lia|].
  rewrite pow47, plus_IZR, mult_IZR, (pow_IZR 2 47).
  change (2 ^ Z.of_nat 47)%Z with (2 ^ 47)%Z. field.
  intros h. apply eq_IZR in h. lia.
Qed.

Lemma bpow2 : forall e, bpow radix2 e = powerRZ 2 e.
Proof. intros e. rewrite bpow_powerRZ. reflexivity. Qed.

Lemma double_generic : forall x, is_double x -> generic_format radix2 dbl_exp x.
Proof.
  intros x (m & e & (Hm & He) & ->). apply generic_format_FLT.
  exists (Float radix2 m e).
  - unfold F2R. cbn [Fnum Fexp]. rewrite bpow2. reflexivity.
  - cbn [Fnum]. exact Hm.
  - exact He.
Qed.

Lemma generic_double : forall x, generic_format radix2 dbl_exp x -> is_double x.
Proof.
  intros x H. apply FLT_format_generic in H; [|reflexivity].
  destruct H as [f Hx Hm He]. exists (Fnum f), (Fexp f). split; [split; [exact Hm | exact He]|].
  rewrite Hx. unfold F2R. rewrite bpow2. reflexivity.
Qed.

Lemma to_double_exact : forall z, (Z.abs z < 2 ^ 53)%Z -> to_double z = IZR z.
Proof.
  intros z H. unfold to_double. apply round_generic; [apply valid_rnd_N|].
  apply double_generic, double_Z, H.
Qed.

(** no double strictly between 49 and 49 + 2^-47 *)
Lemma gap49 : forall x, is_double x -> 49 < x -> x < 49 + / 2 ^ 47 -> False.
Proof.
  intros x (m & e & (Hm & He) & ->) H1 H2.
  destruct (Z_le_gt_dec (-47) e) as [Hge | Hlt].
  - assert (Hz : exists w : Z, IZR m * powerRZ 2 e = IZR w * / 2 ^ 47).
    { exists (m * 2 ^ (e + 47))%Z. rewrite mult_IZR.
      replace e with ((e + 47) + -47)%Z at 1 by lia.
      rewrite powerRZ_add by lra. rewrite pow47.
      replace (IZR (2 ^ (e + 47))) with (powerRZ 2 (e + 47)); [ring|].
      destruct (IZN (e + 47) ltac:(lia)) as (n & ->).
      rewrite <- pow_powerRZ. rewrite (pow_IZR 2 n). reflexivity. }
    destruct Hz as (w & Hw). rewrite Hw in H1, H2.
    assert (Hp : 0 < 2 ^ 47) by (apply pow_lt; lra).
    assert (HA : 49 * 2 ^ 47 < IZR w).
    { apply Rmult_lt_reg_r with (/ 2 ^ 47); [apply Rinv_0_lt_compat; exact Hp|].
      replace (49 * 2 ^ 47 * / 2 ^ 47) with 49 by (field; lra). exact H1. }
    assert (HB : IZR w < 49 * 2 ^ 47 + 1).
    { apply Rmult_lt_reg_r with (/ 2 ^ 47); [apply Rinv_0_lt_compat; exact Hp|].
      replace ((49 * 2 ^ 47 + 1) * / 2 ^ 47) with (49 + / 2 ^ 47) by (field; lra). exact H2. }
    rewrite (pow_IZR 2 47) in HA, HB. change (2 ^ Z.of_nat 47)%Z with (2 ^ 47)%Z in HA, HB.
    rewrite <- mult_IZR in HA, HB. rewrite <- plus_IZR in HB.
    apply lt_IZR in HA. apply lt_IZR in HB. lia.
  - assert (Hb : powerRZ 2 e <= powerRZ 2 (-48)).
    { rewrite <- !bpow2. apply bpow_le. lia. }
    assert (Hpos : 0 < powerRZ 2 e) by (apply powerRZ_lt; lra).
    assert (Hm' : IZR m <= IZR (2 ^ 53)) by (apply IZR_le; lia).
    assert (H32 : IZR (2 ^ 53) * powerRZ 2 (-48) = 32).
    { change (-48)%Z with (- Z.of_nat 48)%Z. rewrite (powerRZ_neg 48). change (2 ^ 53)%Z with (32 * 2 ^ 48)%Z. rewrite mult_IZR.
      change (2 ^ 48)%Z with (2 ^ Z.of_nat 48)%Z. rewrite <- (pow_IZR 2 48).
      field. }
    assert (0 < IZR (2 ^ 53)) by (apply IZR_lt; lia).
    assert (IZR m * powerRZ 2 e <= 32).
    { rewrite <- H32. eapply Rle_trans; [apply Rmult_le_compat_r; [lra | exact Hm']|].
      apply Rmult_le_compat_l; lra. }
    lra.
Qed.

(** ** Exact below 2^48 *)
Lemma log2_above : forall (k d : Z), (1 <= k <= 47)%Z -> (2 ^ k < d)%Z ->
  IZR k + / 2 ^ 47 <= log2 (IZR d).
Proof.
  intros k d Hk Hd. destruct (IZN k ltac:(lia)) as (n & ->).
  assert (Hp : 0 < 2 ^ n) by (apply pow_lt; lra).
  eapply Rle_trans with (log2 (2 ^ n * (1 + / 2 ^ n))).
  - rewrite log2_mul, log2_pow, INR_IZR_INZ; [apply Rplus_le_compat_l | exact Hp |
      pose proof (Rinv_0_lt_compat _ Hp); lra].
    assert (Hle : / 2 ^ 47 <= / 2 ^ n).
    { apply Rinv_le_contravar; [exact Hp|]. apply Rle_pow; [lra | lia]. }
    destruct (Nat.eq_dec n 1) as [-> | Hn].
    + (* log2 (1 + 1/2) *)
      assert (H4 : / 4 <= log2 (1 + / 4)) by (apply log2_1p_lo; lra).
      assert (log2 (1 + / 4) <= log2 (1 + / 2 ^ 1)) by (apply log2_le; lra).
      assert (/ 2 ^ 47 <= / 4).
      { apply Rinv_le_contravar; [lra|]. replace 4 with (2 ^ 2) by lra.
        apply Rle_pow; [lra | lia]. }
      lra.
    + eapply Rle_trans; [exact Hle|]. apply log2_1p_lo.
      * apply Rinv_0_lt_compat, Hp.
      * replace 4 with (2 ^ 2) by lra. apply Rinv_le_contravar; [lra|].
        apply Rle_pow; [lra | lia].
  - apply log2_le.
    + apply Rmult_lt_0_compat; [exact Hp|]. pose proof (Rinv_0_lt_compat _ Hp); lra.
    + replace (2 ^ n * (1 + / 2 ^ n)) with (2 ^ n + 1) by (field; lra).
      rewrite (pow_IZR 2 n), <- plus_IZR. apply IZR_le. lia.
Qed.

Lemma log2_IZR_pow : forall k : Z, (0 <= k)%Z -> log2 (IZR (2 ^ k)) = IZR k.
Proof.
  intros k H. destruct (IZN k H) as (n & ->).
  rewrite <- (pow_IZR 2 n), log2_pow. apply INR_IZR_INZ.
Qed.

Lemma bits_exact : forall lg, faithful_log2 lg -> forall d : Z, (1 <= d <= 2 ^ 48)%Z ->
  bits_of lg d = Z.log2_up d.
Proof.
  intros lg Hf d Hd. unfold bits_of. rewrite to_double_exact by lia.
  destruct (Hf (IZR d) (double_Z d ltac:(lia)) ltac:(apply IZR_lt; lia)) as [_ Hb].
  set (u := Z.log2_up d).
  assert (Hu0 : (0 <= u)%Z) by apply Z.log2_up_nonneg.
  assert (Hu48 : (u <= 48)%Z).
  { unfold u. change 48%Z with (Z.log2_up (2 ^ 48)). apply Z.log2_up_le_mono. lia. }
  assert (Hle : (d <= 2 ^ u)%Z).
  { destruct (Z.eq_dec d 1) as [-> | Hd1]; [reflexivity|].
    destruct (Z.log2_up_spec d ltac:(lia)) as [_ H]. exact H. }
  assert (Hup : lg (IZR d) <= IZR u).
  { apply (Hb (IZR u)); [apply double_Z; lia|].
    rewrite <- (log2_IZR_pow u Hu0). apply log2_le; [apply IZR_lt; lia | apply IZR_le, Hle]. }
  apply Zceil_imp. split; [|exact Hup].
  destruct (Z.eq_dec u 0) as [H0 | Hpos].
  { (* d = 1 *)
    assert (d = 1)%Z as Hd1 by (rewrite H0 in Hle; simpl in Hle; lia).
    assert (HH : IZR 0 <= lg (IZR d)).
    { apply (Hb (IZR 0)); [apply double_Z; lia|]. rewrite Hd1. right.
      symmetry. exact (log2_IZR_pow 0 ltac:(lia)). }
    rewrite H0. simpl Z.sub. apply Rlt_le_trans with (IZR 0); [apply IZR_lt; lia | exact HH]. }
  assert (Hd1 : (1 < d)%Z).
  { destruct (Z.eq_dec d 1) as [e | e]; [|lia]. exfalso; apply Hpos. unfold u. rewrite e. reflexivity. }
  assert (Hlow : (2 ^ (u - 1) < d)%Z).
  { destruct (Z.log2_up_spec d Hd1) as [H _]. unfold u. rewrite <- Z.sub_1_r in H. exact H. }
  destruct (Z.eq_dec u 1) as [H1 | H1].
  - (* d = 2 *)
    assert (d = 2)%Z as Hd2 by (rewrite H1 in Hle, Hlow; simpl in *; lia).
    assert (HH : IZR 1 <= lg (IZR d)).
    { apply (Hb (IZR 1)); [apply double_Z; lia|]. rewrite Hd2. right.
      symmetry. exact (log2_IZR_pow 1 ltac:(lia)). }
    rewrite H1. simpl Z.sub. apply Rlt_le_trans with (IZR 1); [apply IZR_lt; lia | exact HH].
  - assert (HH : IZR (u - 1) + / 2 ^ 47 <= lg (IZR d)).
    { apply (Hb (IZR (u - 1) + / 2 ^ 47)).
      - apply double_eps. lia.
      - apply log2_above; [lia | exact Hlow]. }
    assert (0 < / 2 ^ 47) by (apply Rinv_0_lt_compat, pow_lt; lra). lra.
Qed.

Lemma log2_up_least : forall d : Z, (1 <= d)%Z -> least_bits d (Z.log2_up d).
Proof.
  intros d Hd. split; [apply Z.log2_up_nonneg | split].
  - destruct (Z.eq_dec d 1) as [-> | H]; [reflexivity|].
    destruct (Z.log2_up_spec d ltac:(lia)); assumption.
  - intros m Hm H. destruct (Z.eq_dec d 1) as [-> | H1]; [exact Hm|].
    apply Z.log2_up_le_pow2; lia.
Qed.

(** ** Wrong at 2^49 + 1 *)
Lemma bits_wrong : forall lg, nearest_log2 lg -> bits_of lg (2 ^ 49 + 1) = 49%Z.
Proof.
  intros lg Hn. unfold bits_of. rewrite to_double_exact by lia.
  set (d := (2 ^ 49 + 1)%Z).
  destruct (Hn (IZR d) (double_Z d ltac:(unfold d; lia)) ltac:(apply IZR_lt; unfold d; lia)) as [Hd Hb].
  assert (HP : 0 < 2 ^ 49) by (apply pow_lt; lra).
  assert (He : log2 (IZR d) = 49 + log2 (1 + / 2 ^ 49)).
  { replace (IZR d) with (2 ^ 49 * (1 + / 2 ^ 49)).
    - rewrite log2_mul, log2_pow, INR_IZR_INZ; [reflexivity | exact HP |].
      pose proof (Rinv_0_lt_compat _ HP); lra.
    - unfold d. rewrite plus_IZR. change (2 ^ 49)%Z with (2 ^ Z.of_nat 49)%Z.
      rewrite <- (pow_IZR 2 49). field. }
  set (t := log2 (1 + / 2 ^ 49)) in *.
  assert (Ht : 0 <= t).
  { unfold t. replace 0 with (log2 (2 ^ 0)) by (rewrite log2_pow; reflexivity).
    apply log2_le; [simpl; lra|]. simpl pow at 1. pose proof (Rinv_0_lt_compat _ HP); lra. }
  assert (Ht2 : 2 * t < / 2 ^ 47).
  { assert (t < 2 * / 2 ^ 49) by (apply log2_1p_hi, Rinv_0_lt_compat, HP).
    replace (2 ^ 49) with (4 * 2 ^ 47) in H by ring.
    assert (0 < / 2 ^ 47) by (apply Rinv_0_lt_compat, pow_lt; lra).
    rewrite Rinv_mult in H. lra. }
  specialize (Hb (IZR 49) (double_Z 49 ltac:(lia))).
  rewrite He in Hb. replace (49 + t - IZR 49) with t in Hb by ring.
  rewrite (Rabs_pos_eq t Ht) in Hb.
  assert (Hu : lg (IZR d) <= 49 + 2 * t).
  { pose proof (Rle_abs (- (49 + t - lg (IZR d)))) as HH. rewrite Rabs_Ropp in HH. lra. }
  assert (Hl : 49 <= lg (IZR d)).
  { pose proof (Rle_abs (49 + t - lg (IZR d))) as HH. lra. }
  apply Zceil_imp. split.
  - simpl Z.sub. lra.
  - destruct (Rle_or_lt (lg (IZR d)) 49) as [H | H]; [exact H|].
    exfalso. apply (gap49 _ Hd H). lra.
Qed.

(** ** there are such functions *)
Definition lg_nearest (x : R) : R := round radix2 dbl_exp ZnearestE (log2 x).

#[local] Instance dbl_valid : Valid_exp dbl_exp.
Proof. apply FLT_exp_valid; reflexivity. Qed.

Lemma lg_nearest_ok : nearest_log2 lg_nearest.
Proof.
  intros x _ _. split.
  - apply generic_double. apply generic_format_round; [apply FLT_exp_valid; reflexivity | apply valid_rnd_N].
  - intros y Hy. unfold lg_nearest.
    destruct (round_N_pt radix2 dbl_exp (fun t => negb (Z.even t)) (log2 x)) as [_ H].
    specialize (H y (double_generic _ Hy)).
    rewrite (Rabs_minus_sym (log2 x)), (Rabs_minus_sym (log2 x) y). exact H.
Qed.

Lemma nearest_faithful : forall lg, nearest_log2 lg -> faithful_log2 lg.
Proof.
  intros lg H x Hx H0. destruct (H x Hx H0) as [Hd Hn]. split; [exact Hd|].
  intros y Hy. specialize (Hn y Hy). split; intros Hle.
  - destruct (Rle_or_lt y (lg x)) as [E | E]; [exact E|]. exfalso.
    rewrite (Rabs_pos_eq (log2 x - y)) in Hn by lra.
    pose proof (Rle_abs (log2 x - lg x)). lra.
  - destruct (Rle_or_lt (lg x) y) as [E | E]; [exact E|]. exfalso.
    rewrite Rabs_minus_sym, (Rabs_minus_sym _ y), (Rabs_pos_eq (y - log2 x)) in Hn by lra.
    pose proof (Rle_abs (lg x - log2 x)). lra.
Qed.
