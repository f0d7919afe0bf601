From Coq Require Import NArith List Bool Lia Arith Sorted Permutation ZifyBool ZifyNat ZifyN.
From Verif Require Import BitsModel BitsSpec.
Import ListNotations.
Open Scope N_scope.
#[global] Arguments N.add : simpl never.
#[global] Arguments N.sub : simpl never.
#[global] Arguments N.mul : simpl never.
#[global] Arguments N.pow : simpl never.
#[global] Arguments N.testbit : simpl never.

(** ** words *)
Lemma w64_small n : n < 2 ^ 64 -> w64 n = n.
Proof. intros H; unfold w64; now apply N.mod_small. Qed.
Lemma w64_lt n : w64 n < 2 ^ 64.
Proof. unfold w64; apply N.mod_lt; discriminate. Qed.

Lemma sub64_ge a b : u64 a -> b <= a -> sub64 a b = a - b.
Proof.
  unfold u64, sub64; intros Ha Hb.
  rewrite (w64_small a), (w64_small b) by lia.
  unfold w64. symmetry; apply N.mod_unique with 1; lia.
Qed.
Lemma neg64_pos n : 0 < n -> u64 n -> neg64 n = 2 ^ 64 - n.
Proof.
  unfold u64, neg64, sub64; intros H0 H.
  rewrite (w64_small 0), (w64_small n) by lia. apply w64_small; lia.
Qed.

(** ** size and testbit *)
Lemma size_nat_size n : N.of_nat (N.size_nat n) = N.size n.
Proof.
  destruct n as [|p]; [reflexivity|]. simpl.
  induction p as [p IH|p IH|]; simpl; lia.
Qed.
Lemma testbit_size n i : N.size n <= i -> N.testbit n i = false.
Proof.
  intros H. destruct (N.eq_dec n 0) as [->|Hn]; [apply N.bits_0|].
  apply N.bits_above_log2. rewrite N.size_log2 in H by assumption. lia.
Qed.
Lemma size_lt_pow n k : n < 2 ^ k <-> N.size n <= k.
Proof.
  split; intros H.
  - destruct (N.eq_dec n 0) as [->|Hn]; [cbn; lia|].
    rewrite N.size_log2 by assumption.
    assert (N.log2 n < k) by (apply N.log2_lt_pow2; lia). lia.
  - pose proof (N.size_gt n) as Hg.
    assert (2 ^ N.size n <= 2 ^ k) by (apply N.pow_le_mono_r; lia). lia.
Qed.
Lemma bits_lt_pow n k : n < 2 ^ k <-> (forall i, k <= i -> N.testbit n i = false).
Proof.
  split.
  - intros H i Hi. apply testbit_size. apply size_lt_pow in H; lia.
  - intros H. destruct (N.eq_dec n 0) as [->|Hn].
    + assert (2 ^ k <> 0) by (apply N.pow_nonzero; lia). lia.
    + destruct (N.lt_ge_cases (N.log2 n) k) as [Hl|Hl].
      * apply N.log2_lt_pow2; lia.
      * specialize (H _ Hl). rewrite N.bit_log2 in H by assumption. discriminate.
Qed.
Lemma testbit_nat_ext a b :
  (forall i : nat, N.testbit a (N.of_nat i) = N.testbit b (N.of_nat i)) -> a = b.
Proof.
  intros H. apply N.bits_inj. intros i. rewrite <- (N2Nat.id i). apply H.
Qed.

(** ** ones *)
Lemma in_ones n i : In i (ones n) <-> N.testbit n (N.of_nat i) = true.
Proof.
  unfold ones. rewrite filter_In, in_seq. split; [tauto|].
  intros H; split; [|exact H]. split; [lia|].
  destruct (Nat.lt_ge_cases i (0 + N.size_nat n)) as [Hl|Hl]; [exact Hl|].
  rewrite testbit_size in H; [discriminate|]. rewrite <- size_nat_size. lia.
Qed.

Lemma filter_seq_trunc (f : nat -> bool) a b :
  (a <= b)%nat -> (forall i, (a <= i < b)%nat -> f i = false) ->
  filter f (seq 0 b) = filter f (seq 0 a).
Proof.
  intros Hab Hf. replace b with (a + (b - a))%nat by lia.
  rewrite seq_app, filter_app. simpl.
  replace (filter f (seq a (b - a))) with (@nil nat); [apply app_nil_r|].
  symmetry. assert (forall l, (forall i, In i l -> f i = false) -> filter f l = []) as HH.
  { induction l as [|x l IH]; intros Hl; simpl; [reflexivity|].
    rewrite Hl by (left; reflexivity). apply IH. intros i Hi; apply Hl; right; exact Hi. }
  apply HH. intros i Hi. apply in_seq in Hi. apply Hf; lia.
Qed.

Lemma ones_seq n b : (N.size_nat n <= b)%nat ->
  ones n = filter (fun i => N.testbit n (N.of_nat i)) (seq 0 b).
Proof.
  intros H. unfold ones. symmetry. apply filter_seq_trunc; [exact H|].
  intros i Hi. apply testbit_size. rewrite <- size_nat_size. lia.
Qed.

Lemma ones_0 : ones 0 = [].
Proof. reflexivity. Qed.

Lemma filter_map_S (f : nat -> bool) l :
  filter f (map S l) = map S (filter (fun i => f (S i)) l).
Proof.
  induction l as [|x l IH]; simpl; [reflexivity|].
  destruct (f (S x)); simpl; now rewrite IH.
Qed.

Lemma size_nat_double n : (N.size_nat (2 * n) <= S (N.size_nat n))%nat.
Proof. destruct n; simpl; lia. Qed.
Lemma size_nat_succ_double n : (N.size_nat (2 * n + 1) <= S (N.size_nat n))%nat.
Proof. destruct n; simpl; lia. Qed.

Lemma ones_double n : ones (2 * n) = map S (ones n).
Proof.
  rewrite (ones_seq (2 * n) (S (N.size_nat n))) by apply size_nat_double.
  cbn [seq filter]. change (N.of_nat 0) with 0. rewrite N.testbit_even_0.
  rewrite <- seq_shift, filter_map_S. f_equal. unfold ones.
  apply filter_ext. intros i. rewrite Nat2N.inj_succ, N.testbit_even_succ by lia. reflexivity.
Qed.
Lemma ones_succ_double n : ones (2 * n + 1) = 0%nat :: map S (ones n).
Proof.
  rewrite (ones_seq (2 * n + 1) (S (N.size_nat n))) by apply size_nat_succ_double.
  cbn [seq filter]. change (N.of_nat 0) with 0. rewrite N.testbit_odd_0.
  f_equal. rewrite <- seq_shift, filter_map_S. f_equal. unfold ones.
  apply filter_ext. intros i. rewrite Nat2N.inj_succ, N.testbit_odd_succ by lia. reflexivity.
Qed.

Lemma bin_ind (P : N -> Prop) :
  P 0 -> (forall n, 0 < n -> P n -> P (2 * n)) -> (forall n, P n -> P (2 * n + 1)) -> forall n, P n.
Proof.
  intros H0 H1 H2 n. apply N.binary_ind.
  - exact H0.
  - intros m Hm. rewrite N.double_spec. destruct (N.eq_dec m 0) as [->|Hz]; [exact H0|].
    apply H1; [lia|exact Hm].
  - intros m Hm. rewrite N.succ_double_spec. now apply H2.
Qed.

Lemma popcount_double n : popcount (2 * n) = popcount n.
Proof. destruct n; reflexivity. Qed.
Lemma popcount_succ_double n : popcount (2 * n + 1) = S (popcount n).
Proof. destruct n; reflexivity. Qed.

Lemma weight_popcount n : weight n = popcount n.
Proof.
  unfold weight. induction n as [|n Hn IH|n IH] using bin_ind.
  - reflexivity.
  - rewrite ones_double, map_length, popcount_double. exact IH.
  - rewrite ones_succ_double. simpl length. rewrite map_length, popcount_succ_double. lia.
Qed.

Lemma weight_double n : weight (2 * n) = weight n.
Proof. rewrite !weight_popcount. apply popcount_double. Qed.
Lemma weight_succ_double n : weight (2 * n + 1) = S (weight n).
Proof. rewrite !weight_popcount. apply popcount_succ_double. Qed.

Lemma ones_sorted n : StronglySorted lt (ones n).
Proof.
  induction n as [|n Hn IH|n IH] using bin_ind.
  - constructor.
  - rewrite ones_double. induction IH as [|x l Hl IHl Hx]; simpl; constructor; auto.
    rewrite Forall_forall in *. intros y Hy. apply in_map_iff in Hy. destruct Hy as [z [<- Hz]].
    specialize (Hx _ Hz). lia.
  - rewrite ones_succ_double. constructor.
    + induction IH as [|x l Hl IHl Hx]; simpl; constructor; auto.
      rewrite Forall_forall in *. intros y Hy. apply in_map_iff in Hy. destruct Hy as [z [<- Hz]].
      specialize (Hx _ Hz). lia.
    + rewrite Forall_forall. intros y Hy. apply in_map_iff in Hy. destruct Hy as [z [<- Hz]]. lia.
Qed.

Lemma sorted_lt_NoDup l : StronglySorted lt l -> NoDup l.
Proof.
  induction 1 as [|x l Hl IH Hx]; constructor; auto.
  intros Hin. rewrite Forall_forall in Hx. specialize (Hx _ Hin). lia.
Qed.
Lemma ones_NoDup n : NoDup (ones n).
Proof. apply sorted_lt_NoDup, ones_sorted. Qed.

Lemma ones_nil n : ones n = [] <-> n = 0.
Proof.
  split; [|intros ->; reflexivity].
  induction n as [|n Hn IH|n IH] using bin_ind; intros H.
  - reflexivity.
  - rewrite ones_double in H. destruct (ones n); [rewrite IH by reflexivity; reflexivity|discriminate].
  - rewrite ones_succ_double in H. discriminate.
Qed.

Lemma ones_inj a b : ones a = ones b -> a = b.
Proof.
  intros H. apply testbit_nat_ext. intros i.
  destruct (N.testbit a (N.of_nat i)) eqn:Ha.
  - symmetry. apply in_ones. rewrite <- H. now apply in_ones.
  - destruct (N.testbit b (N.of_nat i)) eqn:Hb; [|reflexivity].
    apply in_ones in Hb. rewrite <- H in Hb. apply in_ones in Hb. congruence.
Qed.

Lemma ones_lt n k : n < 2 ^ N.of_nat k <-> (forall i, In i (ones n) -> (i < k)%nat).
Proof.
  rewrite bits_lt_pow. split.
  - intros H i Hi. apply in_ones in Hi. destruct (Nat.lt_ge_cases i k) as [Hl|Hl]; [exact Hl|].
    rewrite H in Hi by lia. discriminate.
  - intros H i Hi. destruct (N.testbit n i) eqn:E; [|reflexivity].
    rewrite <- (N2Nat.id i) in E. apply in_ones in E. apply H in E. lia.
Qed.

Lemma weight_le n k : n < 2 ^ N.of_nat k -> (weight n <= k)%nat.
Proof.
  intros H. unfold weight.
  assert (NoDup (ones n)) as Hnd by apply ones_NoDup.
  assert (incl (ones n) (seq 0 k)) as Hi.
  { intros i Hi. apply in_seq. rewrite ones_lt in H. apply H in Hi. lia. }
  apply NoDup_incl_length in Hi; [|exact Hnd]. now rewrite seq_length in Hi.
Qed.

(** ** ctz *)
Lemma ctz_double n : 0 < n -> ctz (2 * n) = option_map S (ctz n).
Proof. intros H. destruct n; [lia|reflexivity]. Qed.
Lemma ctz_succ_double n : ctz (2 * n + 1) = Some 0%nat.
Proof. destruct n; reflexivity. Qed.
Lemma ctz_ones n : ctz n = hd_error (ones n).
Proof.
  induction n as [|n Hn IH|n IH] using bin_ind.
  - reflexivity.
  - rewrite ctz_double by exact Hn. rewrite IH, ones_double. destruct (ones n); reflexivity.
  - rewrite ctz_succ_double, ones_succ_double. reflexivity.
Qed.

(** ** clearing and isolating the lowest bit *)
Lemma pred_double n : 0 < n -> 2 * n - 1 = 2 * (n - 1) + 1.
Proof. lia. Qed.
Lemma land_double a b : N.land (2 * a) (2 * b + 1) = 2 * N.land a b.
Proof. destruct a, b; simpl; try reflexivity. all: destruct (Pos.land p p0); reflexivity. Qed.
Lemma land_succ_double a b : N.land (2 * a + 1) (2 * b) = 2 * N.land a b.
Proof. destruct a, b; simpl; try reflexivity. all: destruct (Pos.land p p0); reflexivity. Qed.
Lemma ldiff_double a b : N.ldiff (2 * a) (2 * b + 1) = 2 * N.ldiff a b.
Proof. destruct a, b; simpl; try reflexivity. all: destruct (Pos.ldiff p p0); reflexivity. Qed.

Lemma land_pred_ones n : ones (N.land n (n - 1)) = tl (ones n).
Proof.
  induction n as [|n Hn IH|n IH] using bin_ind.
  - reflexivity.
  - rewrite pred_double, land_double, !ones_double, IH by exact Hn. destruct (ones n); reflexivity.
  - replace (2 * n + 1 - 1) with (2 * n) by lia.
    rewrite land_succ_double, N.land_diag, ones_double, ones_succ_double. reflexivity.
Qed.
Lemma clear_lowest_ones n : u64 n -> n <> 0 -> ones (clear_lowest n) = tl (ones n).
Proof.
  intros Hn H0. unfold clear_lowest. rewrite sub64_ge by (unfold u64 in *; lia). apply land_pred_ones.
Qed.
Lemma land_le_l a b : N.land a b <= a.
Proof.
  destruct (N.le_gt_cases (N.land a b) a) as [H|H]; [exact H|exfalso].
  assert (N.land a b + N.ldiff a b = a) as E.
  { assert (N.land (N.land a b) (N.ldiff a b) = 0) as E0.
    { apply N.bits_inj. intros i. rewrite !N.land_spec, N.ldiff_spec, N.bits_0.
      destruct (N.testbit a i), (N.testbit b i); reflexivity. }
    rewrite N.add_nocarry_lxor by exact E0.
    apply N.bits_inj. intros i. rewrite N.lxor_spec, N.land_spec, N.ldiff_spec.
    destruct (N.testbit a i), (N.testbit b i); reflexivity. }
  lia.
Qed.
Lemma clear_lowest_u64 n : u64 n -> u64 (clear_lowest n).
Proof. unfold u64, clear_lowest. intros H. pose proof (land_le_l n (sub64 n 1)). lia. Qed.

Lemma lnot64_neg n : 0 < n -> u64 n -> neg64 n = N.lnot (n - 1) 64.
Proof.
  intros H0 H. rewrite neg64_pos by assumption. unfold u64 in H.
  destruct (N.eq_dec n 1) as [->|H1].
  - reflexivity.
  - rewrite N.lnot_sub_low.
    + rewrite N.ones_equiv. lia.
    + apply N.log2_lt_pow2; lia.
Qed.
Lemma land_neg_ldiff v n : 0 < n -> u64 n -> u64 v -> N.land v (neg64 n) = N.ldiff v (n - 1).
Proof.
  intros H0 H Hv. rewrite lnot64_neg by assumption.
  apply N.bits_inj. intros i. rewrite N.land_spec, N.ldiff_spec.
  destruct (N.lt_ge_cases i 64) as [Hi|Hi].
  - rewrite N.lnot_spec_low by exact Hi. reflexivity.
  - unfold u64 in Hv. rewrite bits_lt_pow in Hv. rewrite Hv by exact Hi. reflexivity.
Qed.
Lemma ldiff_pred n z : ctz n = Some z -> N.ldiff n (n - 1) = 2 ^ N.of_nat z.
Proof.
  revert z. induction n as [|n Hn IH|n IH] using bin_ind; intros z Hz.
  - discriminate.
  - rewrite ctz_double in Hz by exact Hn. destruct (ctz n) as [y|]; [|discriminate].
    simpl in Hz. injection Hz as <-.
    rewrite pred_double, ldiff_double, (IH y) by auto. rewrite Nat2N.inj_succ, N.pow_succ_r'. reflexivity.
  - rewrite ctz_succ_double in Hz. injection Hz as <-.
    replace (2 * n + 1 - 1) with (2 * n) by lia.
    apply N.bits_inj. intros i. change (2 ^ N.of_nat 0) with 1. rewrite N.ldiff_spec.
    destruct (N.eq_dec i 0) as [->|Hi].
    + rewrite N.testbit_odd_0, N.testbit_even_0. reflexivity.
    + replace i with (N.succ (N.pred i)) by lia.
      rewrite N.testbit_odd_succ, N.testbit_even_succ by lia.
      change 1 with (2 * 0 + 1). rewrite N.testbit_odd_succ by lia. rewrite N.bits_0.
      destruct (N.testbit n (N.pred i)); reflexivity.
Qed.
Lemma lowest_bit_pow n z : u64 n -> ctz n = Some z -> lowest_bit n = 2 ^ N.of_nat z.
Proof.
  intros H Hz. assert (0 < n) by (destruct n; [discriminate|lia]).
  unfold lowest_bit. rewrite land_neg_ldiff by assumption. now apply ldiff_pred.
Qed.

Lemma land_pow2_testbit v k : (N.land v (2 ^ k) =? 0) = negb (N.testbit v k).
Proof.
  destruct (N.testbit v k) eqn:E; simpl.
  - apply N.eqb_neq. intros H. assert (N.testbit (N.land v (2 ^ k)) k = false) as F by (rewrite H; apply N.bits_0).
    rewrite N.land_spec, E, N.pow2_bits_true in F. discriminate.
  - apply N.eqb_eq. apply N.bits_inj. intros i. rewrite N.land_spec, N.bits_0.
    destruct (N.eq_dec k i) as [<-|Hk]; [now rewrite E|].
    rewrite N.pow2_bits_false by exact Hk. apply andb_false_r.
Qed.

Lemma testbit_pow2 k i : N.testbit (2 ^ k) i = (i =? k).
Proof.
  destruct (N.eq_dec k i) as [<-|H].
  - rewrite N.pow2_bits_true, N.eqb_refl. reflexivity.
  - rewrite N.pow2_bits_false by exact H. symmetry. apply N.eqb_neq. lia.
Qed.

(** ** extract / deposit *)
Definition bbval (j : nat) : N := if Nat.ltb j 64 then 2 ^ N.of_nat j else 0.
Lemma bbval_step j : w64 (bbval j + bbval j) = bbval (S j).
Proof.
  unfold bbval. destruct (Nat.ltb_spec j 64) as [H|H].
  - replace (2 ^ N.of_nat j + 2 ^ N.of_nat j) with (2 ^ N.of_nat (S j)) by (rewrite Nat2N.inj_succ, N.pow_succ_r'; lia).
    destruct (Nat.ltb_spec (S j) 64) as [H1|H1].
    + apply w64_small. apply N.pow_lt_mono_r; lia.
    + replace (S j) with 64%nat by lia. reflexivity.
  - destruct (Nat.ltb_spec (S j) 64); [lia|]. reflexivity.
Qed.

Lemma hd_tl_ones mask p ps : ones mask = p :: ps -> u64 mask ->
  mask <> 0 /\ ctz mask = Some p /\ ones (clear_lowest mask) = ps.
Proof.
  intros H Hm. assert (mask <> 0) as H0 by (intros ->; discriminate).
  split; [exact H0|]. split.
  - rewrite ctz_ones, H. reflexivity.
  - rewrite clear_lowest_ones by assumption. rewrite H. reflexivity.
Qed.

Lemma land_mask_neg val mask p : u64 mask -> u64 val -> ctz mask = Some p ->
  (N.land (N.land val mask) (neg64 mask) =? 0) = negb (N.testbit val (N.of_nat p)).
Proof.
  intros Hm Hv Hc. rewrite <- N.land_assoc. fold (lowest_bit mask).
  rewrite (lowest_bit_pow _ _ Hm Hc). apply land_pow2_testbit.
Qed.

Lemma extract_loop_spec l : forall fuel val mask j res,
  ones mask = l -> u64 mask -> u64 val -> (length l <= fuel)%nat -> (j + length l <= 64)%nat ->
  exists r, extract_loop fuel val mask (bbval j) res = Some r /\
    forall i : nat, N.testbit r (N.of_nat i) =
      N.testbit res (N.of_nat i) ||
      (Nat.leb j i && match nth_error l (i - j) with Some p => N.testbit val (N.of_nat p) | None => false end).
Proof.
  induction l as [|p ps IH]; intros fuel val mask j res Hl Hm Hv Hf Hj.
  - apply ones_nil in Hl. subst mask. exists res. split.
    + destruct fuel; reflexivity.
    + intros i. replace (nth_error (@nil nat) (i - j)) with (@None nat) by (destruct (i - j)%nat; reflexivity).
      rewrite andb_false_r, orb_false_r. reflexivity.
  - destruct (hd_tl_ones _ _ _ Hl Hm) as [H0 [Hc Ht]].
    destruct fuel as [|f]; [simpl in Hf; lia|].
    cbn [extract_loop]. destruct (N.eqb_spec mask 0) as [E|_]; [contradiction|].
    rewrite bbval_step, (land_mask_neg _ _ p) by assumption.
    simpl in Hf, Hj.
    destruct (IH f val (clear_lowest mask) (S j)
               (if negb (N.testbit val (N.of_nat p)) then res else N.lor res (bbval j))) as [r [Hr Hb]]; auto.
    + apply clear_lowest_u64; exact Hm.
    + lia.
    + lia.
    + exists r. split; [exact Hr|]. intros i. rewrite Hb.
      assert (bbval j = 2 ^ N.of_nat j) as Ebb by (unfold bbval; destruct (Nat.ltb_spec j 64); [reflexivity|lia]).
      destruct (Nat.lt_trichotomy i j) as [Hij|[Hij|Hij]].
      * destruct (Nat.leb_spec (S j) i); [lia|]. destruct (Nat.leb_spec j i); [lia|].
        simpl. rewrite !orb_false_r. destruct (N.testbit val (N.of_nat p)); simpl; [|reflexivity].
        rewrite N.lor_spec, Ebb, testbit_pow2. destruct (N.eqb_spec (N.of_nat i) (N.of_nat j)); [lia|].
        apply orb_false_r.
      * subst i. destruct (Nat.leb_spec (S j) j); [lia|]. destruct (Nat.leb_spec j j); [|lia].
        rewrite Nat.sub_diag. simpl. rewrite orb_false_r.
        destruct (N.testbit val (N.of_nat p)); simpl.
        -- rewrite N.lor_spec, Ebb, testbit_pow2, N.eqb_refl. reflexivity.
        -- rewrite orb_false_r. reflexivity.
      * destruct (Nat.leb_spec (S j) i); [|lia]. destruct (Nat.leb_spec j i); [|lia]. simpl.
        replace (i - j)%nat with (S (i - S j))%nat by lia. simpl nth_error.
        f_equal. destruct (N.testbit val (N.of_nat p)); simpl; [|reflexivity].
        rewrite N.lor_spec, Ebb, testbit_pow2. destruct (N.eqb_spec (N.of_nat i) (N.of_nat j)); [lia|].
        apply orb_false_r.
Qed.

Lemma ones_length_64 n : u64 n -> (length (ones n) <= 64)%nat.
Proof. intros H. apply (weight_le n 64). exact H. Qed.

Lemma extract_bits_spec val mask : u64 val -> u64 mask ->
  exists r, extract_bits val mask = Some r /\ is_extract val mask r.
Proof.
  intros Hv Hm. pose proof (ones_length_64 _ Hm) as Hl.
  destruct (extract_loop_spec (ones mask) 64 val mask 0 0) as [r [Hr Hb]]; auto.
  exists r. split; [exact Hr|]. intros i. rewrite Hb, N.bits_0, Nat.sub_0_r. reflexivity.
Qed.

Lemma deposit_loop_spec l : forall fuel src mask j res,
  ones mask = l -> u64 mask -> (length l <= fuel)%nat -> (j + length l <= 64)%nat ->
  exists r, deposit_loop fuel src mask (bbval j) res = Some r /\
    (forall p, ~ In p l -> N.testbit r (N.of_nat p) = N.testbit res (N.of_nat p)) /\
    (forall i p, nth_error l i = Some p ->
        N.testbit r (N.of_nat p) = N.testbit res (N.of_nat p) || N.testbit src (N.of_nat (j + i))).
Proof.
  induction l as [|p ps IH]; intros fuel src mask j res Hl Hm Hf Hj.
  - apply ones_nil in Hl. subst mask. exists res. split.
    + destruct fuel; reflexivity.
    + split; [reflexivity|]. intros i p H. destruct i; discriminate.
  - destruct (hd_tl_ones _ _ _ Hl Hm) as [H0 [Hc Ht]].
    destruct fuel as [|f]; [simpl in Hf; lia|].
    cbn [deposit_loop]. destruct (N.eqb_spec mask 0) as [E|_]; [contradiction|].
    rewrite bbval_step. simpl in Hf, Hj.
    assert (bbval j = 2 ^ N.of_nat j) as Ebb by (unfold bbval; destruct (Nat.ltb_spec j 64); [reflexivity|lia]).
    rewrite Ebb, land_pow2_testbit, (lowest_bit_pow _ _ Hm Hc).
    set (res' := if negb (N.testbit src (N.of_nat j)) then res else N.lor res (2 ^ N.of_nat p)).
    destruct (IH f src (clear_lowest mask) (S j) res') as [r [Hr [Hb1 Hb2]]]; auto.
    { apply clear_lowest_u64; exact Hm. } { lia. } { lia. }
    pose proof (ones_NoDup mask) as Hnd. rewrite Hl in Hnd. inversion Hnd as [|? ? Hnin Hnd']; subst.
    exists r. split; [exact Hr|].
    assert (forall q, q <> p -> N.testbit res' (N.of_nat q) = N.testbit res (N.of_nat q)) as Hne.
    { intros q Hq. unfold res'. destruct (N.testbit src (N.of_nat j)); simpl; [|reflexivity].
      rewrite N.lor_spec, testbit_pow2. destruct (N.eqb_spec (N.of_nat q) (N.of_nat p)); [lia|]. apply orb_false_r. }
    split.
    + intros q Hq. simpl in Hq. rewrite Hb1 by tauto. apply Hne. intros ->; tauto.
    + intros i q Hi. destruct i as [|i]; simpl in Hi.
      * injection Hi as <-. rewrite Hb1 by exact Hnin. rewrite Nat.add_0_r.
        unfold res'. destruct (N.testbit src (N.of_nat j)); simpl.
        -- rewrite N.lor_spec, testbit_pow2, N.eqb_refl. reflexivity.
        -- rewrite orb_false_r. reflexivity.
      * rewrite (Hb2 i q Hi). replace (S j + i)%nat with (j + S i)%nat by lia. f_equal.
        apply Hne. intros ->. apply Hnin. apply nth_error_In in Hi. exact Hi.
Qed.

Lemma deposit_bits_spec src mask : u64 mask ->
  exists r, deposit_bits src mask = Some r /\ is_deposit src mask r.
Proof.
  intros Hm. pose proof (ones_length_64 _ Hm) as Hl.
  destruct (deposit_loop_spec (ones mask) 64 src mask 0 0) as [r [Hr [Hb1 Hb2]]]; auto.
  exists r. split; [exact Hr|]. split.
  - intros p Hp. rewrite Hb1 by exact Hp. apply N.bits_0.
  - intros j p Hp. rewrite (Hb2 j p Hp), N.bits_0. reflexivity.
Qed.

Lemma is_deposit_unique src mask r r' : is_deposit src mask r -> is_deposit src mask r' -> r = r'.
Proof.
  intros [A B] [A' B']. apply testbit_nat_ext. intros p.
  destruct (in_dec Nat.eq_dec p (ones mask)) as [Hp|Hp].
  - apply In_nth_error in Hp. destruct Hp as [j Hj]. rewrite (B _ _ Hj), (B' _ _ Hj). reflexivity.
  - rewrite A, A' by exact Hp. reflexivity.
Qed.
Lemma is_extract_unique v mask r r' : is_extract v mask r -> is_extract v mask r' -> r = r'.
Proof. intros A B. apply testbit_nat_ext. intros j. rewrite A, B. reflexivity. Qed.

Lemma is_extract_lt v mask r : is_extract v mask r -> r < 2 ^ N.of_nat (weight mask).
Proof.
  intros H. apply bits_lt_pow. intros i Hi. rewrite <- (N2Nat.id i), H.
  destruct (nth_error (ones mask) (N.to_nat i)) eqn:E; [|reflexivity].
  exfalso. assert (N.to_nat i < length (ones mask))%nat by (apply nth_error_Some; congruence).
  unfold weight in Hi. lia.
Qed.
Lemma is_deposit_le src mask r : is_deposit src mask r -> N.land r mask = r.
Proof.
  intros [A B]. apply testbit_nat_ext. intros p. rewrite N.land_spec.
  destruct (N.testbit mask (N.of_nat p)) eqn:E; [apply andb_true_r|].
  rewrite A; [reflexivity|]. rewrite in_ones. congruence.
Qed.

Lemma extract_deposit src mask d e :
  is_deposit src mask d -> is_extract d mask e -> e = N.land src (N.ones (N.of_nat (weight mask))).
Proof.
  intros [A B] E. apply testbit_nat_ext. intros j. rewrite E, N.land_spec.
  destruct (nth_error (ones mask) j) as [p|] eqn:Hj.
  - rewrite (B _ _ Hj). rewrite N.ones_spec_low; [now rewrite andb_true_r|].
    assert (j < length (ones mask))%nat by (apply nth_error_Some; congruence). unfold weight; lia.
  - rewrite N.ones_spec_high; [now rewrite andb_false_r|].
    apply nth_error_None in Hj. unfold weight; lia.
Qed.
Lemma deposit_extract v mask e d :
  is_extract v mask e -> is_deposit e mask d -> d = N.land v mask.
Proof.
  intros E [A B]. apply testbit_nat_ext. intros p. rewrite N.land_spec.
  destruct (N.testbit mask (N.of_nat p)) eqn:Hm.
  - apply in_ones in Hm. apply In_nth_error in Hm. destruct Hm as [j Hj].
    rewrite (B _ _ Hj), E, Hj, andb_true_r. reflexivity.
  - rewrite A, andb_false_r; [reflexivity|]. rewrite in_ones. congruence.
Qed.

(** weight is preserved by deposit of in-range values *)
Lemma testbit_weight_nth (l : list nat) : forall (f : nat -> bool),
  length (filter f l) = length (filter (fun j => match nth_error l j with Some p => f p | None => false end) (seq 0 (length l))).
Proof.
  induction l as [|x l IH]; intros f; [reflexivity|].
  cbn [length seq]. cbn [filter nth_error].
  rewrite <- seq_shift, filter_map_S. cbn [nth_error].
  destruct (f x); cbn [length]; rewrite map_length, <- IH; reflexivity.
Qed.

(** ** next_pow2 *)
Lemma least_pow2_unique n p q : least_pow2_ge n p -> least_pow2_ge n q -> p = q.
Proof.
  intros [[k ->] [H1 H2]] [[k' ->] [H1' H2']].
  apply N.le_antisymm; auto.
Qed.
Lemma least_pow2_size i : 2 <= i -> least_pow2_ge i (2 ^ N.size (i - 1)).
Proof.
  intros H. repeat split.
  - eexists; reflexivity.
  - pose proof (N.size_gt (i - 1)). lia.
  - intros k Hk. apply N.pow_le_mono_r; [lia|]. apply size_lt_pow. lia.
Qed.
Lemma next_pow2_correct i : i <= 2 ^ 63 ->
  exists p, next_pow2 i = Some p /\ least_pow2_ge i p.
Proof.
  intros Hi. unfold next_pow2. destruct (N.ltb_spec i 2) as [H|H].
  - exists 1. split; [reflexivity|]. repeat split.
    + exists 0. reflexivity.
    + lia.
    + intros k _. assert (2 ^ k <> 0) by (apply N.pow_nonzero; lia). lia.
  - unfold clz64. destruct (N.eqb_spec (i - 1) 0) as [E|E]; [lia|].
    assert (N.size (i - 1) <= 63) as Hs by (apply size_lt_pow; lia).
    pose proof (size_nat_size (i - 1)) as Hsz.
    replace (64 - (64 - N.size_nat (i - 1)))%nat with (N.size_nat (i - 1)) by lia.
    unfold pow2. destruct (Nat.ltb_spec (N.size_nat (i - 1)) 64) as [Hl|Hl]; [|lia].
    exists (2 ^ N.of_nat (N.size_nat (i - 1))). split; [reflexivity|].
    rewrite Hsz. apply least_pow2_size. exact H.
Qed.

(** portable: smearing *)
Lemma smear_step x m k :
  (forall i, N.testbit m i = existsb (fun d => N.testbit x (i + N.of_nat d)) (seq 0 k)) ->
  forall i, N.testbit (N.lor m (N.shiftr m (N.of_nat k))) i
            = existsb (fun d => N.testbit x (i + N.of_nat d)) (seq 0 (k + k)).
Proof.
  intros H i. rewrite N.lor_spec, N.shiftr_spec', !H, seq_app, existsb_app. f_equal.
  rewrite (Nat.add_0_l k).
  assert (forall a n, existsb (fun d => N.testbit x (i + N.of_nat k + N.of_nat d)) (seq a n)
     = existsb (fun d => N.testbit x (i + N.of_nat d)) (seq (k + a) n)) as HH.
  { intros a n; revert a; induction n as [|n IHn]; intros a; simpl; [reflexivity|].
    rewrite IHn. replace (S (k + a))%nat with (k + S a)%nat by lia. f_equal. f_equal. lia. }
  rewrite HH, Nat.add_0_r. reflexivity.
Qed.

Definition smear (i : N) : N :=
  let i := N.lor i (N.shiftr i 1) in
  let i := N.lor i (N.shiftr i 2) in
  let i := N.lor i (N.shiftr i 4) in
  let i := N.lor i (N.shiftr i 8) in
  let i := N.lor i (N.shiftr i 16) in
  N.lor i (N.shiftr i 32).

Lemma smear_spec x i : N.testbit (smear x) i = existsb (fun d => N.testbit x (i + N.of_nat d)) (seq 0 64).
Proof.
  unfold smear.
  assert (forall i, N.testbit x i = existsb (fun d => N.testbit x (i + N.of_nat d)) (seq 0 1)) as H0.
  { intros j. simpl. rewrite N.add_0_r, orb_false_r. reflexivity. }
  pose proof (smear_step x _ 1 H0) as H1. pose proof (smear_step x _ 2 H1) as H2.
  pose proof (smear_step x _ 4 H2) as H3. pose proof (smear_step x _ 8 H3) as H4.
  pose proof (smear_step x _ 16 H4) as H5. exact (smear_step x _ 32 H5 i).
Qed.
Lemma smear_ones x : 0 < x -> u64 x -> smear x = N.ones (N.size x).
Proof.
  intros H0 H. apply N.bits_inj. intros i. rewrite smear_spec.
  assert (N.size x <= 64) by (apply size_lt_pow; exact H).
  rewrite N.size_log2 in * by lia.
  destruct (N.lt_ge_cases i (N.succ (N.log2 x))) as [Hi|Hi].
  - rewrite N.ones_spec_low by exact Hi. apply existsb_exists.
    exists (N.to_nat (N.log2 x - i)). split; [apply in_seq; lia|].
    replace (i + N.of_nat (N.to_nat (N.log2 x - i))) with (N.log2 x) by lia. apply N.bit_log2. lia.
  - rewrite N.ones_spec_high by exact Hi. apply not_true_is_false. intros E.
    apply existsb_exists in E. destruct E as [d [_ Hd]]. rewrite N.bits_above_log2 in Hd by lia. discriminate.
Qed.
Lemma next_pow2_portable_agrees i : i <= 2 ^ 63 -> next_pow2 i = Some (next_pow2_portable i).
Proof.
  intros Hi. destruct (next_pow2_correct i Hi) as [p [Hp Hl]]. rewrite Hp. f_equal.
  unfold next_pow2_portable. unfold next_pow2 in Hp. destruct (N.ltb_spec i 2) as [H|H].
  - congruence.
  - apply (least_pow2_unique i); [exact Hl|].
    change (least_pow2_ge i (w64 (smear (i - 1) + 1))).
    rewrite smear_ones by (unfold u64; lia).
    assert (N.size (i - 1) <= 63) by (apply size_lt_pow; lia).
    rewrite N.ones_equiv.
    assert (2 ^ N.size (i - 1) <> 0) by (apply N.pow_nonzero; lia).
    replace (N.pred (2 ^ N.size (i - 1)) + 1) with (2 ^ N.size (i - 1)) by lia.
    rewrite w64_small; [apply least_pow2_size; exact H|].
    apply N.pow_lt_mono_r; lia.
Qed.

(** ** parity *)
Definition xorall (f : nat -> bool) (l : list nat) : bool := fold_right (fun d b => xorb (f d) b) false l.
Lemma xorall_app f a b : xorall f (a ++ b) = xorb (xorall f a) (xorall f b).
Proof.
  induction a as [|x a IH]; simpl; [destruct (xorall f b); reflexivity|]. rewrite IH, xorb_assoc. reflexivity.
Qed.
Lemma fold_step x m k l :
  (forall i, N.testbit m i = xorall (fun d => N.testbit x (i + N.of_nat d)) l) ->
  forall i, N.testbit (N.lxor m (N.shiftr m (N.of_nat k))) i
            = xorall (fun d => N.testbit x (i + N.of_nat d)) (l ++ map (Nat.add k) l).
Proof.
  intros H i. rewrite N.lxor_spec, N.shiftr_spec', !H, xorall_app. f_equal.
  clear H. induction l as [|d l IH]; simpl; [reflexivity|]. rewrite IH. f_equal. f_equal. lia.
Qed.
Definition fold_list : list nat :=
  let l := [0%nat] in
  let l := l ++ map (Nat.add 32) l in
  let l := l ++ map (Nat.add 16) l in
  let l := l ++ map (Nat.add 8) l in
  let l := l ++ map (Nat.add 4) l in
  let l := l ++ map (Nat.add 2) l in
  l ++ map (Nat.add 1) l.
Lemma xor_fold_spec x i : N.testbit (xor_fold x) i = xorall (fun d => N.testbit x (i + N.of_nat d)) fold_list.
Proof.
  unfold xor_fold.
  assert (forall i, N.testbit x i = xorall (fun d => N.testbit x (i + N.of_nat d)) [0%nat]) as H0.
  { intros j. simpl. rewrite N.add_0_r, xorb_false_r. reflexivity. }
  pose proof (fold_step x _ 32 _ H0) as H1. pose proof (fold_step x _ 16 _ H1) as H2.
  pose proof (fold_step x _ 8 _ H2) as H3. pose proof (fold_step x _ 4 _ H3) as H4.
  pose proof (fold_step x _ 2 _ H4) as H5. exact (fold_step x _ 1 _ H5 i).
Qed.
Lemma xorall_perm f l l' : Permutation.Permutation l l' -> xorall f l = xorall f l'.
Proof.
  induction 1 as [|x l l' _ IH|x y l|l1 l2 l3 _ IH1 _ IH2]; simpl; try congruence.
  rewrite <- !xorb_assoc, (xorb_comm (f y)). reflexivity.
Qed.
Lemma xorall_parity f l : xorall f l = Nat.odd (length (filter f l)).
Proof.
  induction l as [|x l IH]; [reflexivity|]. cbn [xorall fold_right filter]. fold (xorall f l). rewrite IH.
  destruct (f x); cbn [length].
  - rewrite Nat.odd_succ, <- Nat.negb_odd. destruct (Nat.odd _); reflexivity.
  - apply xorb_false_l.
Qed.
Lemma fold_list_perm : Permutation.Permutation fold_list (seq 0 64).
Proof.
  apply Permutation.NoDup_Permutation.
  - assert (forallb (fun i => Nat.eqb (count_occ Nat.eq_dec fold_list i) 1) fold_list = true) as H by (vm_compute; reflexivity).
    apply (NoDup_count_occ' Nat.eq_dec). intros i Hi. rewrite forallb_forall in H. apply H in Hi. now apply Nat.eqb_eq in Hi.
  - apply seq_NoDup.
  - assert (forallb (fun i => Nat.ltb i 64) fold_list = true) as H1 by (vm_compute; reflexivity).
    assert (forallb (fun i => existsb (Nat.eqb i) fold_list) (seq 0 64) = true) as H2 by (vm_compute; reflexivity).
    rewrite forallb_forall in H1, H2. intros i; split; intros Hi.
    + apply H1 in Hi. apply Nat.ltb_lt in Hi. apply in_seq; lia.
    + apply H2 in Hi. apply existsb_exists in Hi. destruct Hi as [j [Hj E]]. apply Nat.eqb_eq in E. now subst.
Qed.
Lemma parity_portable_correct x : u64 x -> parity_portable x = Nat.odd (weight x).
Proof.
  intros H. unfold parity_portable. rewrite xor_fold_spec, (xorall_perm _ _ _ fold_list_perm), xorall_parity.
  f_equal. unfold weight. rewrite (ones_seq x 64); [reflexivity|].
  pose proof (size_nat_size x). assert (N.size x <= 64) by (apply size_lt_pow; exact H). lia.
Qed.
Lemma parity_correct x : parity x = Nat.odd (weight x).
Proof. unfold parity. now rewrite weight_popcount. Qed.

(** ** portable ctz *)
Lemma land_ones_0 i k : (N.land i (N.ones k) =? 0) = true <-> (forall j, j < k -> N.testbit i j = false).
Proof.
  rewrite N.eqb_eq. split.
  - intros H j Hj. assert (N.testbit (N.land i (N.ones k)) j = false) as E by (rewrite H; apply N.bits_0).
    rewrite N.land_spec, N.ones_spec_low, andb_true_r in E by exact Hj. exact E.
  - intros H. apply N.bits_inj. intros j. rewrite N.land_spec, N.bits_0.
    destruct (N.lt_ge_cases j k) as [Hj|Hj]; [rewrite H by exact Hj; reflexivity|].
    rewrite N.ones_spec_high by exact Hj. apply andb_false_r.
Qed.
Lemma ctz_testbit x z : ctz x = Some z <->
  N.testbit x (N.of_nat z) = true /\ (forall j, j < N.of_nat z -> N.testbit x j = false).
Proof.
  split.
  - intros H. rewrite ctz_ones in H. destruct (ones x) as [|p ps] eqn:E; [discriminate|]. injection H as ->.
    split.
    + apply in_ones. rewrite E. now left.
    + intros j Hj. destruct (N.testbit x j) eqn:F; [|reflexivity]. exfalso.
      rewrite <- (N2Nat.id j) in F. apply in_ones in F. rewrite E in F.
      pose proof (ones_sorted x) as S. rewrite E in S. inversion S as [|? ? _ Hall]; subst.
      rewrite Forall_forall in Hall. destruct F as [F|F]; [lia|]. apply Hall in F. lia.
  - intros [H1 H2]. rewrite ctz_ones. destruct (ones x) as [|p ps] eqn:E.
    + apply in_ones in H1. rewrite E in H1. destruct H1.
    + simpl. f_equal. apply in_ones in H1. rewrite E in H1.
      pose proof (ones_sorted x) as S. rewrite E in S. inversion S as [|? ? _ Hall]; subst.
      rewrite Forall_forall in Hall. destruct H1 as [H1|H1]; [exact H1|]. exfalso.
      specialize (Hall _ H1). assert (In p (ones x)) as Hp by (rewrite E; now left).
      apply in_ones in Hp. rewrite H2 in Hp by lia. discriminate.
Qed.

(** invariant: n counts 1 + bits removed; lowest set bit of i is at position z - (n-1) < w *)
Lemma ctz_step_spec sh n i z :
  n >= 1 -> ctz i = Some z -> N.of_nat z < sh + sh ->
  exists z', let '(n', i') := ctz_step (N.ones sh) sh (n, i) in
    n' >= 1 /\ ctz i' = Some z' /\ N.of_nat z' < sh /\ n' + N.of_nat z' = n + N.of_nat z.
Proof.
  intros Hn Hc Hz. unfold ctz_step. destruct (N.land i (N.ones sh) =? 0) eqn:E.
  - rewrite land_ones_0 in E. apply ctz_testbit in Hc. destruct Hc as [H1 H2].
    assert (sh <= N.of_nat z) as Hle.
    { destruct (N.le_gt_cases sh (N.of_nat z)) as [Hl|Hl]; [exact Hl|]. rewrite E in H1 by exact Hl. discriminate. }
    exists (z - N.to_nat sh)%nat. split; [lia|]. split; [|lia].
    apply ctz_testbit. split.
    + rewrite N.shiftr_spec'. replace (N.of_nat (z - N.to_nat sh) + sh) with (N.of_nat z) by lia. exact H1.
    + intros j Hj. rewrite N.shiftr_spec'. apply H2. lia.
  - exists z. split; [exact Hn|]. split; [exact Hc|]. split; [|reflexivity].
    destruct (N.lt_ge_cases (N.of_nat z) sh) as [Hl|Hl]; [exact Hl|]. exfalso.
    apply not_true_iff_false in E. apply E. apply land_ones_0. intros j Hj.
    apply ctz_testbit in Hc. apply Hc. lia.
Qed.
Lemma ctz_portable_correct x : u64 x -> x <> 0 -> ctz x = Some (N.to_nat (ctz_portable x)).
Proof.
  intros H H0. assert (exists z, ctz x = Some z) as [z Hz] by (destruct x; [contradiction|eexists; reflexivity]).
  rewrite Hz. f_equal. unfold ctz_portable.
  assert (N.of_nat z < 32 + 32) as Hz64.
  { pose proof Hz as Hz'. apply ctz_testbit in Hz'. destruct Hz' as [Hb _].
    destruct (N.lt_ge_cases (N.of_nat z) 64) as [Hl|Hl]; [exact Hl|].
    unfold u64 in H. rewrite bits_lt_pow in H. rewrite H in Hb by exact Hl. discriminate. }
  change 0xffffffff with (N.ones 32). change 0x0000ffff with (N.ones 16). change 0x000000ff with (N.ones 8).
  change 0x0000000f with (N.ones 4). change 0x00000003 with (N.ones 2).
  assert (1 >= 1) as Hn0 by lia.
  destruct (ctz_step_spec 32 1 x z Hn0 Hz Hz64) as [z1 S1].
  destruct (ctz_step (N.ones 32) 32 (1, x)) as [n1 i1]. destruct S1 as [Hn1 [Hc1 [Hl1 He1]]].
  destruct (ctz_step_spec 16 n1 i1 z1 Hn1 Hc1 Hl1) as [z2 S2].
  destruct (ctz_step (N.ones 16) 16 (n1, i1)) as [n2 i2]. destruct S2 as [Hn2 [Hc2 [Hl2 He2]]].
  destruct (ctz_step_spec 8 n2 i2 z2 Hn2 Hc2 Hl2) as [z3 S3].
  destruct (ctz_step (N.ones 8) 8 (n2, i2)) as [n3 i3]. destruct S3 as [Hn3 [Hc3 [Hl3 He3]]].
  destruct (ctz_step_spec 4 n3 i3 z3 Hn3 Hc3 Hl3) as [z4 S4].
  destruct (ctz_step (N.ones 4) 4 (n3, i3)) as [n4 i4]. destruct S4 as [Hn4 [Hc4 [Hl4 He4]]].
  destruct (ctz_step_spec 2 n4 i4 z4 Hn4 Hc4 Hl4) as [z5 S5].
  destruct (ctz_step (N.ones 2) 2 (n4, i4)) as [n5 i5]. destruct S5 as [Hn5 [Hc5 [Hl5 He5]]].
  assert (N.land i5 1 = if Nat.eqb z5 0 then 1 else 0) as El.
  { apply ctz_testbit in Hc5. destruct Hc5 as [B1 B2]. destruct (Nat.eqb_spec z5 0) as [->|Hne].
    - apply N.bits_inj. intros j. rewrite N.land_spec. change 1 with (2 ^ 0). rewrite testbit_pow2.
      destruct (N.eqb_spec j 0) as [->|Hj]; [now rewrite andb_true_r|apply andb_false_r].
    - specialize (B2 0 ltac:(lia)). apply N.bits_inj. intros j. rewrite N.land_spec. change 1 with (2 ^ 0).
      rewrite testbit_pow2, N.bits_0. destruct (N.eqb_spec j 0) as [->|Hj]; [now rewrite B2|apply andb_false_r]. }
  rewrite El. destruct (Nat.eqb_spec z5 0); lia.
Qed.

(** ** the portable popcount *)
Lemma popcount_portable_2 : popcount_portable 2 <> N.of_nat (weight 2).
Proof. vm_compute. discriminate. Qed.
