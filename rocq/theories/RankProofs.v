From Coq Require Import NArith List Bool Lia Arith Sorted ZifyBool ZifyNat ZifyN.
From Verif Require Import BitsModel BitsSpec BitsProofs RankModel RankSpec.
Import ListNotations.
Open Scope N_scope.

(** ** binomials *)
Lemma binom_0_r n : binom n 0 = 1.
Proof. destruct n; reflexivity. Qed.
Lemma binom_SS n k : binom (S n) (S k) = binom n k + binom n (S k).
Proof. reflexivity. Qed.
Lemma binom_gt n : forall k, (n < k)%nat -> binom n k = 0.
Proof.
  induction n as [|n IH]; intros k H; destruct k as [|k]; try lia; [reflexivity|].
  rewrite binom_SS, !IH by lia. reflexivity.
Qed.
Lemma binom_nn n : binom n n = 1.
Proof. induction n as [|n IH]; [reflexivity|]. rewrite binom_SS, IH, binom_gt by lia. reflexivity. Qed.
Lemma binom_pos n : forall k, (k <= n)%nat -> 0 < binom n k.
Proof.
  induction n as [|n IH]; intros k H; destruct k as [|k]; try lia; cbn [binom]; try lia.
  specialize (IH k ltac:(lia)). lia.
Qed.
(** absorption: (k+1) C(n,k+1) = (n-k) C(n,k) *)
Lemma binom_absorb n : forall k, (k <= n)%nat -> N.of_nat (S k) * binom n (S k) = N.of_nat (n - k) * binom n k.
Proof.
  induction n as [|n IH]; intros k H.
  - assert (k = 0)%nat by lia; subst. reflexivity.
  - rewrite binom_SS. destruct k as [|k].
    + rewrite !binom_0_r. specialize (IH 0%nat ltac:(lia)). rewrite binom_0_r in IH. lia.
    + rewrite (binom_SS n k).
      destruct (Nat.eq_dec (S k) (S n)) as [E|E].
      * injection E as ->. rewrite (binom_gt n (S n)), (binom_gt n (S (S n))) by lia.
        rewrite Nat.sub_diag. lia.
      * pose proof (IH k ltac:(lia)) as H1. pose proof (IH (S k) ltac:(lia)) as H2.
        replace (S n - S k)%nat with (n - k)%nat by lia.
        replace (N.of_nat (n - S k)) with (N.of_nat (n - k) - 1) in H2 by lia.
        assert (1 <= N.of_nat (n - k)) by lia.
        assert (N.of_nat (n - k) = (N.of_nat (n - k) - 1) + 1) as E2 by lia.
        rewrite E2. rewrite E2 in H1.
        set (q := N.of_nat (n - k) - 1) in *. set (B := binom n (S k)) in *.
        set (A := binom n k) in *. set (D := binom n (S (S k))) in *.
        rewrite !Nat2N.inj_succ in *. nia.
Qed.
Lemma binom_sym n : forall k, (k <= n)%nat -> binom n (n - k) = binom n k.
Proof.
  induction n as [|n IH]; intros k H; [assert (k=0)%nat by lia; subst; reflexivity|].
  destruct k as [|k].
  - rewrite Nat.sub_0_r, binom_nn, binom_0_r. reflexivity.
  - destruct (Nat.eq_dec k n) as [->|E].
    + replace (S n - S n)%nat with 0%nat by lia. rewrite binom_nn, binom_0_r; reflexivity.
    + replace (S n - S k)%nat with (S (n - S k)) by lia. rewrite !binom_SS.
      rewrite (IH (S k)) by lia. replace (S (n - S k)) with (n - k)%nat by lia. rewrite IH by lia. lia.
Qed.

(** the code's loop: no intermediate product overflows => exact *)
Lemma binomial_loop_exact n : forall cnt i,
  (i + cnt <= n)%nat ->
  (forall j, (i <= j < i + cnt)%nat -> N.of_nat (S j) * binom n (S j) < 2 ^ 64) ->
  binomial_loop n cnt i (binom n i) = binom n (i + cnt).
Proof.
  induction cnt as [|cnt IH]; intros i H Hno.
  - rewrite Nat.add_0_r. reflexivity.
  - cbn [binomial_loop].
    assert (binom n i * N.of_nat (n - i) = N.of_nat (S i) * binom n (S i)) as E
        by (rewrite binom_absorb by lia; lia).
    rewrite E, w64_small by (apply Hno; lia).
    replace (N.of_nat (i + 1)) with (N.of_nat (S i)) by lia.
    rewrite (N.mul_comm (N.of_nat (S i))), N.div_mul by lia.
    rewrite IH; [f_equal; lia|lia|]. intros j Hj; apply Hno; lia.
Qed.

(** rows of Pascal's triangle, computed efficiently *)
Fixpoint next_row (prev : N) (r : list N) : list N :=
  match r with [] => [prev] | x :: r' => prev + x :: next_row x r' end.
Fixpoint pascal (n : nat) : list N :=
  match n with O => [1] | S n' => next_row 0 (pascal n') end.
Lemma next_row_nth r : forall prev k,
  nth k (next_row prev r) 0 = (match k with O => prev | S k' => nth k' r 0 end) + nth k r 0.
Proof.
  induction r as [|x r IH]; intros prev k; simpl.
  - destruct k as [|k]; [lia|]. destruct k; reflexivity.
  - destruct k as [|k]; [reflexivity|]. rewrite IH. destruct k; reflexivity.
Qed.
Lemma pascal_nth n : forall k, nth k (pascal n) 0 = binom n k.
Proof.
  induction n as [|n IH]; intros k.
  - destruct k as [|k]; [reflexivity|]. destruct k; reflexivity.
  - simpl pascal. rewrite next_row_nth, IH. destruct k as [|k]; [rewrite binom_0_r; reflexivity|].
    rewrite IH. reflexivity.
Qed.
Definition row_ok (n : nat) : bool :=
  let r := pascal n in
  forallb (fun j => N.of_nat (S j) * nth (S j) r 0 <? 2 ^ 64) (seq 0 (n / 2)).
Lemma rows_ok : forallb row_ok (seq 0 63) = true.
Proof. vm_compute. reflexivity. Qed.
Lemma no_overflow_62 n j : (n <= 62)%nat -> (j < n / 2)%nat -> N.of_nat (S j) * binom n (S j) < 2 ^ 64.
Proof.
  intros Hn Hj. pose proof rows_ok as H. rewrite forallb_forall in H.
  specialize (H n ltac:(apply in_seq; lia)). unfold row_ok in H. rewrite forallb_forall in H.
  specialize (H j ltac:(apply in_seq; lia)). rewrite pascal_nth in H. now apply N.ltb_lt in H.
Qed.
Lemma binomial_exact_gen n k :
  (forall j, (j < n / 2)%nat -> (j < k)%nat -> (j < n - k)%nat -> N.of_nat (S j) * binom n (S j) < 2 ^ 64) ->
  binomial n k = binom n k.
Proof.
  intros Hno. unfold binomial. destruct (Nat.ltb_spec n k) as [H|H].
  - symmetry; now apply binom_gt.
  - pose proof (Nat.div_mod n 2 ltac:(lia)) as Hdm. pose proof (Nat.mod_upper_bound n 2 ltac:(lia)) as Hmu.
    destruct (Nat.ltb_spec (n / 2) k) as [H1|H1].
    + change 1 with (binom 0 0). replace (binom 0 0) with (binom n 0) by apply binom_0_r.
      rewrite binomial_loop_exact; [apply binom_sym; lia|lia|]. intros j Hj. apply Hno; lia.
    + change 1 with (binom 0 0). replace (binom 0 0) with (binom n 0) by apply binom_0_r.
      rewrite binomial_loop_exact; [reflexivity|lia|]. intros j Hj. apply Hno; lia.
Qed.
Lemma binomial_exact n k : (n <= 62)%nat -> binomial n k = binom n k.
Proof. intros Hn. apply binomial_exact_gen. intros j H _ _. now apply no_overflow_62. Qed.

(** all coefficients with n <= 63 fit into 64 bits: sum of a row is 2^n *)
Lemma binom_le_pow n : forall k, binom n k <= 2 ^ N.of_nat n.
Proof.
  (* stronger: binom n k + binom n (k+1) <= 2^n for n >= 1 *)
  assert (forall n k, binom (S n) k + binom (S n) (S k) <= 2 ^ N.of_nat (S n)) as HH.
  { clear n. induction n as [|n IH]; intros k.
    - destruct k as [|[|k]]; cbn [binom]; rewrite ?binom_0_r; cbn; lia.
    - replace (2 ^ N.of_nat (S (S n))) with (2 * 2 ^ N.of_nat (S n)) by (rewrite (Nat2N.inj_succ (S n)), N.pow_succ_r'; lia).
      rewrite (binom_SS (S n) k). destruct k as [|k].
      + rewrite !binom_0_r. specialize (IH 0%nat). rewrite binom_0_r in IH. lia.
      + rewrite (binom_SS (S n) k). pose proof (IH k). pose proof (IH (S k)). lia. }
  intros k. destruct n as [|n].
  - destruct k; cbn; lia.
  - specialize (HH n k). lia.
Qed.

(** ** counting *)
Lemma below_split a b : below (a + b) = below a ++ map (N.add a) (below b).
Proof.
  unfold below. rewrite N2Nat.inj_add, seq_app, map_app. f_equal.
  rewrite map_map. rewrite Nat.add_0_l.
  assert (forall n s, map N.of_nat (seq (N.to_nat a + s) n) = map (fun x => a + N.of_nat x) (seq s n)) as H.
  { induction n as [|n IH]; intros s; simpl; [reflexivity|]. f_equal; [lia|].
    rewrite <- IH. f_equal. f_equal. lia. }
  rewrite <- H. rewrite Nat.add_0_r. reflexivity.
Qed.
Lemma in_below y x : In y (below x) <-> y < x.
Proof.
  unfold below. rewrite in_map_iff. split.
  - intros [i [<- Hi]]. apply in_seq in Hi. lia.
  - intros H. exists (N.to_nat y). split; [lia|]. apply in_seq. lia.
Qed.
Lemma filter_ext_in' {A} (f g : A -> bool) l : (forall a, In a l -> f a = g a) -> filter f l = filter g l.
Proof. apply filter_ext_in. Qed.
Lemma filter_none {A} (l : list A) : filter (fun _ => false) l = [].
Proof. induction l; auto. Qed.
Lemma filter_map_comm {A B} (f : B -> bool) (g : A -> B) l :
  filter f (map g l) = map g (filter (fun a => f (g a)) l).
Proof. induction l as [|x l IH]; simpl; [reflexivity|]. destruct (f (g x)); simpl; now rewrite IH. Qed.

Lemma ones_app k : forall b a, b < 2 ^ N.of_nat k ->
  ones (b + 2 ^ N.of_nat k * a) = ones b ++ map (Nat.add k) (ones a).
Proof.
  induction k as [|k IH]; intros b a Hb.
  - assert (b = 0) by (change (2 ^ N.of_nat 0) with 1 in Hb; lia). subst.
    change (2 ^ N.of_nat 0) with 1. rewrite N.mul_1_l, N.add_0_l, ones_0. simpl.
    symmetry. apply map_id.
  - assert (2 ^ N.of_nat (S k) = 2 * 2 ^ N.of_nat k) as E by (rewrite Nat2N.inj_succ, N.pow_succ_r'; lia).
    rewrite E in *. destruct (N.even b) eqn:Hp.
    + apply N.even_spec in Hp. destruct Hp as [b' ->].
      replace (2 * b' + 2 * 2 ^ N.of_nat k * a) with (2 * (b' + 2 ^ N.of_nat k * a)) by lia.
      rewrite !ones_double, IH by lia. rewrite map_app, map_map. reflexivity.
    + assert (N.odd b = true) as Ho by (rewrite <- N.negb_even, Hp; reflexivity).
      apply N.odd_spec in Ho. destruct Ho as [b' ->].
      replace (2 * b' + 1 + 2 * 2 ^ N.of_nat k * a) with (2 * (b' + 2 ^ N.of_nat k * a) + 1) by lia.
      rewrite !ones_succ_double, IH by lia. rewrite map_app, map_map. reflexivity.
Qed.
Lemma ones_pow m : ones (2 ^ N.of_nat m) = [m].
Proof.
  replace (2 ^ N.of_nat m) with (0 + 2 ^ N.of_nat m * 1) by lia.
  rewrite ones_app by (assert (2 ^ N.of_nat m <> 0) by (apply N.pow_nonzero; lia); lia).
  rewrite ones_0. change (ones 1) with [0%nat]. simpl. now rewrite Nat.add_0_r.
Qed.
Lemma ones_top m x : x < 2 ^ N.of_nat m -> ones (2 ^ N.of_nat m + x) = ones x ++ [m].
Proof.
  intros H. replace (2 ^ N.of_nat m + x) with (x + 2 ^ N.of_nat m * 1) by lia.
  rewrite ones_app by exact H. change (ones 1) with [0%nat]. simpl. now rewrite Nat.add_0_r.
Qed.
Lemma ones_full m : ones (full_mask m) = seq 0 m.
Proof.
  unfold full_mask. induction m as [|m IH]; [reflexivity|].
  assert (2 ^ N.of_nat m <> 0) by (apply N.pow_nonzero; lia).
  replace (2 ^ N.of_nat (S m) - 1) with (2 ^ N.of_nat m + (2 ^ N.of_nat m - 1))
    by (rewrite Nat2N.inj_succ, N.pow_succ_r'; lia).
  rewrite ones_top by lia. rewrite IH, seq_S. reflexivity.
Qed.
Lemma weight_top m x : x < 2 ^ N.of_nat m -> weight (2 ^ N.of_nat m + x) = S (weight x).
Proof. intros H. unfold weight. rewrite ones_top by exact H. rewrite app_length. simpl. lia. Qed.

Lemma count_below_split K a b :
  count_below K (a + b) =
  count_below K a + N.of_nat (length (filter (fun y => (weight (a + y) =? K)%nat) (below b))).
Proof.
  unfold count_below. rewrite below_split, filter_app, app_length, filter_map_comm, map_length. lia.
Qed.
Lemma count_below_top K m x : x <= 2 ^ N.of_nat m ->
  count_below (S K) (2 ^ N.of_nat m + x) = count_below (S K) (2 ^ N.of_nat m) + count_below K x.
Proof.
  intros H. rewrite count_below_split. f_equal. unfold count_below. f_equal. f_equal.
  apply filter_ext_in. intros y Hy. apply in_below in Hy. rewrite weight_top by lia. reflexivity.
Qed.
Lemma count_below_top0 m x : x <= 2 ^ N.of_nat m ->
  count_below 0 (2 ^ N.of_nat m + x) = count_below 0 (2 ^ N.of_nat m).
Proof.
  intros H. rewrite count_below_split.
  rewrite (filter_ext_in' _ (fun _ => false)).
  - rewrite filter_none. simpl. lia.
  - intros y Hy. apply in_below in Hy. rewrite weight_top by lia. reflexivity.
Qed.
Lemma count_below_pow m : forall K, count_below K (2 ^ N.of_nat m) = binom m K.
Proof.
  induction m as [|m IH]; intros K.
  - destruct K; reflexivity.
  - replace (2 ^ N.of_nat (S m)) with (2 ^ N.of_nat m + 2 ^ N.of_nat m) by (rewrite Nat2N.inj_succ, N.pow_succ_r'; lia).
    destruct K as [|K].
    + rewrite count_below_top0, IH, !binom_0_r by lia. reflexivity.
    + rewrite count_below_top, !IH by lia. rewrite binom_SS. lia.
Qed.

(** the combinatorial number system *)
Fixpoint csum (k0 : nat) (l : list nat) : N :=
  match l with [] => 0 | c :: cs => binom c (S k0) + csum (S k0) cs end.
Lemma csum_app k0 l1 l2 : csum k0 (l1 ++ l2) = csum k0 l1 + csum (k0 + length l1) l2.
Proof.
  revert k0; induction l1 as [|c l1 IH]; intros k0; simpl.
  - rewrite Nat.add_0_r. lia.
  - rewrite IH. replace (k0 + S (length l1))%nat with (S k0 + length l1)%nat by lia. lia.
Qed.
Lemma top_ind (P : N -> Prop) :
  P 0 -> (forall m x, x < 2 ^ N.of_nat m -> P x -> P (2 ^ N.of_nat m + x)) -> forall n, P n.
Proof.
  intros H0 H1 n.
  assert (forall k n, n < 2 ^ N.of_nat k -> P n) as HH.
  { induction k as [|k IH]; intros x Hx.
    - change (2 ^ N.of_nat 0) with 1 in Hx. replace x with 0 by lia. exact H0.
    - replace (2 ^ N.of_nat (S k)) with (2 * 2 ^ N.of_nat k) in Hx by (rewrite Nat2N.inj_succ, N.pow_succ_r'; lia).
      destruct (N.lt_ge_cases x (2 ^ N.of_nat k)) as [Hl|Hl]; [now apply IH|].
      replace x with (2 ^ N.of_nat k + (x - 2 ^ N.of_nat k)) by lia.
      apply H1; [lia|]. apply IH. lia. }
  apply (HH (N.size_nat n)). rewrite size_nat_size. apply N.size_gt.
Qed.
Lemma count_below_csum x : count_below (weight x) x = csum 0 (ones x).
Proof.
  induction x as [|m x Hx IH] using top_ind.
  - reflexivity.
  - rewrite weight_top, count_below_top, count_below_pow, IH by lia.
    rewrite ones_top, csum_app by exact Hx. simpl. unfold weight. lia.
Qed.

Lemma below_sorted x : StronglySorted N.lt (below x).
Proof.
  unfold below. assert (forall n s, StronglySorted N.lt (map N.of_nat (seq s n))) as H.
  { induction n as [|n IH]; intros s; simpl; constructor; auto.
    apply Forall_forall. intros y Hy. apply in_map_iff in Hy. destruct Hy as [i [<- Hi]]. apply in_seq in Hi. lia. }
  apply H.
Qed.
Lemma count_below_mono K a b : a <= b -> count_below K a <= count_below K b.
Proof. intros H. replace b with (a + (b - a)) by lia. rewrite count_below_split. lia. Qed.
Lemma count_below_strict K a b : weight a = K -> a < b -> count_below K a < count_below K b.
Proof.
  intros Hw H. assert (count_below K (a + 1) = count_below K a + 1) as E.
  { rewrite count_below_split. change (below 1) with [0]. cbn [filter]. rewrite N.add_0_r, Hw, Nat.eqb_refl. reflexivity. }
  pose proof (count_below_mono K (a + 1) b ltac:(lia)). lia.
Qed.
Lemma count_below_inj K a b : weight a = K -> weight b = K -> count_below K a = count_below K b -> a = b.
Proof.
  intros Ha Hb H. destruct (N.lt_trichotomy a b) as [L|[L|L]]; [|exact L|].
  - pose proof (count_below_strict K a b Ha L). lia.
  - pose proof (count_below_strict K b a Hb L). lia.
Qed.

(** ** next_state *)
Lemma lor_pred x z : ctz x = Some z -> N.lor x (x - 1) + 1 = x + 2 ^ N.of_nat z.
Proof.
  revert z. induction x as [|n Hn IH|n IH] using bin_ind; intros z Hz.
  - discriminate.
  - rewrite ctz_double in Hz by exact Hn. destruct (ctz n) as [y|]; [|discriminate]. injection Hz as <-.
    rewrite pred_double by exact Hn.
    assert (N.lor (2 * n) (2 * (n - 1) + 1) = 2 * N.lor n (n - 1) + 1) as E.
    { destruct n as [|p]; [lia|]. destruct (N.pos p - 1); reflexivity. }
    rewrite E. specialize (IH y eq_refl). rewrite Nat2N.inj_succ, N.pow_succ_r'. lia.
  - rewrite ctz_succ_double in Hz. injection Hz as <-.
    replace (2 * n + 1 - 1) with (2 * n) by lia.
    assert (N.lor (2 * n + 1) (2 * n) = 2 * n + 1) as E.
    { assert (N.lor (2 * n + 1) (2 * n) = 2 * N.lor n n + 1) as -> by (destruct n; reflexivity).
      rewrite N.lor_diag. reflexivity. }
    rewrite E. change (2 ^ N.of_nat 0) with 1. lia.
Qed.
Lemma trailing_ones n : exists A m, n = (2 ^ N.of_nat m - 1) + 2 ^ N.of_nat (S m) * A.
Proof.
  induction n as [|n Hn IH|n IH] using bin_ind.
  - exists 0, 0%nat. reflexivity.
  - exists n, 0%nat. change (2 ^ N.of_nat 0) with 1. change (2 ^ N.of_nat 1) with 2. lia.
  - destruct IH as [A [m IH]]. exists A, (S m).
    assert (2 ^ N.of_nat m <> 0) by (apply N.pow_nonzero; lia).
    rewrite !Nat2N.inj_succ, !N.pow_succ_r' in *. lia.
Qed.
Lemma pow_pos_N k : 0 < 2 ^ k.
Proof. assert (2 ^ k <> 0) by (apply N.pow_nonzero; lia). lia. Qed.

Lemma decompose x : 0 < x -> exists A m z,
  (0 < m)%nat /\ ctz x = Some z /\
  x = 2 ^ N.of_nat z * ((2 ^ N.of_nat m - 1) + 2 ^ N.of_nat (S m) * A).
Proof.
  induction x as [|n Hn IH|n IH] using bin_ind; intros H.
  - lia.
  - destruct (IH Hn) as [A [m [z [Hm [Hc E]]]]]. exists A, m, (S z).
    split; [exact Hm|]. split; [rewrite ctz_double, Hc by exact Hn; reflexivity|].
    rewrite Nat2N.inj_succ, N.pow_succ_r'. rewrite E at 1. lia.
  - destruct (trailing_ones n) as [A [m E]]. exists A, (S m), 0%nat.
    split; [lia|]. split; [apply ctz_succ_double|].
    change (2 ^ N.of_nat 0) with 1. pose proof (pow_pos_N (N.of_nat m)).
    rewrite !Nat2N.inj_succ, !N.pow_succ_r' in *. lia.
Qed.

Lemma ones_mul_pow z x : ones (2 ^ N.of_nat z * x) = map (Nat.add z) (ones x).
Proof.
  replace (2 ^ N.of_nat z * x) with (0 + 2 ^ N.of_nat z * x) by lia.
  rewrite ones_app by apply pow_pos_N. reflexivity.
Qed.
Lemma map_add_seq z a n : map (Nat.add z) (seq a n) = seq (z + a) n.
Proof.
  revert a; induction n as [|n IH]; intros a; simpl; [reflexivity|]. f_equal. rewrite IH. f_equal. lia.
Qed.
Lemma map_add_add a b l : map (Nat.add a) (map (Nat.add b) l) = map (Nat.add (a + b)) l.
Proof. rewrite map_map. apply map_ext. intros; lia. Qed.

Lemma land_not64 x b : u64 x -> u64 b -> N.land x (not64 b) = N.ldiff x b.
Proof.
  intros Hx Hb. apply N.bits_inj. intros i. unfold not64. rewrite N.land_spec, N.ldiff_spec, N.lxor_spec.
  destruct (N.lt_ge_cases i 64) as [H|H].
  - rewrite N.ones_spec_low by exact H. destruct (N.testbit x i), (N.testbit b i); reflexivity.
  - unfold u64 in Hx. rewrite bits_lt_pow in Hx. rewrite Hx by exact H. reflexivity.
Qed.

Lemma testbit_by_ones n i : N.testbit n (N.of_nat i) = existsb (Nat.eqb i) (ones n).
Proof.
  destruct (N.testbit n (N.of_nat i)) eqn:E; symmetry.
  - apply existsb_exists. exists i. split; [now apply in_ones|apply Nat.eqb_refl].
  - apply not_true_is_false. intros H. apply existsb_exists in H. destruct H as [j [Hj Hij]].
    apply Nat.eqb_eq in Hij. subst j. apply in_ones in Hj. congruence.
Qed.

Lemma next_state_ones x A m z :
  (0 < m)%nat -> ctz x = Some z ->
  x = 2 ^ N.of_nat z * ((2 ^ N.of_nat m - 1) + 2 ^ N.of_nat (S m) * A) ->
  x < 2 ^ 63 ->
  exists x', next_state x = Some x' /\
    ones x = seq z m ++ map (Nat.add (z + S m)) (ones A) /\
    ones x' = seq 0 (m - 1) ++ (z + m)%nat :: map (Nat.add (z + S m)) (ones A) /\
    x < x' /\ x' < 2 ^ 64.
Proof.
  intros Hm Hc E Hx.
  assert (0 < x) as H0 by (destruct x; [discriminate|lia]).
  pose proof (pow_pos_N (N.of_nat z)) as Pz. pose proof (pow_pos_N (N.of_nat m)) as Pm.
  assert (2 ^ N.of_nat m - 1 < 2 ^ N.of_nat (S m)) as Hlt
      by (rewrite Nat2N.inj_succ, N.pow_succ_r'; lia).
  assert (ones x = seq z m ++ map (Nat.add (z + S m)) (ones A)) as Ox.
  { rewrite E, ones_mul_pow, ones_app by exact Hlt. fold (full_mask m). rewrite ones_full, map_app, map_add_seq, map_add_add.
    rewrite Nat.add_0_r. reflexivity. }
  assert (z < 63)%nat as Hz.
  { assert (In z (ones x)) by (rewrite Ox; apply in_or_app; left; apply in_seq; lia).
    change (2 ^ 63) with (2 ^ N.of_nat 63) in Hx. rewrite ones_lt in Hx. now apply Hx. }
  assert (2 ^ N.of_nat z <= x) as Hzx.
  { rewrite E. assert (1 <= (2 ^ N.of_nat m - 1) + 2 ^ N.of_nat (S m) * A).
    { assert (2 ^ N.of_nat 1 <= 2 ^ N.of_nat m) as HH by (apply N.pow_le_mono_r; lia). change (2 ^ N.of_nat 1) with 2 in HH. lia. }
    nia. }
  set (x1 := (2 ^ N.of_nat (m - 1) - 1) + 2 ^ N.of_nat (z + m) * (1 + 2 * A)).
  assert (2 ^ N.of_nat (m - 1) - 1 < 2 ^ N.of_nat (z + m)) as Hlt2.
  { assert (2 ^ N.of_nat (m - 1) <= 2 ^ N.of_nat (z + m)) by (apply N.pow_le_mono_r; lia).
    pose proof (pow_pos_N (N.of_nat (m - 1))). lia. }
  assert (ones x1 = seq 0 (m - 1) ++ (z + m)%nat :: map (Nat.add (z + S m)) (ones A)) as Ox1.
  { unfold x1. rewrite ones_app by exact Hlt2. fold (full_mask (m - 1)). rewrite ones_full.
    replace (1 + 2 * A) with (2 * A + 1) by lia. rewrite ones_succ_double. simpl. rewrite Nat.add_0_r.
    f_equal. f_equal. rewrite map_map. apply map_ext. intros; lia. }
  assert (x + 2 ^ N.of_nat z = 2 ^ N.of_nat (z + m) * (1 + 2 * A)) as Eb.
  { rewrite E. rewrite Nat2N.inj_add, N.pow_add_r, Nat2N.inj_succ, N.pow_succ_r'. nia. }
  exists x1. split; [|split; [exact Ox|split; [exact Ox1|]]].
  - unfold next_state. rewrite sub64_ge by (unfold u64; lia).
    rewrite (lor_pred x z Hc).
    assert (u64 (x + 2 ^ N.of_nat z)) as Hb by (unfold u64; change (2 ^ 64) with (2 ^ 63 + 2 ^ 63); lia).
    rewrite w64_small by exact Hb.
    rewrite land_not64 by (unfold u64 in *; lia).
    rewrite Hc. cbn [obind]. destruct (Nat.leb_spec 64 (z + 1)) as [L|L]; [lia|]. f_equal.
    apply testbit_nat_ext. intros i.
    rewrite N.lor_spec, N.shiftr_spec', N.ldiff_spec.
    replace (N.of_nat i + N.of_nat (z + 1)) with (N.of_nat (i + (z + 1))) by lia.
    rewrite !testbit_by_ones, Eb, Ox, Ox1.
    rewrite ones_mul_pow. replace (1 + 2 * A) with (2 * A + 1) by lia. rewrite ones_succ_double.
    cbn [map]. rewrite map_map.
    rewrite !existsb_app. cbn [existsb]. rewrite Nat.add_0_r.
    rewrite (map_ext (fun x0 => (z + m + S x0)%nat) (Nat.add (z + S m))) by (intros; lia).
    set (T := fun j => existsb (Nat.eqb j) (map (Nat.add (z + S m)) (ones A))).
    change (existsb (Nat.eqb i) (map (Nat.add (z + S m)) (ones A))) with (T i).
    change (existsb (Nat.eqb (i + (z + 1))) (map (Nat.add (z + S m)) (ones A))) with (T (i + (z + 1))%nat).
    assert (forall j a n, existsb (Nat.eqb j) (seq a n) = (Nat.leb a j && Nat.ltb j (a + n))) as Hseq.
    { intros j a n. apply eq_true_iff_eq. rewrite existsb_exists, andb_true_iff, Nat.leb_le, Nat.ltb_lt. split.
      - intros [k [Hk1 Hk2]]. apply in_seq in Hk1. apply Nat.eqb_eq in Hk2. lia.
      - intros Hj. exists j. split; [apply in_seq; lia|apply Nat.eqb_refl]. }
    assert (forall j, (j < z + S m)%nat -> T j = false) as HT.
    { intros j Hj. unfold T. apply not_true_is_false. intros F. apply existsb_exists in F.
      destruct F as [k [Hk1 Hk2]]. apply in_map_iff in Hk1. destruct Hk1 as [k' [<- _]]. apply Nat.eqb_eq in Hk2. lia. }
    rewrite !Hseq.
    destruct (Nat.leb_spec z (i + (z + 1))); [|lia].
    destruct (Nat.ltb_spec (i + (z + 1)) (z + m)) as [L1|L1].
    + assert (T i = false) as -> by (apply HT; lia).
      assert (T (i + (z + 1))%nat = false) as -> by (apply HT; lia).
      destruct (Nat.eqb_spec i (z + m)); destruct (Nat.eqb_spec (i + (z + 1)) (z + m)); try lia.
    + destruct (Nat.ltb_spec i (0 + (m - 1))); [lia|].
      rewrite andb_false_r. simpl.
      destruct (T (i + (z + 1))%nat); simpl; rewrite ?andb_false_r, ?orb_true_r, ?orb_false_r; try reflexivity.
  - split.
    + rewrite E. unfold x1. rewrite Nat2N.inj_add, N.pow_add_r, Nat2N.inj_succ, N.pow_succ_r'. nia.
    + change (2 ^ 64) with (2 ^ N.of_nat 64). apply ones_lt. intros i Hi. rewrite Ox1 in Hi.
      apply in_app_or in Hi. change (2 ^ 63) with (2 ^ N.of_nat 63) in Hx. rewrite ones_lt in Hx.
      assert (In (z + m - 1)%nat (ones x)) as Hin by (rewrite Ox; apply in_or_app; left; apply in_seq; lia).
      apply Hx in Hin. destruct Hi as [Hi|[Hi|Hi]].
      * apply in_seq in Hi. lia.
      * lia.
      * assert (In i (ones x)) by (rewrite Ox; apply in_or_app; right; exact Hi). specialize (Hx i H). lia.
Qed.

Lemma hockey z m : csum 0 (seq z m) + 1 = binom (z + m) m.
Proof.
  induction m as [|m IH].
  - rewrite binom_0_r. reflexivity.
  - rewrite seq_S, csum_app. simpl. rewrite seq_length, Nat.add_succ_r, binom_SS. lia.
Qed.
Lemma csum_seq0 n : csum 0 (seq 0 n) = 0.
Proof. pose proof (hockey 0 n) as H. rewrite Nat.add_0_l, binom_nn in H. lia. Qed.

Lemma next_state_spec x : 0 < x -> x < 2 ^ 63 ->
  exists x', next_state x = Some x' /\ weight x' = weight x /\ x < x' /\ x' < 2 ^ 64 /\
    count_below (weight x) x' = count_below (weight x) x + 1.
Proof.
  intros H0 Hx. destruct (decompose x H0) as [A [m [z [Hm [Hc E]]]]].
  destruct (next_state_ones x A m z Hm Hc E Hx) as [x' [Hn [Ox [Ox' [Hlt Hu]]]]].
  assert (weight x' = weight x) as Hw.
  { unfold weight. rewrite Ox, Ox'. rewrite !app_length. simpl. rewrite map_length, !seq_length. lia. }
  exists x'. repeat split; auto.
  rewrite count_below_csum. rewrite <- Hw, count_below_csum.
  rewrite Ox, Ox', !csum_app. cbn [csum]. rewrite !seq_length, csum_seq0.
  pose proof (hockey z m) as Hk. replace (0 + (m - 1))%nat with (m - 1)%nat by lia.
  replace (S (m - 1)) with m by lia. replace (0 + m)%nat with m by lia. lia.
Qed.

(** ** combination ranking *)
Lemma flat_map_nth {A} (g : nat -> list A) w : (forall m, length (g m) = w) ->
  forall n s m k, (m < n)%nat -> (k < w)%nat ->
  nth_error (flat_map g (seq s n)) (m * w + k) = nth_error (g (s + m)%nat) k.
Proof.
  intros Hw. induction n as [|n IH]; intros s m k Hm Hk; [lia|].
  cbn [seq flat_map]. destruct m as [|m].
  - rewrite Nat.add_0_r. simpl. rewrite nth_error_app1 by (rewrite Hw; exact Hk). reflexivity.
  - rewrite nth_error_app2 by (rewrite Hw; lia). rewrite Hw.
    replace (S m * w + k - w)%nat with (m * w + k)%nat by lia. rewrite IH by lia. f_equal. f_equal. lia.
Qed.

Lemma cr_table_get p m n : (m < pM p)%nat -> (1 <= n <= n_counted (pM p) (pN p))%nat ->
  vec_get (cr_table (combination_ranking_init p))
    (N.of_nat (m * cr_counted (combination_ranking_init p) + (n - 1))) = Some (binomial m n).
Proof.
  intros Hm Hn. unfold vec_get, combination_ranking_init. cbn [cr_table cr_counted]. rewrite Nat2N.id.
  rewrite flat_map_nth; [|intros; now rewrite map_length, seq_length|exact Hm|lia].
  rewrite nth_error_map. rewrite nth_error_nth' with (d := 0%nat) by (rewrite seq_length; lia).
  rewrite seq_nth by lia. simpl. f_equal. f_equal. lia.
Qed.

Lemma cr_loop_spec p : (pM p <= 63)%nat -> forall l fuel index i k,
  ones index = l -> index < 2 ^ N.of_nat (pM p) -> (length l <= fuel)%nat ->
  (k + length l <= n_counted (pM p) (pN p))%nat -> i + csum k l < 2 ^ 64 ->
  cr_loop fuel (combination_ranking_init p) index i k = Some (i + csum k l).
Proof.
  intros HM. induction l as [|c l IH]; intros fuel index i k Ho Hi Hf Hk Hs.
  - apply ones_nil in Ho. subst index. destruct fuel; simpl; f_equal; lia.
  - assert (u64 index) as Hu.
    { unfold u64. assert (2 ^ N.of_nat (pM p) <= 2 ^ 63) as Hp by (apply N.pow_le_mono_r; lia).
      change (2 ^ 64) with (2 * 2 ^ 63). lia. }
    destruct (hd_tl_ones _ _ _ Ho Hu) as [H0 [Hc Ht]].
    destruct fuel as [|f]; [simpl in Hf; lia|].
    cbn [cr_loop]. destruct (N.eqb_spec index 0) as [E|_]; [contradiction|].
    rewrite Hc. cbn [obind]. cbn [length csum] in *.
    assert (c < pM p)%nat as Hcm.
    { assert (In c (ones index)) as Hin by (rewrite Ho; now left). rewrite ones_lt in Hi. now apply Hi. }
    replace k with (S k - 1)%nat at 1 by lia. rewrite cr_table_get by lia. cbn [obind].
    rewrite binomial_exact by lia.
    rewrite w64_small by lia.
    rewrite IH; auto; try lia.
    + f_equal. lia.
    + pose proof (land_le_l index (sub64 index 1)). unfold clear_lowest. lia.
Qed.

Lemma count_below_lt_pow K m x : weight x = K -> x < 2 ^ N.of_nat m -> count_below K x < binom m K.
Proof. intros Hw Hx. rewrite <- count_below_pow. now apply count_below_strict. Qed.

(** complement within M modes *)
Lemma lxor_full_lt M x : x < 2 ^ N.of_nat M -> N.lxor x (full_mask M) < 2 ^ N.of_nat M.
Proof.
  intros H. apply bits_lt_pow. intros i Hi. rewrite N.lxor_spec.
  rewrite bits_lt_pow in H. rewrite H by exact Hi.
  unfold full_mask.
  replace (2 ^ N.of_nat M - 1) with (N.ones (N.of_nat M)) by (rewrite N.ones_equiv; lia).
  rewrite N.ones_spec_high by exact Hi. reflexivity.
Qed.
Lemma full_mask_ones M : full_mask M = N.ones (N.of_nat M).
Proof. unfold full_mask. rewrite N.ones_equiv. lia. Qed.
Lemma lxor_full_sub M x : x < 2 ^ N.of_nat M -> N.lxor x (full_mask M) = 2 ^ N.of_nat M - 1 - x.
Proof.
  intros H. rewrite full_mask_ones. change (N.lxor x (N.ones (N.of_nat M))) with (N.lnot x (N.of_nat M)).
  destruct (N.eq_dec x 0) as [->|Hx].
  - rewrite N.lnot_0_l, N.ones_equiv. lia.
  - rewrite N.lnot_sub_low; [rewrite N.ones_equiv; lia|]. apply N.log2_lt_pow2; lia.
Qed.
Lemma weight_compl M x : x < 2 ^ N.of_nat M -> (weight (N.lxor x (full_mask M)) + weight x = M)%nat.
Proof.
  intros H. pose proof (lxor_full_lt M x H) as H'.
  assert (N.size_nat x <= M)%nat by (pose proof (size_nat_size x); apply size_lt_pow in H; lia).
  assert (N.size_nat (N.lxor x (full_mask M)) <= M)%nat by (pose proof (size_nat_size (N.lxor x (full_mask M))); apply size_lt_pow in H'; lia).
  unfold weight. rewrite (ones_seq x M), (ones_seq (N.lxor x (full_mask M)) M) by assumption.
  rewrite (filter_ext_in' (fun i => N.testbit (N.lxor x (full_mask M)) (N.of_nat i)) (fun i => negb (N.testbit x (N.of_nat i)))).
  - assert (forall l (f : nat -> bool), (length (filter (fun i => negb (f i)) l) + length (filter f l) = length l)%nat) as HH.
    { intros l f; induction l as [|a l IH]; simpl; [reflexivity|]. destruct (f a); simpl; lia. }
    rewrite (HH _ (fun i => N.testbit x (N.of_nat i))). apply seq_length.
  - intros i Hi. apply in_seq in Hi. rewrite N.lxor_spec, full_mask_ones, N.ones_spec_low by lia. apply xorb_true_r.
Qed.
Lemma lxor_full_invol M x : N.lxor (N.lxor x (full_mask M)) (full_mask M) = x.
Proof. rewrite N.lxor_assoc, N.lxor_nilpotent, N.lxor_0_r. reflexivity. Qed.

(** the XOR mask *)
Definition cmask (M K : nat) : N := if (K <=? M / 2)%nat then 0 else full_mask M.
Lemma cmask_eq M K : (K <= M)%nat -> (if (K =? n_counted M K)%nat then 0 else full_mask M) = cmask M K.
Proof.
  intros H. unfold cmask, n_counted. destruct (Nat.leb_spec K (M / 2)) as [L|L].
  - rewrite Nat.eqb_refl. reflexivity.
  - pose proof (Nat.div_mod M 2 ltac:(lia)). pose proof (Nat.mod_upper_bound M 2 ltac:(lia)).
    destruct (Nat.eqb_spec K (M - K)); [lia|reflexivity].
Qed.
Lemma cmask_sector M K x : in_sector M K x = true -> (K <= M)%nat ->
  in_sector M (n_counted M K) (N.lxor x (cmask M K)) = true.
Proof.
  unfold in_sector. rewrite !andb_true_iff, !N.ltb_lt, !Nat.eqb_eq. intros [H Hw] HK.
  unfold cmask, n_counted. destruct (Nat.leb_spec K (M / 2)) as [L|L].
  - rewrite N.lxor_0_r. auto.
  - split; [now apply lxor_full_lt|]. pose proof (weight_compl M x H). lia.
Qed.
Lemma cmask_sector' M K x : in_sector M (n_counted M K) x = true -> (K <= M)%nat ->
  in_sector M K (N.lxor x (cmask M K)) = true.
Proof.
  unfold in_sector. rewrite !andb_true_iff, !N.ltb_lt, !Nat.eqb_eq. intros [H Hw] HK.
  unfold cmask, n_counted in *. destruct (Nat.leb_spec K (M / 2)) as [L|L].
  - rewrite N.lxor_0_r. auto.
  - split; [now apply lxor_full_lt|]. pose proof (weight_compl M x H). lia.
Qed.
Lemma cmask_invol M K x : N.lxor (N.lxor x (cmask M K)) (cmask M K) = x.
Proof. rewrite N.lxor_assoc, N.lxor_nilpotent, N.lxor_0_r. reflexivity. Qed.
Lemma n_counted_le M K : (K <= M)%nat -> (n_counted M K <= M)%nat.
Proof. unfold n_counted. destruct (K <=? M / 2)%nat; lia. Qed.
Lemma n_counted_binom M K : (K <= M)%nat -> binom M (n_counted M K) = binom M K.
Proof. intros H. unfold n_counted. destruct (K <=? M / 2)%nat; [reflexivity|]. now apply binom_sym. Qed.

(** code rank in terms of count_below *)
Definition rank_raw (M K : nat) (x : N) : N := count_below (n_counted M K) (N.lxor x (cmask M K)).

Lemma cr_rank_raw p x : (pM p <= 63)%nat -> (pN p <= pM p)%nat -> in_sector (pM p) (pN p) x = true ->
  cr_rank (combination_ranking_init p) x = Some (rank_raw (pM p) (pN p) x).
Proof.
  intros HM HN Hx. unfold cr_rank, rank_raw.
  assert (cr_mask (combination_ranking_init p) = cmask (pM p) (pN p)) as Em by (simpl; now apply cmask_eq).
  rewrite Em. pose proof (cmask_sector _ _ _ Hx HN) as Hs. unfold in_sector in Hs.
  rewrite andb_true_iff, N.ltb_lt, Nat.eqb_eq in Hs. destruct Hs as [Hlt Hw].
  set (y := N.lxor x (cmask (pM p) (pN p))) in *.
  rewrite <- Hw, count_below_csum. rewrite cr_loop_spec with (l := ones y); auto.
  - unfold weight in Hw. rewrite Hw. pose proof (n_counted_le (pM p) (pN p) HN). lia.
  - unfold weight in Hw. lia.
  - rewrite N.add_0_l, <- count_below_csum.
    pose proof (count_below_lt_pow _ _ _ eq_refl Hlt) as Hb.
    pose proof (binom_le_pow (pM p) (weight y)).
    assert (2 ^ N.of_nat (pM p) <= 2 ^ 63) by (apply N.pow_le_mono_r; lia).
    change (2 ^ 64) with (2 * 2 ^ 63). lia.
Qed.

(** rank_raw is the specified position *)
Lemma filter_filter {A} (f g : A -> bool) l : filter f (filter g l) = filter (fun a => f a && g a) l.
Proof.
  induction l as [|a l IH]; simpl; [reflexivity|]. destruct (g a); simpl; destruct (f a); simpl; rewrite ?IH; reflexivity.
Qed.
Lemma below_rev n : map (fun y => n - 1 - y) (below n) = rev (below n).
Proof.
  unfold below. rewrite map_map, <- map_rev.
  assert (forall k s, rev (seq s k) = map (fun i => (s + k - 1 - (i - s))%nat) (seq s k)) as H.
  { induction k as [|k IH]; intros s; [reflexivity|].
    rewrite seq_S at 1. rewrite rev_app_distr, IH. cbn [seq map rev app]. f_equal; [lia|].
    rewrite <- seq_shift, map_map. apply map_ext_in. intros i Hi. apply in_seq in Hi. lia. }
  rewrite H, map_map. apply map_ext_in. intros i Hi. apply in_seq in Hi. lia.
Qed.
Lemma rank_raw_position M K x : (K <= M)%nat -> in_sector M K x = true ->
  rank_raw M K x = sector_position M K x.
Proof.
  intros HK Hx. unfold rank_raw, sector_position, cmask, n_counted.
  destruct (Nat.leb_spec K (M / 2)) as [L|L]; [now rewrite N.lxor_0_r|].
  unfold in_sector in Hx. rewrite andb_true_iff, N.ltb_lt, Nat.eqb_eq in Hx. destruct Hx as [Hlt Hw].
  unfold count_below, sector_states. rewrite filter_filter. f_equal.
  set (P := 2 ^ N.of_nat M) in *.
  rewrite <- (rev_length (filter (fun a => (x <? a) && (weight a =? K)%nat) (below P))).
  assert (forall (f : N -> bool) l, rev (filter f l) = filter f (rev l)) as Hrev.
  { intros f l; induction l as [|a l IH]; simpl; [reflexivity|]. rewrite filter_app, <- IH. simpl.
    destruct (f a); simpl; [reflexivity|now rewrite app_nil_r]. }
  rewrite Hrev, <- below_rev, filter_map_comm, map_length.
  rewrite (lxor_full_sub M x Hlt). fold P.
  assert (below P = below (P - 1 - x) ++ map (N.add (P - 1 - x)) (below (x + 1))) as Esplit
      by (rewrite <- below_split; f_equal; lia).
  rewrite Esplit, filter_app, app_length.
  rewrite (filter_ext_in' _ (fun _ => false) (map _ _)).
  2:{ intros a Ha. apply in_map_iff in Ha. destruct Ha as [b [<- Hb]]. apply in_below in Hb.
      destruct (N.ltb_spec x (P - 1 - (P - 1 - x + b))); [lia|reflexivity]. }
  rewrite filter_none. rewrite Nat.add_0_r. f_equal. apply filter_ext_in. intros y Hy. apply in_below in Hy.
  destruct (N.ltb_spec x (P - 1 - y)) as [_|F]; [|lia]. simpl.
  pose proof (weight_compl M y ltac:(fold P; lia)) as Hc. rewrite lxor_full_sub in Hc by (fold P; lia). fold P in Hc.
  destruct (Nat.eqb_spec (weight y) (M - K)), (Nat.eqb_spec (weight (P - 1 - y)) K); try reflexivity; lia.
Qed.

Lemma rank_raw_lt M K x : (K <= M)%nat -> in_sector M K x = true -> rank_raw M K x < binom M K.
Proof.
  intros HK Hx. unfold rank_raw. rewrite <- n_counted_binom by exact HK.
  pose proof (cmask_sector _ _ _ Hx HK) as Hs. unfold in_sector in Hs.
  rewrite andb_true_iff, N.ltb_lt, Nat.eqb_eq in Hs. destruct Hs as [Hlt Hw].
  now apply count_below_lt_pow.
Qed.
Lemma rank_raw_inj M K x y : (K <= M)%nat -> in_sector M K x = true -> in_sector M K y = true ->
  rank_raw M K x = rank_raw M K y -> x = y.
Proof.
  intros HK Hx Hy H. unfold rank_raw in H.
  pose proof (cmask_sector _ _ _ Hx HK) as Hs. pose proof (cmask_sector _ _ _ Hy HK) as Hs'.
  unfold in_sector in Hs, Hs'. rewrite andb_true_iff, N.ltb_lt, Nat.eqb_eq in Hs, Hs'.
  apply count_below_inj in H; try tauto.
  rewrite <- (cmask_invol M K x), <- (cmask_invol M K y), H. reflexivity.
Qed.

(** ** unranking *)
Lemma weight_full m : weight (full_mask m) = m.
Proof. unfold weight. rewrite ones_full. apply seq_length. Qed.
Lemma full_mask_lt m M : (m <= M)%nat -> full_mask m < 2 ^ N.of_nat M.
Proof.
  intros H. unfold full_mask. pose proof (pow_pos_N (N.of_nat m)).
  assert (2 ^ N.of_nat m <= 2 ^ N.of_nat M) by (apply N.pow_le_mono_r; lia). lia.
Qed.
Lemma count_below_full m : count_below m (full_mask m) = 0.
Proof. rewrite <- (weight_full m) at 1. rewrite count_below_csum, ones_full. apply csum_seq0. Qed.

Definition ug_exact (p : sector_params) : Prop :=
  (pM p <= 63)%nat /\ (pN p <= pM p)%nat /\
  binomial (pM p) (n_counted (pM p) (pN p)) = binom (pM p) (pN p).

(** state after [n] calls of next(), 1 <= n <= total *)
Definition ug_at (p : sector_params) (n : N) (u : N) : unranking_generator :=
  {| ug_counted := n_counted (pM p) (pN p); ug_total := binom (pM p) (pN p); ug_i := n;
     ug_unranked := u; ug_mask := cmask (pM p) (pN p) |}.

Lemma ug_init_at p : ug_exact p ->
  unranking_generator_init p = ug_at p 0 (full_mask (n_counted (pM p) (pN p))).
Proof.
  intros [HM [HN HB]]. unfold unranking_generator_init, ug_at. rewrite HB, cmask_eq by exact HN. reflexivity.
Qed.

Lemma ug_next_first p u : ug_next (ug_at p 0 u) = Some (ug_at p 1 u, N.lxor u (cmask (pM p) (pN p))).
Proof. reflexivity. Qed.

Lemma binom_u63 n k : (n <= 63)%nat -> binom n k <= 2 ^ 63.
Proof.
  intros H. pose proof (binom_le_pow n k).
  assert (2 ^ N.of_nat n <= 2 ^ 63) by (apply N.pow_le_mono_r; lia). lia.
Qed.

Lemma ug_next_step p n u : ug_exact p ->
  let Nc := n_counted (pM p) (pN p) in
  in_sector (pM p) Nc u = true -> count_below Nc u = n -> n + 1 < binom (pM p) (pN p) ->
  exists u', ug_next (ug_at p (n + 1) u) = Some (ug_at p (n + 2) u', N.lxor u' (cmask (pM p) (pN p))) /\
    in_sector (pM p) Nc u' = true /\ count_below Nc u' = n + 1.
Proof.
  intros [HM [HN HB]] Nc Hs Hc Hn. unfold in_sector in Hs. rewrite andb_true_iff, N.ltb_lt, Nat.eqb_eq in Hs.
  destruct Hs as [Hlt Hw].
  assert (0 < u) as H0.
  { destruct (N.eq_dec u 0) as [->|]; [|lia]. change (weight 0) with 0%nat in Hw.
    pose proof (n_counted_binom (pM p) (pN p) HN) as E. fold Nc in E. rewrite <- Hw, binom_0_r in E. lia. }
  assert (2 ^ N.of_nat (pM p) <= 2 ^ 63) as Hp by (apply N.pow_le_mono_r; lia).
  destruct (next_state_spec u H0 ltac:(lia)) as [u' [Hx [Hw' [Hlt' [Hu Hcnt]]]]].
  exists u'. unfold ug_next. change (ug_i (ug_at p (n + 1) u)) with (n + 1).
  change (ug_unranked (ug_at p (n + 1) u)) with u.
  destruct (N.eqb_spec (n + 1) 0) as [F|_]; [lia|]. rewrite Hx. cbn [obind].
  pose proof (binom_u63 (pM p) (pN p) HM) as Hb.
  rewrite Hw in *. split; [|split].
  - cbn [ug_counted ug_total ug_mask]. unfold ug_at. rewrite w64_small by (change (2 ^ 64) with (2 * 2 ^ 63); lia).
    replace (n + 1 + 1) with (n + 2) by lia. reflexivity.
  - unfold in_sector. rewrite andb_true_iff, N.ltb_lt, Nat.eqb_eq. split; [|congruence].
    destruct (N.lt_ge_cases u' (2 ^ N.of_nat (pM p))) as [L|L]; [exact L|exfalso].
    pose proof (count_below_mono Nc _ _ L) as Hm. rewrite count_below_pow in Hm.
    unfold Nc in Hm. rewrite n_counted_binom in Hm by exact HN. fold Nc in Hm. lia.
  - lia.
Qed.

(** [k] further steps from a state whose last output has rank n *)
Lemma ug_run_from p : ug_exact p -> let Nc := n_counted (pM p) (pN p) in
  forall k n u, in_sector (pM p) Nc u = true -> count_below Nc u = n -> n + 1 + N.of_nat k <= binom (pM p) (pN p) ->
  exists g l u', ug_run k (ug_at p (n + 1) u) = Some (g, l) /\ length l = k /\
    g = ug_at p (n + 1 + N.of_nat k) u' /\
    (forall i x, nth_error l i = Some x ->
       in_sector (pM p) (pN p) x = true /\ rank_raw (pM p) (pN p) x = n + 1 + N.of_nat i).
Proof.
  intros Hex Nc. induction k as [|k IH]; intros n u Hs Hc Hb.
  - exists (ug_at p (n + 1) u), [], u. split; [reflexivity|]. split; [reflexivity|].
    split; [f_equal; lia|]. intros i x H; destruct i; discriminate.
  - destruct (ug_next_step p n u Hex Hs Hc ltac:(lia)) as [u' [Hx [Hs' Hc']]].
    destruct (IH (n + 1) u' Hs' Hc' ltac:(lia)) as [g [l [u'' [Hr [Hl [Hg Hi]]]]]].
    exists g, (N.lxor u' (cmask (pM p) (pN p)) :: l), u''. cbn [ug_run].
    unfold ug_done at 1. cbn [ug_at ug_i ug_total].
    destruct (N.eqb_spec (n + 1) (binom (pM p) (pN p))) as [F|_]; [lia|].
    fold (ug_at p (n + 1) u). rewrite Hx. cbn [obind fst snd].
    replace (n + 2) with (n + 1 + 1) by lia. rewrite Hr. cbn [obind fst snd].
    split; [reflexivity|]. split; [simpl; lia|]. split.
    + rewrite Hg. f_equal. lia.
    + destruct Hex as [HM [HN HB]]. intros i x Hix. destruct i as [|i]; simpl in Hix.
      * injection Hix as <-. split; [now apply cmask_sector'|].
        unfold rank_raw. rewrite cmask_invol. unfold Nc in *. rewrite Hc'. lia.
      * destruct (Hi i x Hix) as [A B]. split; [exact A|]. lia.
Qed.

Lemma ug_run_full p : ug_exact p ->
  forall k, N.of_nat k <= binom (pM p) (pN p) ->
  exists g l, ug_run k (unranking_generator_init p) = Some (g, l) /\ length l = k /\
    ug_i g = N.of_nat k /\ ug_total g = binom (pM p) (pN p) /\
    (forall i x, nth_error l i = Some x ->
       in_sector (pM p) (pN p) x = true /\ rank_raw (pM p) (pN p) x = N.of_nat i).
Proof.
  intros Hex k Hk. rewrite ug_init_at by exact Hex. destruct k as [|k].
  - eexists _, []. split; [reflexivity|]. repeat split; try reflexivity; destruct i; discriminate.
  - destruct Hex as [HM [HN HB]]. set (Nc := n_counted (pM p) (pN p)).
    pose proof (n_counted_le (pM p) (pN p) HN) as Hle.
    assert (in_sector (pM p) Nc (full_mask Nc) = true) as Hs.
    { unfold in_sector. rewrite weight_full, Nat.eqb_refl, andb_true_r. apply N.ltb_lt. now apply full_mask_lt. }
    destruct (ug_run_from p ltac:(repeat split; assumption) k 0 (full_mask Nc) Hs (count_below_full Nc) ltac:(lia)) as [g [l [u' [Hr [Hl [Hg Hi]]]]]].
    exists g, (N.lxor (full_mask Nc) (cmask (pM p) (pN p)) :: l).
    cbn [ug_run]. unfold ug_done at 1. cbn [ug_at ug_i ug_total].
    destruct (N.eqb_spec 0 (binom (pM p) (pN p))) as [F|_]; [pose proof (binom_pos (pM p) (pN p) HN); lia|].
    fold (ug_at p 0 (full_mask Nc)). rewrite ug_next_first. cbn [obind fst snd].
    change (0 + 1) with 1 in Hr. rewrite Hr. cbn [obind fst snd].
    split; [reflexivity|]. split; [simpl; lia|]. rewrite Hg. cbn [ug_at ug_i ug_total].
    split; [lia|]. split; [reflexivity|].
    intros i x Hix. destruct i as [|i]; simpl in Hix.
    + injection Hix as <-. split; [now apply cmask_sector'|].
      unfold rank_raw. rewrite cmask_invol. fold Nc. rewrite count_below_full. reflexivity.
    + destruct (Hi i x Hix) as [A B]. split; [exact A|]. lia.
Qed.
Lemma ug_exact_62 p : (pM p <= 62)%nat -> (pN p <= pM p)%nat -> ug_exact p.
Proof.
  intros HM HN. repeat split; [lia|exact HN|]. rewrite binomial_exact by exact HM. now apply n_counted_binom.
Qed.
