(** * Correctness of trie_ranking: memory operations, word order, relocation *)
From Coq Require Import NArith ZArith List Bool Arith Lia Permutation Sorted.
From Verif Require Import BitsModel BitsSpec BitsProofs RankModel RankSpec RankProofs TrieModel.
Import ListNotations.
Open Scope N_scope.

(** ** vectors *)
Definition rd (t : list Z) (i : N) : Z := nth (N.to_nat i) t 0%Z.
Definition len (t : list Z) : N := N.of_nat (length t).

Lemma vec_get_rd t i : i < len t -> vec_get t i = Some (rd t i).
Proof. intros H. unfold vec_get, rd, len in *. apply nth_error_nth'. lia. Qed.

Lemma nth_firstn_lt {A} (d : A) n : forall a t, (a < n)%nat -> nth a (firstn n t) d = nth a t d.
Proof.
  induction n as [|n IH]; intros a t H; [lia|]. destruct t as [|x t]; [reflexivity|].
  destruct a as [|a]; [reflexivity|]. cbn. apply IH. lia.
Qed.
Lemma nth_skipn_add {A} (d : A) n : forall a t, nth a (skipn n t) d = nth (n + a) t d.
Proof.
  induction n as [|n IH]; intros a t; [reflexivity|]. destruct t as [|x t]; [destruct a; reflexivity|].
  cbn. apply IH.
Qed.
Lemma sub64_small a b : a < 2 ^ 64 -> b <= a -> sub64 a b = a - b.
Proof.
  intros Ha Hb. unfold sub64. rewrite (w64_small a), (w64_small b) by (clear - Ha Hb; lia).
  replace (a + (2 ^ 64 - b)) with ((a - b) + 1 * 2 ^ 64) by lia.
  unfold w64. rewrite N.mod_add by lia. apply N.mod_small. lia.
Qed.

Lemma vec_set_rd t i v : i < len t -> exists t', vec_set t i v = Some t' /\ len t' = len t /\
  forall j, rd t' j = if j =? i then v else rd t j.
Proof.
  intros H. unfold vec_set, len, rd in *. destruct (N.ltb_spec i (N.of_nat (length t))); [|lia].
  eexists. split; [reflexivity|]. set (n := N.to_nat i) in *.
  assert (n < length t)%nat as Hn by lia. split.
  - rewrite app_length, firstn_length. cbn [length]. rewrite skipn_length. lia.
  - intros j. destruct (N.eqb_spec j i) as [->|Hj].
    + fold n. rewrite app_nth2 by (rewrite firstn_length; lia). rewrite firstn_length.
      replace (n - Nat.min n (length t))%nat with O by lia. reflexivity.
    + assert (N.to_nat j <> n) as Hj' by lia. set (a := N.to_nat j) in *.
      destruct (Nat.lt_ge_cases a n) as [Hlt|Hge].
      * rewrite app_nth1 by (rewrite firstn_length; lia). apply nth_firstn_lt; exact Hlt.
      * rewrite app_nth2 by (rewrite firstn_length; lia). rewrite firstn_length.
        replace (a - Nat.min n (length t))%nat with (S (a - n - 1)) by lia. cbn [nth].
        rewrite nth_skipn_add. f_equal. lia.
Qed.

Lemma trie_copy_spec l : forall n from t, from + N.of_nat n + l <= len t -> len t < 2 ^ 64 ->
  exists t', trie_copy n from l t = Some t' /\ len t' = len t /\
  forall j, rd t' j = if (from <=? j) && (j <? from + N.of_nat n) then rd t (j + l) else rd t j.
Proof.
  induction n as [|n IH]; intros from t H Hl.
  - exists t. split; [reflexivity|]. split; [reflexivity|]. intros j.
    destruct (N.leb_spec from j), (N.ltb_spec j (from + N.of_nat 0)); cbn; try reflexivity. lia.
  - cbn [trie_copy]. rewrite w64_small by lia. rewrite vec_get_rd by lia. cbn [obind].
    destruct (vec_set_rd t from (rd t (from + l)) ltac:(lia)) as [t1 [E1 [L1 R1]]].
    rewrite E1. cbn [obind]. rewrite w64_small by lia.
    destruct (IH (from + 1) t1 ltac:(lia) ltac:(lia)) as [t' [E [L R]]].
    exists t'. split; [exact E|]. split; [lia|]. intros j. rewrite R, !R1.
    destruct (N.leb_spec (from + 1) j), (N.ltb_spec j (from + 1 + N.of_nat n)),
             (N.leb_spec from j), (N.ltb_spec j (from + N.of_nat (S n))),
             (N.eqb_spec j from), (N.eqb_spec (j + l) from); cbn; subst; try reflexivity; try lia.
Qed.

Lemma trie_shift_spec l : forall n from t, from + N.of_nat n <= len t -> len t < 2 ^ 64 ->
  exists t', trie_shift n from l t = Some t' /\ len t' = len t /\
  forall j, rd t' j = if (from <=? j) && (j <? from + N.of_nat n) then trie_dec l (rd t j) else rd t j.
Proof.
  induction n as [|n IH]; intros from t H Hl.
  - exists t. split; [reflexivity|]. split; [reflexivity|]. intros j.
    destruct (N.leb_spec from j), (N.ltb_spec j (from + N.of_nat 0)); cbn; try reflexivity. lia.
  - cbn [trie_shift]. rewrite vec_get_rd by lia. cbn [obind].
    destruct (vec_set_rd t from (trie_dec l (rd t from)) ltac:(lia)) as [t1 [E1 [L1 R1]]].
    rewrite E1. cbn [obind]. rewrite w64_small by lia.
    destruct (IH (from + 1) t1 ltac:(lia) ltac:(lia)) as [t' [E [L R]]].
    exists t'. split; [exact E|]. split; [lia|]. intros j. rewrite R, !R1.
    destruct (N.leb_spec (from + 1) j), (N.ltb_spec j (from + 1 + N.of_nat n)),
             (N.leb_spec from j), (N.ltb_spec j (from + N.of_nat (S n))),
             (N.eqb_spec j from); cbn; subst; try reflexivity; try lia.
Qed.

Lemma to_i64_small n : n < 2 ^ 63 -> to_i64 n = Z.of_N n.
Proof. intros H. unfold to_i64. destruct (N.ltb_spec n (2 ^ 63)); [reflexivity|lia]. Qed.
Lemma to_u64_small n : n < 2 ^ 64 -> to_u64 (Z.of_N n) = n.
Proof.
  intros H. unfold to_u64. rewrite Z.mod_small; [apply N2Z.id|].
  change (2 ^ 64)%Z with (Z.of_N (2 ^ 64)). lia.
Qed.
Lemma trie_dec_pos l j : l < j -> j < 2 ^ 63 -> trie_dec l (Z.of_N j) = Z.of_N (j - l).
Proof.
  intros H1 H2. unfold trie_dec. destruct (Z.ltb_spec 0 (Z.of_N j)); [|lia].
  rewrite to_u64_small by lia. rewrite sub64_small by lia. apply to_i64_small. lia.
Qed.
Lemma trie_dec_neg l z : (z <= 0)%Z -> trie_dec l z = z.
Proof. intros H. unfold trie_dec. destruct (Z.ltb_spec 0 z); [lia|reflexivity]. Qed.

(** ** chunks of words *)
Definition chunk (x : N) (m s : nat) : N := (x / 2 ^ N.of_nat m) mod 2 ^ N.of_nat s.

Lemma chunk_code x m s : N.land (N.shiftr x (N.of_nat m)) (2 ^ N.of_nat s - 1) = chunk x m s.
Proof.
  unfold chunk. rewrite <- N.shiftr_div_pow2.
  replace (2 ^ N.of_nat s - 1) with (N.ones (N.of_nat s)) by (rewrite N.ones_equiv; lia).
  apply N.land_ones.
Qed.

Lemma prefix_code x m : x < 2 ^ 64 -> (m < 64)%nat ->
  N.land x (not64 (2 ^ N.of_nat m - 1)) = (x / 2 ^ N.of_nat m) * 2 ^ N.of_nat m.
Proof.
  intros Hx Hm.
  assert (2 ^ N.of_nat m < 2 ^ 64) as Hp by (apply N.pow_lt_mono_r; lia).
  rewrite land_not64; [|exact Hx|unfold u64; lia].
  replace (2 ^ N.of_nat m - 1) with (N.ones (N.of_nat m)) by (rewrite N.ones_equiv; lia).
  rewrite N.ldiff_ones_r, N.shiftr_div_pow2, N.shiftl_mul_pow2. reflexivity.
Qed.

Lemma chunk_split x m s : x / 2 ^ N.of_nat m = (x / 2 ^ N.of_nat (s + m)) * 2 ^ N.of_nat s + chunk x m s.
Proof.
  unfold chunk. replace (2 ^ N.of_nat (s + m)) with (2 ^ N.of_nat m * 2 ^ N.of_nat s)
    by (rewrite Nat2N.inj_add, N.pow_add_r; apply N.mul_comm).
  rewrite <- N.div_div by (apply N.pow_nonzero; lia).
  rewrite (N.mul_comm (_ / _ / _)). apply N.div_mod. apply N.pow_nonzero; lia.
Qed.
Lemma chunk_lt x m s : chunk x m s < 2 ^ N.of_nat s.
Proof. apply N.mod_lt. apply N.pow_nonzero; lia. Qed.

Lemma weight_app k a b : b < 2 ^ N.of_nat k -> weight (b + 2 ^ N.of_nat k * a) = (weight b + weight a)%nat.
Proof. intros H. unfold weight. rewrite (ones_app k b a H), app_length, map_length. reflexivity. Qed.

Lemma weight_0_inv x : weight x = O -> x = 0.
Proof.
  induction x as [|n Hn IH|n IH] using bin_ind; intros H.
  - reflexivity.
  - unfold weight in *. rewrite ones_double, map_length in H. apply IH in H. lia.
  - unfold weight in *. rewrite ones_succ_double in H. discriminate.
Qed.

(** ** words: the patterns with [K] set bits *)
Section Words.
Variable K : nat.
Definition isW (x : N) : Prop := weight x = K.
Definition rk (x : N) : N := count_below K x.

Lemma next_word x : isW x -> 0 < x -> x < 2 ^ 63 -> exists x', next_state x = Some x' /\ isW x' /\
  x < x' /\ x' < 2 ^ 64 /\ rk x' = rk x + 1 /\ (forall y, isW y -> x < y -> x' <= y).
Proof.
  intros Hw H0 Hx. destruct (next_state_spec x H0 Hx) as [x' [E [Hw' [Hlt [Hu Hc]]]]].
  unfold isW, rk in *. rewrite Hw in *. exists x'. repeat split; auto.
  intros y Hy Hxy. destruct (N.lt_ge_cases y x') as [H|H]; [exfalso|exact H].
  pose proof (count_below_strict K x y Hw Hxy). pose proof (count_below_strict K y x' Hy H). lia.
Qed.

(** the state [(rank, st)] of the enumeration: all words below [b] have been treated *)
Definition Pos (rank st b : N) : Prop :=
  (isW st /\ b = st /\ rank = rk st /\ st < 2 ^ 64) \/ (K = O /\ st = 0 /\ b = 1 /\ rank = 0).

(** [path t chunks m x i lo hi]: starting from offset [i], the chunks of [x] lead through
    cells of [lo, hi) to a leaf that stores minus the rank of [x] *)
Fixpoint path (t : list Z) (chunks : list nat) (m : nat) (x i lo hi : N) : Prop :=
  match chunks with
  | [] => False
  | s :: rest =>
      let a := i + chunk x (m - s) s in
      lo <= a /\ a < hi /\
      match rest with
      | [] => rd t a = (- Z.of_N (rk x))%Z
      | _ => exists j, rd t a = Z.of_N j /\ i < j /\ path t rest (m - s) x j lo hi
      end
  end.

Lemma path_frame chunks : forall t t' m x i lo hi lo' hi',
  path t chunks m x i lo hi -> lo' <= lo -> hi <= hi' ->
  (forall a, lo <= a -> a < hi -> rd t' a = rd t a) -> path t' chunks m x i lo' hi'.
Proof.
  induction chunks as [|s rest IH]; intros t t' m x i lo hi lo' hi' H Hlo Hhi Hf; [exact H|].
  cbn [path] in *. destruct H as [H1 [H2 H3]]. split; [lia|]. split; [lia|].
  rewrite Hf by lia. destruct rest as [|s' rest']; [exact H3|].
  destruct H3 as [j [E [Hij Hp]]]. exists j. split; [exact E|]. split; [exact Hij|].
  eapply IH; eauto.
Qed.

(** moving a subtree back by [l] cells and decreasing its pointers *)
Lemma path_move chunks : forall t t' l m x i lo hi lo' hi',
  path t chunks m x i lo hi -> l <= i -> hi <= 2 ^ 63 -> lo' <= lo - l -> hi - l <= hi' ->
  (forall a, lo <= a -> a < hi -> rd t' (a - l) = trie_dec l (rd t a)) ->
  path t' chunks m x (i - l) lo' hi'.
Proof.
  induction chunks as [|s rest IH]; intros t t' l m x i lo hi lo' hi' H Hl Hh Hlo Hhi Hf; [exact H|].
  cbn [path] in *. destruct H as [H1 [H2 H3]].
  assert (i - l + chunk x (m - s) s = i + chunk x (m - s) s - l) as E0 by lia. rewrite E0.
  split; [lia|]. split; [lia|]. rewrite Hf by lia.
  destruct rest as [|s' rest'].
  - rewrite H3. apply trie_dec_neg. lia.
  - destruct H3 as [j [E [Hij Hp]]]. exists (j - l).
    assert (j < 2 ^ 63) as Hj by (cbn [path] in Hp; lia).
    split; [rewrite E; apply trie_dec_pos; lia|]. split; [lia|].
    eapply IH; eauto. lia.
Qed.

End Words.
