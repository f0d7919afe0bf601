(** * Property C44: trie_ranking<R>
    Model: TrieModel.v (n_fermion_sector_view.hpp:251-384); specification: RankSpec.v. *)
From Coq Require Import NArith ZArith List Bool Arith Lia.
From Verif Require Import BitsModel BitsSpec BitsProofs RankModel RankSpec RankProofs StaggeredProofs
  TrieModel TrieProofs TrieMain.
Import ListNotations.
Open Scope N_scope.

Lemma ones_shifted s a : ones (2 ^ N.of_nat a * (2 ^ N.of_nat s - 1)) = seq a s.
Proof.
  rewrite ones_mul_pow. change (2 ^ N.of_nat s - 1) with (full_mask s). rewrite ones_full, map_add_seq, Nat.add_0_r.
  reflexivity.
Qed.

Lemma extract_chunk x s m : x < 2 ^ 64 -> (s <= m)%nat -> (m <= 62)%nat ->
  extract_bits x (w64 (N.shiftl (2 ^ N.of_nat s - 1) (N.of_nat (m - s)))) = Some (chunk x (m - s) s).
Proof.
  intros Hx Hs Hm.
  assert (N.shiftl (2 ^ N.of_nat s - 1) (N.of_nat (m - s)) = 2 ^ N.of_nat (m - s) * (2 ^ N.of_nat s - 1)) as E
    by (rewrite N.shiftl_mul_pow2; apply N.mul_comm).
  rewrite E. set (mk := 2 ^ N.of_nat (m - s) * (2 ^ N.of_nat s - 1)).
  assert (mk < 2 ^ 64) as Hmk.
  { unfold mk. assert (2 ^ N.of_nat (m - s) * 2 ^ N.of_nat s = 2 ^ N.of_nat m) as Ep
      by (rewrite <- pow_add; do 2 f_equal; lia).
    assert (2 ^ N.of_nat m < 2 ^ 64) by (apply N.pow_lt_mono_r; lia).
    rewrite N.mul_sub_distr_l. lia. }
  rewrite w64_small by exact Hmk.
  destruct (extract_bits_spec x mk Hx Hmk) as [r [Er Hr]]. rewrite Er. f_equal.
  apply (is_extract_unique x mk); [exact Hr|]. intros j. unfold mk. rewrite ones_shifted.
  unfold chunk. destruct (Nat.lt_ge_cases j s) as [Hj|Hj].
  - rewrite nth_error_nth' with (d := O) by (rewrite seq_length; exact Hj). rewrite seq_nth by exact Hj.
    rewrite N.mod_pow2_bits_low by lia. rewrite <- N.shiftr_div_pow2, N.shiftr_spec' . f_equal. lia.
  - rewrite (proj2 (nth_error_None _ _)) by (rewrite seq_length; exact Hj).
    apply N.mod_pow2_bits_high. lia.
Qed.

Definition absneg (v : Z) : Z := if (v <? 0)%Z then (- v)%Z else v.

Lemma final_get t hi a : hi <= len t -> a < hi ->
  vec_get (map absneg (vec_resize t hi)) a = Some (absneg (rd t a)).
Proof.
  intros Hhi Ha. unfold vec_get, vec_resize, rd, len in *.
  replace (N.to_nat hi - length t)%nat with O by lia. cbn [repeat]. rewrite app_nil_r.
  rewrite nth_error_nth' with (d := absneg 0) by (rewrite map_length, firstn_length; lia).
  rewrite map_nth, nth_firstn_lt by lia. reflexivity.
Qed.

Lemma lookup_path K t lo hi x : x < 2 ^ 64 -> hi <= len t -> len t <= 2 ^ 63 -> rk K x < 2 ^ 63 ->
  forall chunks m i, okc chunks m -> (m <= 62)%nat -> path K t chunks m x i lo hi ->
  trie_lookup (map absneg (vec_resize t hi)) (trie_masks chunks m) x i = Some (rk K x).
Proof.
  intros Hx Hhi Hlen Hrk. induction chunks as [|s rest IH]; intros m i Hok Hm Hp; [destruct Hok|].
  cbn [okc] in Hok. destruct Hok as [Hs Hok].
  cbn [trie_masks trie_lookup]. rewrite extract_chunk by lia. cbn [obind].
  cbn [path] in Hp. destruct Hp as [H1 [H2 H3]].
  assert (2 ^ 63 < 2 ^ 64) as Hpp by reflexivity.
  rewrite w64_small by lia. rewrite final_get by lia. cbn [obind].
  destruct rest as [|s' rest'].
  - cbn [trie_masks trie_lookup]. rewrite H3. f_equal.
    unfold absneg. destruct (Z.ltb_spec (- Z.of_N (rk K x)) 0) as [L|L].
    + rewrite Z.opp_involutive. apply to_u64_small. lia.
    + replace (- Z.of_N (rk K x))%Z with (Z.of_N (rk K x)) by lia. apply to_u64_small. lia.
  - destruct H3 as [j [Ej [Hij Hp]]]. rewrite Ej. unfold absneg.
    destruct (Z.ltb_spec (Z.of_N j) 0); [lia|].
    rewrite to_u64_small by (cbn [path] in Hp; lia).
    apply IH; [apply Hok|lia|exact Hp].
Qed.

Lemma okc_repeat R r : (1 <= R)%nat -> (r < R)%nat -> forall n, (0 < n * R + r)%nat ->
  okc (repeat R n ++ (if (r =? 0)%nat then [] else [r])) (n * R + r).
Proof.
  intros HR Hr. induction n as [|n IH]; intros Hpos.
  - cbn [repeat app Nat.mul Nat.add]. destruct (Nat.eqb_spec r 0) as [->|Hn]; [cbn in Hpos; lia|].
    cbn. lia.
  - cbn [repeat app]. cbn [okc]. split; [lia|].
    replace (S n * R + r - R)%nat with (n * R + r)%nat by lia.
    destruct n as [|n].
    + cbn [repeat app Nat.mul Nat.add] in *. destruct (Nat.eqb_spec r 0) as [->|Hn]; [lia|].
      cbn. lia.
    + cbn [repeat app]. split; [lia|]. apply IH. lia.
Qed.
Lemma okc_chunks R M : (1 <= R)%nat -> (0 < M)%nat -> okc (trie_chunks R M) M.
Proof.
  intros HR HM. unfold trie_chunks. pose proof (Nat.div_mod M R ltac:(lia)) as E.
  pose proof (Nat.mod_upper_bound M R ltac:(lia)) as Hr.
  rewrite E at 4. rewrite (Nat.mul_comm R). apply okc_repeat; lia.
Qed.

Lemma trie_rank_raw R p x : (1 <= R)%nat -> (pM p <= 62)%nat -> (pN p <= pM p)%nat ->
  exists t, trie_ranking_init R p = Some t /\
   (in_sector (pM p) (pN p) x = true -> trie_rank t x = Some (rank_raw (pM p) (pN p) x)).
Proof.
  intros HR HM HN. unfold trie_ranking_init. rewrite pow2_some by lia. cbn [obind].
  destruct (Nat.ltb_spec 0 (pM p)) as [Hpos|Hpos].
  2:{ cbn [obind]. eexists. split; [reflexivity|]. intros Hx.
      assert (pM p = O) as E0 by lia. unfold trie_rank, rank_raw. cbn [tr_masks tr_trie].
      assert (pN p = O) as E1 by lia. rewrite E0, E1 in *.
      unfold in_sector in Hx. apply andb_true_iff in Hx. destruct Hx as [Hx _]. apply N.ltb_lt in Hx.
      change (2 ^ N.of_nat 0) with 1 in Hx. assert (x = 0) as -> by lia.
      replace (trie_chunks R 0) with (@nil nat).
      - reflexivity.
      - unfold trie_chunks. rewrite Nat.div_0_l, Nat.mod_0_l by lia. reflexivity. }
  set (Nc := n_counted (pM p) (pN p)). set (M := pM p) in *.
  assert (Nc <= M)%nat as HNc by (apply n_counted_le; exact HN).
  rewrite pow2_some by lia. cbn [obind]. change (2 ^ N.of_nat Nc - 1) with (full_mask Nc).
  set (mem := repeat 0%Z (N.to_nat (2 ^ N.of_nat (M + 1)))).
  assert (len mem = 2 * 2 ^ N.of_nat M) as Hlen.
  { unfold len, mem. rewrite repeat_length, N2Nat.id, Nat.add_1_r. apply pow_S. }
  assert (2 * 2 ^ N.of_nat M <= 2 ^ 63) as H63.
  { rewrite <- pow_S. change (2 ^ 63) with (2 ^ N.of_nat 63). apply pow_le. lia. }
  assert (prefix (full_mask Nc) M = 0) as Hp0 by (apply N.div_small, full_mask_lt; exact HNc).
  destruct (make_trie_spec Nc M HM (trie_chunks R M) M (okc_chunks R M HR Hpos) (le_n M)
    0 (full_mask Nc) 0 mem) as [rank' [st' [k' [mem' [b' [E [_ [_ [Hl' [_ [_ [Hk' Hpath]]]]]]]]]]]].
  - apply weight_full.
  - symmetry. apply count_below_full.
  - apply full_mask_lt. exact HNc.
  - intros y Hy _. destruct (N.lt_ge_cases y (full_mask Nc)) as [L|L]; [exfalso|exact L].
    pose proof (count_below_strict Nc y (full_mask Nc) Hy L) as Hc. rewrite count_below_full in Hc. lia.
  - rewrite Hlen. lia.
  - rewrite Hlen. exact H63.
  - rewrite E. cbn [obind ts_mem ts_k]. eexists. split; [reflexivity|]. intros Hx.
    pose proof (cmask_sector _ _ _ Hx HN) as Hsec. unfold in_sector in Hsec.
    rewrite andb_true_iff, N.ltb_lt, Nat.eqb_eq in Hsec. fold Nc M in Hsec. destruct Hsec as [Hlt Hw].
    unfold trie_rank, rank_raw. cbn [tr_trie tr_masks tr_mask]. fold (cmask M (pN p)).
    set (y := N.lxor x (cmask M (pN p))) in *.
    apply (lookup_path Nc mem' (0 + chunk (full_mask Nc) (M - first_chunk (trie_chunks R M)) (first_chunk (trie_chunks R M))) k' y).
    + eapply N.lt_trans; [exact Hlt|]. apply N.pow_lt_mono_r; lia.
    + rewrite Hl', Hlen. lia.
    + rewrite Hl', Hlen. exact H63.
    + unfold rk. pose proof (count_below_lt_pow Nc M y Hw Hlt) as H1. pose proof (binom_le_pow M Nc). lia.
    + apply okc_chunks; assumption.
    + exact HM.
    + apply Hpath; [exact Hw|]. rewrite Hp0. apply N.div_small. exact Hlt.
Qed.

(** C44: for every chunk size R the constructor of trie_ranking<R> finishes without an
    out-of-bounds access or a failing assertion, and operator() returns the same rank as
    combination_ranking on every state of the sector. *)
Theorem C44_trie_equals_combination : forall (R : nat) (p : sector_params),
  (0 < R < 64)%nat -> (pM p <= 62)%nat -> (pN p <= pM p)%nat ->
  exists t : trie_ranking, trie_ranking_init R p = Some t /\
    forall x : N, in_sector (pM p) (pN p) x = true ->
      trie_rank t x = cr_rank (combination_ranking_init p) x.
Proof.
  intros R p HR HM HN. destruct (trie_rank_raw R p 0 ltac:(lia) HM HN) as [t [Et _]].
  exists t. split; [exact Et|]. intros x Hx.
  destruct (trie_rank_raw R p x ltac:(lia) HM HN) as [t' [Et' Hr]]. rewrite Et in Et'. injection Et' as <-.
  rewrite (Hr Hx). symmetry. apply cr_rank_raw; [lia|exact HN|exact Hx].
Qed.
Print Assumptions C44_trie_equals_combination.

(** C44, against the specification: the rank is the position of the state in the sector *)
Theorem C44_trie_rank_is_position : forall (R : nat) (p : sector_params) (t : trie_ranking) (x : N),
  (0 < R < 64)%nat -> (pM p <= 62)%nat -> (pN p <= pM p)%nat ->
  trie_ranking_init R p = Some t -> in_sector (pM p) (pN p) x = true ->
  trie_rank t x = Some (sector_position (pM p) (pN p) x).
Proof.
  intros R p t x HR HM HN Et Hx. destruct (trie_rank_raw R p x ltac:(lia) HM HN) as [t' [Et' Hr]].
  rewrite Et in Et'. injection Et' as <-. rewrite (Hr Hx). f_equal. apply rank_raw_position; assumption.
Qed.
Print Assumptions C44_trie_rank_is_position.

(** with 63 modes (accepted by combination_ranking) the size of the table is computed with
    an undefined shift by 64 bits *)
Theorem C44_63_modes_refuted : forall (R : nat) (p : sector_params),
  pM p = 63%nat -> trie_ranking_init R p = None.
Proof. intros R p E. unfold trie_ranking_init. rewrite E. reflexivity. Qed.
Print Assumptions C44_63_modes_refuted.

(** non-vacuity: a sector with a full chunk, a shorter last chunk and a packed trie *)
Example C44_ex : match trie_ranking_init 3 {| pM := 7; pmask := 127; pN := 5 |} with
  | Some t => in_sector 7 5 107 = true /\ trie_rank t 107 = Some 8 /\
              cr_rank (combination_ranking_init {| pM := 7; pmask := 127; pN := 5 |}) 107 = Some 8 /\
              length (tr_trie t) = 52%nat
  | None => False end.
Proof. vm_compute. auto. Qed.
