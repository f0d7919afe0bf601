(** * Correctness of trie_ranking: the loops and the recursion of make_trie() *)
From Coq Require Import NArith ZArith List Bool Arith Lia.
From Verif Require Import BitsModel BitsSpec BitsProofs RankModel RankSpec RankProofs TrieModel TrieProofs.
Import ListNotations.
Open Scope N_scope.

Lemma pow2_some n : (n < 64)%nat -> pow2 n = Some (2 ^ N.of_nat n).
Proof. intros H. unfold pow2. destruct (Nat.ltb_spec n 64); [reflexivity|lia]. Qed.
Lemma pow_S n : 2 ^ N.of_nat (S n) = 2 * 2 ^ N.of_nat n.
Proof. rewrite Nat2N.inj_succ. apply N.pow_succ_r'. Qed.
Lemma pow_add a b : 2 ^ N.of_nat (a + b) = 2 ^ N.of_nat a * 2 ^ N.of_nat b.
Proof. rewrite Nat2N.inj_add. apply N.pow_add_r. Qed.
Lemma pow_ge2 n : (1 <= n)%nat -> 2 <= 2 ^ N.of_nat n.
Proof. intros H. destruct n as [|n]; [lia|]. rewrite pow_S. pose proof (pow_pos_N (N.of_nat n)). lia. Qed.
Lemma pow_le a b : (a <= b)%nat -> 2 ^ N.of_nat a <= 2 ^ N.of_nat b.
Proof. intros H. apply N.pow_le_mono_r; lia. Qed.

(** admissible lists of chunk sizes *)
Fixpoint okc (chunks : list nat) (m : nat) : Prop :=
  match chunks with
  | [] => False
  | s :: rest =>
      (1 <= s <= m)%nat /\
      match rest with [] => s = m | s' :: _ => (s' <= s)%nat /\ okc rest (m - s) end
  end.
Definition first_chunk (chunks : list nat) : nat := hd O chunks.

Section Make.
Variables (K M : nat).
Hypothesis HM : (M <= 62)%nat.
Notation isW := (isW K).
Notation rk := (rk K).
Notation Pos := (Pos K).
Notation path := (path K).

Definition prefix (x : N) (m : nat) : N := x / 2 ^ N.of_nat m.

Lemma prefix_mono x y m : x <= y -> prefix x m <= prefix y m.
Proof. intros H. apply N.div_le_mono; [apply N.pow_nonzero; lia|exact H]. Qed.
Lemma prefix_lt x y m : prefix x m < prefix y m -> x < y.
Proof. intros H. destruct (N.lt_ge_cases x y) as [L|L]; [exact L|]. pose proof (prefix_mono y x m L). lia. Qed.

(** what make_trie() has to do for the words that share the prefix of [st] *)
Definition tri_spec (chunks : list nat) (m : nat) (mk : tstate -> option tstate) : Prop :=
  forall rank st k mem,
    isW st -> rank = rk st -> st < 2 ^ N.of_nat M ->
    (forall x, isW x -> prefix x m = prefix st m -> st <= x) ->
    k + 2 * 2 ^ N.of_nat m <= len mem + 2 -> len mem <= 2 ^ 63 ->
    let c0 := chunk st (m - first_chunk chunks) (first_chunk chunks) in
    exists rank' st' k' mem' b',
      mk {| ts_rank := rank; ts_st := st; ts_k := k; ts_mem := mem |} =
        Some {| ts_rank := rank'; ts_st := st'; ts_k := k'; ts_mem := mem' |} /\
      Pos rank' st' b' /\
      (forall x, isW x -> st <= x -> (prefix x m = prefix st m <-> x < b')) /\
      len mem' = len mem /\
      (forall a, a < k + c0 -> rd mem' a = rd mem a) /\
      k + c0 < k' /\ k' + 2 <= k + 2 * 2 ^ N.of_nat m /\
      (forall x, isW x -> prefix x m = prefix st m -> path mem' chunks m x k (k + c0) k').

Section Level.
Variables (s m : nat) (st0 kp : N) (mem0 : list Z).
Hypothesis Hs : (1 <= s)%nat.
Hypothesis Hsm : (s + m <= M)%nat.
Hypothesis Hst0 : isW st0.
Hypothesis Hlt0 : st0 < 2 ^ N.of_nat M.
Hypothesis Hfirst : forall x, isW x -> prefix x (s + m) = prefix st0 (s + m) -> st0 <= x.
Hypothesis Hlen0 : len mem0 <= 2 ^ 63.
Hypothesis Hroom : kp + 2 * 2 ^ N.of_nat (s + m) <= len mem0 + 2.

Let E := 2 ^ N.of_nat s.
Let q := prefix st0 (s + m).
Let c0 := chunk st0 m s.
Notation ch x := (chunk x m s).

Lemma split_prefix x : prefix x m = prefix x (s + m) * E + ch x.
Proof. apply chunk_split. Qed.
Lemma chunk_codeE x : N.land (N.shiftr x (N.of_nat m)) (E - 1) = ch x.
Proof. apply chunk_code. Qed.
Lemma E_ge2 : 2 <= E.
Proof. apply pow_ge2. exact Hs. Qed.
Lemma ch_lt x : ch x < E.
Proof. apply chunk_lt. Qed.

Lemma in_q_lt x : prefix x (s + m) = q -> x < 2 ^ N.of_nat M.
Proof.
  intros H. assert (q < 2 ^ N.of_nat (M - (s + m))) as Hq.
  { apply N.div_lt_upper_bound; [apply N.pow_nonzero; lia|]. rewrite <- pow_add.
    replace (s + m + (M - (s + m)))%nat with M by lia. exact Hlt0. }
  destruct (N.lt_ge_cases x (2 ^ N.of_nat M)) as [L|L]; [exact L|exfalso].
  pose proof (prefix_mono _ _ (s + m) L) as Hm. rewrite H in Hm. unfold prefix in Hm.
  replace M with ((M - (s + m)) + (s + m))%nat in Hm at 1 by lia. rewrite pow_add in Hm.
  rewrite N.div_mul in Hm by (apply N.pow_nonzero; lia). lia.
Qed.

Definition table_ok (k : N) (mem : list Z) : Prop :=
  len mem = len mem0 /\ (forall a, a < kp + c0 -> rd mem a = rd mem0 a) /\ kp + E <= k.

Definition loop_post (B : N) (cell : list Z -> N -> N -> Prop) (o : option (N * tstate)) : Prop :=
  exists c rank' st' k' mem' b',
    o = Some (c, {| ts_rank := rank'; ts_st := st'; ts_k := k'; ts_mem := mem' |}) /\
    Pos rank' st' b' /\
    (forall x, isW x -> st0 <= x -> (prefix x (s + m) = q <-> x < b')) /\
    table_ok k' mem' /\ k' <= B /\
    (exists xl, isW xl /\ prefix xl (s + m) = q /\ ch xl = c) /\
    (forall x, isW x -> prefix x (s + m) = q -> ch x <= c /\ cell mem' k' x).

(** the loop invariant *)
Definition loop_inv (cell : list Z -> N -> N -> Prop) (c rank st k : N) (mem : list Z) : Prop :=
  isW st /\ rank = rk st /\ st < 2 ^ 64 /\ st0 <= st /\
  (forall x, isW x -> st0 <= x -> x < st ->
     prefix x (s + m) = q /\ prefix x m < prefix st m /\ ch x <= c /\ cell mem k x) /\
  (st0 < st -> exists xl, isW xl /\ st0 <= xl /\ xl < st /\ ch xl = c) /\
  table_ok k mem.

Lemma test_prefix st : st < 2 ^ 64 ->
  (N.land st (not64 (2 ^ N.of_nat (s + m) - 1)) =? N.land st0 (not64 (2 ^ N.of_nat (s + m) - 1)))
  = (prefix st (s + m) =? q).
Proof.
  intros H. assert (st0 < 2 ^ 64) as H0.
  { eapply N.lt_trans; [exact Hlt0|]. apply N.pow_lt_mono_r; lia. }
  rewrite !prefix_code by (exact H || exact H0 || lia). fold (prefix st (s + m)) (prefix st0 (s + m)). fold q.
  assert (2 ^ N.of_nat (s + m) <> 0) as Hp by (apply N.pow_nonzero; lia).
  destruct (N.eqb_spec (prefix st (s + m)) q) as [->|Hn]; [apply N.eqb_refl|].
  apply N.eqb_neq. intros Hc. apply Hn. apply N.mul_cancel_r in Hc; [exact Hc|exact Hp].
Qed.

Lemma loop_exit B (cell : list Z -> N -> N -> Prop) c rank st k mem :
  loop_inv cell c rank st k mem -> k <= B -> prefix st (s + m) <> q ->
  loop_post B cell (Some (c, {| ts_rank := rank; ts_st := st; ts_k := k; ts_mem := mem |})).
Proof.
  intros [Hw [Hr [Hu [Hge [Hproc [Hlast Ht]]]]]] HB Hne.
  assert (st0 < st) as Hlt.
  { destruct (N.eq_dec st0 st) as [<-|]; [exfalso; apply Hne; reflexivity|lia]. }
  assert (forall x, isW x -> prefix x (s + m) = q -> st0 <= x /\ x < st) as Hin.
  { intros x Hx Hq. split; [apply Hfirst; assumption|]. apply (prefix_lt x st (s + m)).
    pose proof (prefix_mono st0 st (s + m) Hge) as Hm. fold q in Hm. lia. }
  exists c, rank, st, k, mem, st. split; [reflexivity|].
  split; [left; repeat split; assumption|].
  split. { intros x Hx Hle. split; [intros Hq; apply Hin; assumption|intros Hl; apply (Hproc x); assumption]. }
  split; [exact Ht|]. split; [exact HB|]. split.
  - destruct (Hlast Hlt) as [xl [H1 [H2 [H3 H4]]]]. exists xl. split; [exact H1|]. split; [|exact H4].
    apply (Hproc xl); assumption.
  - intros x Hx Hq. destruct (Hin x Hx Hq) as [H1 H2]. destruct (Hproc x Hx H1 H2) as [_ [_ H3]]. exact H3.
Qed.

(** the single word of an empty sector *)
Lemma loop_break B (cell : list Z -> N -> N -> Prop) c k mem rank st :
  K = O -> rank = 0 -> st = 0 -> table_ok k mem -> k <= B -> c = ch 0 -> st0 = 0 ->
  cell mem k 0 ->
  loop_post B cell (Some (c, {| ts_rank := rank; ts_st := st; ts_k := k; ts_mem := mem |})).
Proof.
  intros HK -> -> Ht HB -> H0 Hcell.
  assert (forall x, isW x -> x = 0) as Hz.
  { intros x Hx. apply weight_0_inv. unfold TrieProofs.isW in Hx. rewrite HK in Hx. exact Hx. }
  assert (prefix 0 (s + m) = q) as Hq0 by (unfold q; rewrite H0; reflexivity).
  exists (ch 0), 0, 0, k, mem, 1. split; [reflexivity|].
  split; [right; repeat split; assumption|].
  split. { intros x Hx _. rewrite (Hz x Hx). split; intros; [lia|exact Hq0]. }
  split; [exact Ht|]. split; [exact HB|]. split.
  - exists 0. split; [rewrite <- H0; exact Hst0|]. split; [exact Hq0|reflexivity].
  - intros x Hx _. rewrite (Hz x Hx). split; [lia|exact Hcell].
Qed.


(** one step forward: the words with the prefix of [st] have been treated *)
Lemma loop_step (cell : list Z -> N -> N -> Prop) c rank st k mem rank' st' k' mem' :
  loop_inv cell c rank st k mem -> prefix st (s + m) = q ->
  isW st' -> rank' = rk st' -> st' < 2 ^ 64 ->
  (forall x, isW x -> st <= x -> (prefix x m = prefix st m <-> x < st')) ->
  table_ok k' mem' ->
  (forall x, isW x -> st0 <= x -> x < st -> cell mem k x -> cell mem' k' x) ->
  (forall x, isW x -> prefix x m = prefix st m -> cell mem' k' x) ->
  loop_inv cell (ch st) rank' st' k' mem' /\ prefix st m < prefix st' m.
Proof.
  intros [Hw [Hr [Hu [Hge [Hproc [Hlast Ht]]]]]] Hq Hw' Hr' Hu' Hnext Ht' Hold Hnew.
  assert (st < st') as Hlt by (apply (Hnext st Hw (N.le_refl _)); reflexivity).
  assert (prefix st m < prefix st' m) as Hpl.
  { pose proof (prefix_mono st st' m (N.lt_le_incl _ _ Hlt)) as Hm.
    assert (prefix st' m <> prefix st m) as Hn.
    { intros Hc. apply (Hnext st' Hw' (N.lt_le_incl _ _ Hlt)) in Hc. lia. }
    lia. }
  split; [|exact Hpl].
  split; [exact Hw'|]. split; [exact Hr'|]. split; [exact Hu'|]. split; [lia|].
  split; [|split; [|exact Ht']].
  - intros x Hx H0 Hl. destruct (N.lt_ge_cases x st) as [L|L].
    + destruct (Hproc x Hx H0 L) as [H1 [H2 [H3 H4]]].
      split; [exact H1|]. split; [lia|]. split; [|apply Hold; assumption].
      pose proof (split_prefix x) as S1. pose proof (split_prefix st) as S2. rewrite H1 in S1. rewrite Hq in S2. lia.
    + assert (prefix x m = prefix st m) as Hp by (apply Hnext; assumption).
      pose proof (split_prefix x) as S1. pose proof (split_prefix st) as S2.
      pose proof (ch_lt x) as L1. pose proof (ch_lt st) as L2.
      assert (prefix x (s + m) = q /\ ch x = ch st) as [Hx1 Hx2].
      { rewrite Hp in S1. rewrite Hq in S2. rewrite S2 in S1.
        rewrite (N.mul_comm q), (N.mul_comm (prefix x (s + m))) in S1.
        apply N.div_mod_unique in S1; [|exact L2|exact L1]. destruct S1. split; congruence. }
      split; [exact Hx1|]. split; [lia|]. split; [lia|]. apply Hnew; assumption.
  - intros _. exists st. repeat split; assumption.
Qed.

Lemma in_prefix_u63 st : prefix st (s + m) = q -> st < 2 ^ 63.
Proof.
  intros H. eapply N.lt_le_trans; [apply in_q_lt; exact H|].
  change (2 ^ 63) with (2 ^ N.of_nat 63). apply pow_le. lia.
Qed.

Lemma st_chunk st : prefix st (s + m) = q -> prefix st m < (q + 1) * E.
Proof. intros H. rewrite split_prefix, H. pose proof (ch_lt st). lia. Qed.

Lemma kp_small : kp + E < 2 ^ 64 /\ kp + E <= len mem0 /\ kp + 2 * (E * 2 ^ N.of_nat m) <= len mem0 + 2.
Proof.
  clear Hfirst. pose proof E_ge2 as HE. rewrite pow_add in Hroom. fold E in Hroom.
  pose proof (pow_pos_N (N.of_nat m)) as Hp.
  assert (E <= E * 2 ^ N.of_nat m) as Hm by nia. split; [|split]; lia.
Qed.

Lemma c0_le x : isW x -> prefix x (s + m) = q -> c0 <= ch x.
Proof.
  intros Hx Hq. pose proof (prefix_mono st0 x m (Hfirst x Hx Hq)) as Hm.
  rewrite !split_prefix in Hm. fold q in Hm. rewrite Hq in Hm. fold c0 in Hm. lia.
Qed.

(** ** the loop at the last level *)
Definition leaf_cell (mem : list Z) (k x : N) : Prop := rd mem (kp + ch x) = (- Z.of_N (rk x))%Z.

Lemma leaf_loop : m = O -> forall fuel c rank st mem,
  loop_inv leaf_cell c rank st (kp + E) mem ->
  (q + 1) * E - prefix st m < N.of_nat fuel ->
  loop_post (kp + E) leaf_cell
    (trie_while fuel None (not64 (2 ^ N.of_nat (s + m) - 1)) (N.land st0 (not64 (2 ^ N.of_nat (s + m) - 1)))
       (E - 1) kp m c {| ts_rank := rank; ts_st := st; ts_k := kp + E; ts_mem := mem |}).
Proof.
  intros Hm0. pose proof kp_small as [HK1 [HK2 _]]. pose proof E_ge2 as HE.
  induction fuel as [|fuel IH]; intros c rank st mem Hinv Hf; [cbn in Hf; lia|].
  pose proof Hinv as [Hw [Hr [Hu [Hge [Hproc [Hlast Ht]]]]]].
  cbn [trie_while ts_st ts_rank ts_k ts_mem]. rewrite test_prefix by exact Hu.
  destruct (N.eqb_spec (prefix st (s + m)) q) as [Hq|Hq]; cbn [negb].
  2:{ apply loop_exit; [exact Hinv|apply N.le_refl|exact Hq]. }
  rewrite (chunk_codeE st).
  destruct Ht as [Hlen [Hfr Hk]]. pose proof (ch_lt st) as Hc. rewrite w64_small by lia.
  assert (rank < 2 ^ 63) as Hrk.
  { rewrite Hr. unfold TrieProofs.rk. pose proof (count_below_mono K st (2 ^ N.of_nat M) (N.lt_le_incl _ _ (in_q_lt st Hq))) as H1.
    rewrite count_below_pow in H1. pose proof (binom_le_pow M K) as H2.
    assert (2 ^ N.of_nat M < 2 ^ 63) as H3 by (apply N.pow_lt_mono_r; lia). lia. }
  rewrite to_i64_small by exact Hrk.
  destruct (vec_set_rd mem (kp + ch st) (- Z.of_N rank) ltac:(lia)) as [mem' [Es [El Er]]].
  rewrite Es. cbn [obind].
  assert (table_ok (kp + E) mem') as Ht'.
  { split; [lia|]. split; [|lia]. intros a Ha. rewrite Er.
    pose proof (c0_le st Hw Hq) as Hc0. destruct (N.eqb_spec a (kp + ch st)); [lia|]. apply Hfr; exact Ha. }
  assert (forall x, prefix x m = x) as Hp0.
  { intros x. unfold prefix. rewrite Hm0. apply N.div_1_r. }
  destruct (N.eqb_spec st 0) as [Hz|Hz].
  - assert (K = O) as HK by (unfold TrieProofs.isW in Hw; rewrite Hz in Hw; symmetry; exact Hw).
    apply loop_break.
    + exact HK.
    + rewrite Hr, Hz. reflexivity.
    + exact Hz.
    + exact Ht'.
    + apply N.le_refl.
    + rewrite Hz. reflexivity.
    + clear - Hge Hz. lia.
    + unfold leaf_cell. rewrite Er, Hz, N.eqb_refl, Hr, Hz. reflexivity.
  - destruct (next_word K st Hw ltac:(lia) (in_prefix_u63 st Hq)) as [st' [En [Hw' [Hlt [Hu' [Hr' Hmin]]]]]].
    rewrite En. cbn [obind]. rewrite w64_small by lia.
    destruct (loop_step leaf_cell c rank st (kp + E) mem (rank + 1) st' (kp + E) mem') as [Hi Hd]; auto.
    + rewrite Hr'. lia.
    + intros x Hx Hle. rewrite !Hp0. split; [intros ->; exact Hlt|].
      intros Hl. destruct (N.eq_dec x st) as [e|n]; [exact e|]. pose proof (Hmin x Hx ltac:(lia)). lia.
    + intros x Hx H0 H1 Hcell. unfold leaf_cell in *. rewrite Er.
      destruct (N.eqb_spec (kp + ch x) (kp + ch st)) as [e|n]; [|exact Hcell].
      exfalso. destruct (Hproc x Hx H0 H1) as [H2 [H3 _]]. pose proof (split_prefix x) as S1. pose proof (split_prefix st) as S2.
      rewrite H2 in S1. rewrite Hq in S2. lia.
    + intros x Hx Hp. rewrite !Hp0 in Hp. subst x. unfold leaf_cell. rewrite Er, N.eqb_refl. rewrite Hr. reflexivity.
    + apply IH; [exact Hi|]. pose proof (st_chunk st Hq). lia.
Qed.

(** ** the loop at the other levels *)
Lemma prefix_coarse x y : prefix x m = prefix y m -> prefix x (s + m) = prefix y (s + m) /\ ch x = ch y.
Proof.
  intros H. pose proof (split_prefix x) as S1. pose proof (split_prefix y) as S2.
  rewrite H in S1. rewrite S2 in S1.
  rewrite (N.mul_comm (prefix y (s + m))), (N.mul_comm (prefix x (s + m))) in S1.
  apply N.div_mod_unique in S1; [|apply ch_lt|apply ch_lt]. destruct S1. split; congruence.
Qed.

Section Node.
Variables (s' : nat) (rest' : list nat) (mk : tstate -> option tstate) (Kmax : N).
Notation rest := (s' :: rest').
Hypothesis Hs' : (1 <= s' <= s)%nat.
Hypothesis Hm' : (s' <= m)%nat.
Hypothesis Hmk : tri_spec rest m mk.
Hypothesis HKmax : Kmax <= len mem0.

Definition node_cell (mem : list Z) (k x : N) : Prop :=
  exists j y, rd mem (kp + ch x) = Z.of_N j /\ kp < j /\ isW y /\ prefix y m = prefix x m /\
    kp + E <= j + chunk y (m - s') s' /\ path mem rest m x j (kp + E) k.

Lemma node_loop : forall fuel c rank st k mem,
  loop_inv node_cell c rank st k mem ->
  (q + 1) * E - prefix st m < N.of_nat fuel ->
  k + ((q + 1) * E - prefix st m) * (2 * 2 ^ N.of_nat m - 2) <= Kmax ->
  loop_post Kmax node_cell
    (trie_while fuel (Some (s', mk)) (not64 (2 ^ N.of_nat (s + m) - 1)) (N.land st0 (not64 (2 ^ N.of_nat (s + m) - 1)))
       (E - 1) kp m c {| ts_rank := rank; ts_st := st; ts_k := k; ts_mem := mem |}).
Proof.
  pose proof kp_small as [HK1 [HK2 _]]. pose proof E_ge2 as HE.
  assert (2 <= 2 ^ N.of_nat m) as Hpm by (apply pow_ge2; lia).
  set (Bm := 2 * 2 ^ N.of_nat m - 2) in *.
  assert (2 * 2 ^ N.of_nat m = Bm + 2) as HBm by (unfold Bm; lia).
  assert (2 ^ N.of_nat s' <= E) as HE' by (apply pow_le; lia).
  induction fuel as [|fuel IH]; intros c rank st k mem Hinv Hf HB; [cbn in Hf; lia|].
  pose proof Hinv as [Hw [Hr [Hu [Hge [Hproc [Hlast Ht]]]]]].
  cbn [trie_while ts_st ts_rank ts_k ts_mem]. rewrite test_prefix by exact Hu.
  destruct (N.eqb_spec (prefix st (s + m)) q) as [Hq|Hq]; cbn [negb].
  2:{ apply loop_exit; [exact Hinv| |exact Hq]. clear - HB. set (z := _ * Bm) in HB. lia. }
  rewrite (chunk_codeE st).
  destruct Ht as [Hlen [Hfr Hk]]. pose proof (ch_lt st) as Hc.
  rewrite pow2_some by lia. cbn [obind]. rewrite chunk_code.
  set (f := chunk st (m - s') s') in *.
  assert (f < 2 ^ N.of_nat s') as Hfl by apply chunk_lt.
  pose proof (st_chunk st Hq) as Hsc.
  set (rem := (q + 1) * E - prefix st m) in *.
  assert (k + Bm <= Kmax) as Hk1.
  { assert (Bm <= rem * Bm) as Hn by (assert (1 <= rem) by (unfold rem; lia); clear - H; nia).
    clear - Hn HB. lia. }
  assert ((f <=? k) = true) as Hfk by (apply N.leb_le; lia). rewrite Hfk.
  assert (k < 2 ^ 64) as Hku by lia.
  rewrite sub64_small by (clear - Hku Hfl HE' Hk; lia).
  assert ((kp <? k - f) = true) as Hkp by (apply N.ltb_lt; lia). rewrite Hkp. cbn [negb].
  rewrite w64_small by lia.
  destruct (vec_set_rd mem (kp + ch st) (to_i64 (k - f)) ltac:(lia)) as [mem1 [Es [El Er]]].
  rewrite Es. cbn [obind]. rewrite to_i64_small in Er by lia.
  assert (forall x, isW x -> prefix x m = prefix st m -> st <= x) as Hfirst'.
  { intros x Hx Hp. destruct (prefix_coarse x st Hp) as [Hp1 _]. rewrite Hq in Hp1.
    pose proof (Hfirst x Hx Hp1) as H0. destruct (N.lt_ge_cases x st) as [L|L]; [exfalso|exact L].
    destruct (Hproc x Hx H0 L) as [_ [H2 _]]. lia. }
  destruct (Hmk rank st (k - f) mem1 Hw Hr (in_q_lt st Hq) Hfirst') as
    [rank' [st' [k' [mem' [b' [Ec [Hpos [Hnext [Hl' [Hfr' [Hk'1 [Hk'2 Hpath]]]]]]]]]]]].
  { rewrite HBm, El, Hlen. clear - Hk1 HKmax. lia. }
  { rewrite El, Hlen. exact Hlen0. }
  cbn [first_chunk hd] in Hfr', Hk'1, Hpath. fold f in Hfr', Hk'1, Hpath.
  assert (k - f + f = k) as Ekf by lia. rewrite Ekf in *.
  rewrite Ec. cbn [obind ts_st].
  assert (st < b') as Hsb by (apply (Hnext st Hw (N.le_refl _)); reflexivity).
  assert (table_ok k' mem') as Ht'.
  { split; [lia|]. split; [|lia]. intros a Ha. pose proof (c0_le st Hw Hq) as Hc0.
    rewrite Hfr' by lia. rewrite Er. destruct (N.eqb_spec a (kp + ch st)); [lia|]. apply Hfr; exact Ha. }
  assert (forall x, isW x -> prefix x m = prefix st m -> node_cell mem' k' x) as Hnew.
  { intros x Hx Hp. destruct (prefix_coarse x st Hp) as [_ Hcx]. exists (k - f), st.
    split. { rewrite Hcx, Hfr' by lia. rewrite Er, N.eqb_refl. reflexivity. }
    split; [lia|]. split; [exact Hw|]. split; [symmetry; exact Hp|]. split; [fold f; lia|].
    eapply path_frame; [apply Hpath; assumption|lia|lia|]. intros; reflexivity. }
  destruct (N.eqb_spec st' 0) as [Hz|Hz].
  - destruct Hpos as [[Hw' [Hb' _]]|[HK [_ [_ Hr']]]]; [exfalso; lia|].
    assert (st = 0) as Hst by (apply weight_0_inv; unfold TrieProofs.isW in Hw; rewrite HK in Hw; exact Hw).
    apply loop_break.
    + exact HK.
    + exact Hr'.
    + exact Hz.
    + exact Ht'.
    + clear - Hk'2 HBm Hk1. lia.
    + rewrite Hst. reflexivity.
    + clear - Hge Hst. lia.
    + apply Hnew; [rewrite <- Hst; exact Hw|rewrite Hst; reflexivity].
  - destruct Hpos as [[Hw' [Hb' [Hr' Hu']]]|[_ [H0 _]]]; [|contradiction]. subst b'.
    destruct (loop_step node_cell c rank st k mem rank' st' k' mem' Hinv Hq Hw' Hr' Hu' Hnext Ht') as [Hi Hd].
    + intros x Hx H0 H1 [j [y [Ej [Hj [Hy [Hyp [Hjy Hp]]]]]]]. exists j, y.
      pose proof (ch_lt x) as Hcx. destruct (Hproc x Hx H0 H1) as [H2 [H3 _]].
      split. { rewrite Hfr' by lia. rewrite Er. destruct (N.eqb_spec (kp + ch x) (kp + ch st)) as [e|n]; [exfalso|exact Ej].
        pose proof (split_prefix x) as S1. pose proof (split_prefix st) as S2. rewrite H2 in S1. rewrite Hq in S2. lia. }
      repeat (split; [assumption|]).
      eapply path_frame; [exact Hp|lia|lia|]. intros a Ha1 Ha2. rewrite Hfr' by lia. rewrite Er.
      destruct (N.eqb_spec a (kp + ch st)); [lia|reflexivity].
    + exact Hnew.
    + apply IH; [exact Hi| |].
      * clear - Hf Hd Hsc. unfold rem in Hf. lia.
      * assert (((q + 1) * E - prefix st' m) + 1 <= rem) as Hrem by (unfold rem; clear - Hd Hsc; lia).
        set (rem' := (q + 1) * E - prefix st' m) in *.
        assert (rem' * Bm + Bm <= rem * Bm) as Hn by (clear - Hrem; nia).
        clear - Hn HB Hk'2 HBm. lia.
Qed.
End Node.

(** ** removal of the unused cells at the end of the index *)
Lemma epilogue c k' mem' : len mem' = len mem0 -> kp + E <= k' -> k' <= len mem0 -> c0 <= c -> c < E ->
  let l := E - 1 - c in
  exists mem2,
    (if 0 <? l
     then do mem1 <- trie_copy (N.to_nat (k' - l - (kp + c + 1))) (kp + c + 1) l mem';
          trie_shift (N.to_nat (k' - l - (kp + c0))) (kp + c0) l mem1
     else Some mem') = Some mem2 /\
    len mem2 = len mem0 /\ (forall a, a < kp + c0 -> rd mem2 a = rd mem' a) /\
    ((l = 0 /\ mem2 = mem') \/
     (0 < l /\ (forall a, kp + c0 <= a -> a <= kp + c -> rd mem2 a = trie_dec l (rd mem' a)) /\
      (forall a, kp + E <= a -> a < k' -> rd mem2 (a - l) = trie_dec l (rd mem' a)))).
Proof.
  intros Hl Hk1 Hk2 Hc1 Hc2 l. assert (l = E - 1 - c) as Hll by reflexivity. clearbody l.
  assert (2 ^ 63 < 2 ^ 64) as Hp by reflexivity.
  destruct (N.ltb_spec 0 l) as [H0|H0].
  - destruct (trie_copy_spec l (N.to_nat (k' - l - (kp + c + 1))) (kp + c + 1) mem') as [mem1 [E1 [L1 R1]]].
    { rewrite N2Nat.id. lia. } { lia. }
    rewrite E1. cbn [obind].
    destruct (trie_shift_spec l (N.to_nat (k' - l - (kp + c0))) (kp + c0) mem1) as [mem2 [E2 [L2 R2]]].
    { rewrite N2Nat.id. lia. } { lia. }
    exists mem2. split; [exact E2|]. split; [lia|].
    rewrite N2Nat.id in R1, R2.
    split; [|right; split; [exact H0|split]].
    + intros a Ha. rewrite R2, R1.
      destruct (N.leb_spec (kp + c0) a); [lia|]. cbn [andb].
      destruct (N.leb_spec (kp + c + 1) a); [lia|]. reflexivity.
    + intros a Ha1 Ha2. rewrite R2, R1.
      destruct (N.leb_spec (kp + c0) a); [|lia].
      destruct (N.ltb_spec a (kp + c0 + (k' - l - (kp + c0)))); [|lia]. cbn [andb].
      destruct (N.leb_spec (kp + c + 1) a); [lia|]. reflexivity.
    + intros a Ha1 Ha2. rewrite R2, R1.
      destruct (N.leb_spec (kp + c0) (a - l)); [|lia].
      destruct (N.ltb_spec (a - l) (kp + c0 + (k' - l - (kp + c0)))); [|lia]. cbn [andb].
      destruct (N.leb_spec (kp + c + 1) (a - l)); [|lia].
      destruct (N.ltb_spec (a - l) (kp + c + 1 + (k' - l - (kp + c + 1)))); [|lia]. cbn [andb].
      do 2 f_equal. lia.
  - exists mem'. split; [reflexivity|]. split; [exact Hl|]. split; [reflexivity|]. left. split; [lia|reflexivity].
Qed.

(** exchanging two chunks of a word *)
Lemma swap_chunks s' y : (s' <= s)%nat -> (s' <= m)%nat -> isW y -> prefix y (s + m) = q ->
  ch y < chunk y (m - s') s' ->
  exists y', isW y' /\ prefix y' (s + m) = q /\ ch y' = chunk y (m - s') s'.
Proof.
  intros Hs1 Hs2 Hy Hq Hlt. set (f := chunk y (m - s') s') in *. set (c := ch y) in *.
  assert (f < 2 ^ N.of_nat s') as Hf by apply chunk_lt.
  assert (2 ^ N.of_nat s' <= E) as HE by (apply pow_le; lia).
  set (d := 2 ^ N.of_nat (m - s')). set (r := y mod d).
  assert (0 < d) as Hd by apply pow_pos_N.
  assert (r < d) as Hr by (apply N.mod_lt; lia).
  assert (prefix y m = c + E * q) as Hp by (rewrite split_prefix, Hq; fold c; lia).
  assert (y = r + d * (f + 2 ^ N.of_nat s' * (c + E * q))) as Ey.
  { rewrite (N.div_mod y d) at 1 by lia. fold r. rewrite N.add_comm. do 2 f_equal.
    pose proof (chunk_split y (m - s') s') as Hs3. fold d f in Hs3.
    replace (s' + (m - s'))%nat with m in Hs3 by lia. fold (prefix y m) in Hs3. rewrite Hp in Hs3. lia. }
  exists (r + d * (c + 2 ^ N.of_nat s' * (f + E * q))).
  assert (forall a b, a < 2 ^ N.of_nat s' -> prefix (r + d * (a + 2 ^ N.of_nat s' * b)) m = b) as Hpre.
  { intros a b Ha. unfold prefix. replace m with ((m - s') + s')%nat at 1 by lia. rewrite pow_add. fold d.
    rewrite <- N.div_div by (try apply N.pow_nonzero; lia).
    rewrite (N.mul_comm d), N.div_add, (N.div_small r d Hr), N.add_0_l by lia.
    rewrite (N.mul_comm (2 ^ _)), N.div_add, (N.div_small a _ Ha), N.add_0_l by (apply N.pow_nonzero; lia). reflexivity. }
  set (y' := r + d * (c + 2 ^ N.of_nat s' * (f + E * q))).
  assert (prefix y' m = f + E * q) as Hp' by (apply Hpre; lia).
  assert (prefix y' (s + m) = q /\ ch y' = f) as [H1 H2].
  { pose proof (split_prefix y') as S1. rewrite Hp' in S1. pose proof (ch_lt y') as L1.
    rewrite N.add_comm, (N.mul_comm (prefix y' (s + m))) in S1.
    apply N.div_mod_unique in S1; [|lia|exact L1]. destruct S1. split; congruence. }
  split; [|split; assumption].
  unfold TrieProofs.isW in *. rewrite <- Hy. rewrite Ey at 1. unfold y', d.
  assert (f < E) as HfE by lia. assert (c < E) as HcE by lia. assert (c < 2 ^ N.of_nat s') as Hcs by lia.
  rewrite (weight_app (m - s') _ r Hr), (weight_app s' _ c Hcs). unfold E. rewrite (weight_app s q f HfE).
  rewrite (weight_app (m - s') _ r Hr), (weight_app s' _ f Hf), (weight_app s q c HcE). lia.
Qed.

(** the paths after the removal *)
Lemma leaf_finish c k' mem' mem2 l : m = O -> l = E - 1 - c -> kp + E <= k' ->
  (forall x, isW x -> prefix x (s + m) = q -> ch x <= c /\ leaf_cell mem' k' x) -> c < E ->
  ((l = 0 /\ mem2 = mem') \/
     (0 < l /\ (forall a, kp + c0 <= a -> a <= kp + c -> rd mem2 a = trie_dec l (rd mem' a)) /\
      (forall a, kp + E <= a -> a < k' -> rd mem2 (a - l) = trie_dec l (rd mem' a)))) ->
  forall x, isW x -> prefix x (s + m) = q -> path mem2 [s] (s + m) x kp (kp + c0) (k' - l).
Proof.
  intros Hm0 Hl Hk Hcells Hc Hmem x Hx Hq. destruct (Hcells x Hx Hq) as [Hcx Hcell].
  pose proof (c0_le x Hx Hq) as Hc0. unfold leaf_cell in Hcell.
  cbn [TrieProofs.path]. replace (s + m - s)%nat with m by lia.
  split; [lia|]. split; [lia|].
  destruct Hmem as [[_ ->]|[_ [Hown _]]]; [exact Hcell|].
  rewrite Hown by lia. rewrite Hcell. apply trie_dec_neg. lia.
Qed.

Lemma node_finish s' rest' c k' mem' mem2 l : (s' <= s)%nat -> (s' <= m)%nat ->
  l = E - 1 - c -> kp + E <= k' -> k' <= 2 ^ 63 ->
  (forall x, isW x -> prefix x (s + m) = q -> ch x <= c /\ node_cell s' rest' mem' k' x) -> c < E ->
  ((l = 0 /\ mem2 = mem') \/
     (0 < l /\ (forall a, kp + c0 <= a -> a <= kp + c -> rd mem2 a = trie_dec l (rd mem' a)) /\
      (forall a, kp + E <= a -> a < k' -> rd mem2 (a - l) = trie_dec l (rd mem' a)))) ->
  forall x, isW x -> prefix x (s + m) = q -> path mem2 (s :: s' :: rest') (s + m) x kp (kp + c0) (k' - l).
Proof.
  intros Hs1 Hs2 Hl Hk Hk63 Hcells Hc Hmem x Hx Hq. destruct (Hcells x Hx Hq) as [Hcx Hcell].
  pose proof (c0_le x Hx Hq) as Hc0. destruct Hcell as [j [y [Ej [Hj [Hy [Hyp [Hjy Hp]]]]]]].
  destruct (prefix_coarse y x Hyp) as [Hyq Hyc]. rewrite Hq in Hyq.
  assert (chunk y (m - s') s' <= c) as Hfc.
  { destruct (N.lt_ge_cases (ch y) (chunk y (m - s') s')) as [L|L].
    - destruct (swap_chunks s' y Hs1 Hs2 Hy Hyq L) as [y' [Hy' [Hq' Hc']]].
      destruct (Hcells y' Hy' Hq') as [H _]. lia.
    - lia. }
  change (path mem2 (s :: s' :: rest') (s + m) x kp (kp + c0) (k' - l)) with
    (kp + c0 <= kp + chunk x (s + m - s) s /\ kp + chunk x (s + m - s) s < k' - l /\
     exists j, rd mem2 (kp + chunk x (s + m - s) s) = Z.of_N j /\ kp < j /\
       path mem2 (s' :: rest') (s + m - s) x j (kp + c0) (k' - l)).
  replace (s + m - s)%nat with m by lia.
  split; [lia|]. split; [lia|].
  assert (j < k') as Hjk by (cbn [TrieProofs.path] in Hp; lia).
  destruct Hmem as [[Hl0 ->]|[Hl0 [Hown Hmove]]].
  - exists j. split; [exact Ej|]. split; [exact Hj|].
    eapply path_frame; [exact Hp|lia|lia|]. intros; reflexivity.
  - exists (j - l). split. { rewrite Hown by lia. rewrite Ej. apply trie_dec_pos; lia. }
    split; [lia|].
    eapply path_move; [exact Hp|lia|exact Hk63|lia|lia|exact Hmove].
Qed.

End Level.

Theorem make_trie_spec : forall chunks m, okc chunks m -> (m <= M)%nat -> tri_spec chunks m (make_trie chunks m).
Proof.
  induction chunks as [|s rest IH]; intros m0 Hok Hm0; [destruct Hok|].
  destruct Hok as [Hs Hok]. intros rank st k mem Hw Hr Hlt Hfirst Hroom Hlen.
  set (m := (m0 - s)%nat). assert (m0 = s + m)%nat as Em by lia.
  cbn [first_chunk hd]. fold m. clearbody m. subst m0. set (c0 := chunk st m s).
  assert (2 ^ N.of_nat M < 2 ^ 64) as HM64 by (apply N.pow_lt_mono_r; lia).
  assert (2 ^ N.of_nat s < 2 ^ 64) as Hs64 by (apply N.pow_lt_mono_r; lia).
  pose proof (kp_small s m st k mem (proj1 Hs) Hm0 Hlt Hlen Hroom) as [HK1 [HK2 HK3]].
  pose proof (E_ge2 s (proj1 Hs)) as HE.
  set (E := 2 ^ N.of_nat s) in *.
  cbn [make_trie ts_st ts_k ts_rank ts_mem].
  rewrite (pow2_some (s + m)) by lia. rewrite (pow2_some s) by lia. cbn [obind]. fold E.
  replace (s + m - s)%nat with m by lia.
  rewrite (w64_small (k + E)) by exact HK1.
  assert (N.land (N.shiftr st (N.of_nat m)) (E - 1) = c0) as Hc0 by apply chunk_code. rewrite Hc0.
  set (q := prefix st (s + m)).
  assert (forall cell, loop_inv s m st k mem cell (E - 1) rank st (k + E) mem) as Hinit.
  { intros cell. split; [exact Hw|]. split; [exact Hr|]. split; [lia|]. split; [lia|].
    split; [intros x _ H1 H2; lia|]. split; [intros; lia|]. split; [reflexivity|]. split; [reflexivity|]. apply N.le_refl. }
  assert ((q + 1) * E - prefix st m <= E) as Hrem.
  { pose proof (split_prefix s m st) as S1. fold q E in S1. lia. }
  assert ((q + 1) * E - prefix st m < N.of_nat (S (N.to_nat E))) as Hfuel by (clear - Hrem; lia).
  (* common end *)
  assert (forall Kmax cell o, Kmax <= len mem -> Kmax + 2 <= k + 2 * 2 ^ N.of_nat (s + m) ->
    loop_post s m st k mem Kmax cell o ->
    (forall c k' mem' mem2 l, l = E - 1 - c -> k + E <= k' -> k' <= 2 ^ 63 ->
      (forall x, isW x -> prefix x (s + m) = q -> chunk x m s <= c /\ cell mem' k' x) -> c < E ->
      ((l = 0 /\ mem2 = mem') \/
       (0 < l /\ (forall a, k + c0 <= a -> a <= k + c -> rd mem2 a = trie_dec l (rd mem' a)) /\
      (forall a, k + E <= a -> a < k' -> rd mem2 (a - l) = trie_dec l (rd mem' a)))) ->
      forall x, isW x -> prefix x (s + m) = q -> path mem2 (s :: rest) (s + m) x k (k + c0) (k' - l)) ->
    exists rank' st' k' mem' b',
      obind o (fun cr =>
       let l := sub64 (E - 1) (fst cr) in
       let r := snd cr in
       let table_head := w64 (k + c0) in
       let table_size := sub64 (sub64 E c0) l in
       let k := sub64 (ts_k r) l in
       do mem <- (if 0 <? l
                 then do mem1 <- trie_copy (N.to_nat (k - w64 (table_head + table_size)))
                                           (w64 (table_head + table_size)) l (ts_mem r);
                      trie_shift (N.to_nat (k - table_head)) table_head l mem1
                 else Some (ts_mem r));
        Some {| ts_rank := ts_rank r; ts_st := ts_st r; ts_k := k; ts_mem := mem |}) =
        Some {| ts_rank := rank'; ts_st := st'; ts_k := k'; ts_mem := mem' |} /\
      Pos rank' st' b' /\
      (forall x, isW x -> st <= x -> (prefix x (s + m) = prefix st (s + m) <-> x < b')) /\
      len mem' = len mem /\
      (forall a, a < k + c0 -> rd mem' a = rd mem a) /\
      k + c0 < k' /\ k' + 2 <= k + 2 * 2 ^ N.of_nat (s + m) /\
      (forall x, isW x -> prefix x (s + m) = prefix st (s + m) -> path mem' (s :: rest) (s + m) x k (k + c0) k')) as Hend.
  { intros Kmax cell o HKm HKm2 [c [rank' [st' [k' [mem' [b' [-> [Hpos [Hnext [[Hl' [Hfr Hk']] [HkK [[xl [Hxl [Hxlq Hxlc]]] Hcells]]]]]]]]]]]] Hfin.
    cbn [obind fst snd ts_rank ts_st ts_k ts_mem]. fold E in Hk'.
    assert (c < E) as Hc by (rewrite <- Hxlc; apply chunk_lt).
    assert (c0 <= c) as Hcc by (rewrite <- Hxlc; apply (c0_le s m st k mem (proj1 Hs) Hm0 Hlt Hfirst Hlen Hroom xl Hxl Hxlq)).
    rewrite (sub64_small (E - 1) c) by lia. set (l := E - 1 - c).
    assert (l = E - 1 - c) as Hll by reflexivity. clearbody l.
    rewrite (w64_small (k + c0)) by lia.
    rewrite (sub64_small E c0) by lia. rewrite (sub64_small (E - c0) l) by lia.
    rewrite (sub64_small k' l) by lia.
    replace (k + c0 + (E - c0 - l)) with (k + c + 1) by lia.
    rewrite (w64_small (k + c + 1)) by lia.
    destruct (epilogue s m st k mem (proj1 Hs) Hm0 Hlt Hfirst Hlen Hroom c k' mem' Hl' Hk' ltac:(lia) Hcc Hc) as [mem2 [E2 [L2 [F2 M2]]]].
    fold E c0 in E2, F2, M2. rewrite <- Hll in E2, M2. rewrite E2. cbn [obind].
    exists rank', st', (k' - l), mem2, b'. split; [reflexivity|]. split; [exact Hpos|]. split; [exact Hnext|].
    split; [exact L2|]. split. { intros a Ha. rewrite F2 by exact Ha. apply Hfr. exact Ha. }
    split; [lia|]. split; [lia|].
    intros x Hx Hq. apply (Hfin c k' mem' mem2 l); auto. lia. }
  destruct rest as [|s' rest'].
  - assert (m = O) as Hm by lia.
    apply (Hend (k + E) (leaf_cell s m k)).
    + exact HK2.
    + rewrite pow_add. fold E. rewrite Hm. cbn. lia.
    + apply (leaf_loop s m st k mem (proj1 Hs) Hm0 Hw Hlt Hfirst Hlen Hroom Hm); [apply Hinit|exact Hfuel].
    + intros c k' mem' mem2 l H1 H2 _ H4 H5 H6. exact (leaf_finish s m st k mem (proj1 Hs) Hm0 Hlt Hfirst Hlen Hroom c k' mem' mem2 l Hm H1 H2 H4 H5 H6).
  - destruct Hok as [Hs' Hok]. replace (s + m - s)%nat with m in Hok by lia.
    assert (1 <= s' <= m)%nat as Hs'm by (destruct Hok; lia).
    apply (Hend (k + 2 * (E * 2 ^ N.of_nat m) - 2) (node_cell s m k s' rest')).
    + lia.
    + rewrite pow_add. fold E. lia.
    + apply (node_loop s m st k mem (proj1 Hs) Hm0 Hw Hlt Hfirst Hlen Hroom s' rest'); [lia|lia| |lia|apply Hinit|exact Hfuel|].
      * apply IH; [exact Hok|lia].
      * assert (2 <= 2 ^ N.of_nat m) as H2 by (apply pow_ge2; lia).
        set (d := 2 ^ N.of_nat m) in *. fold q E. set (rem := (q + 1) * E - prefix st m) in *.
        assert (rem * (2 * d - 2) <= E * (2 * d - 2)) as Hn by (apply N.mul_le_mono_r; exact Hrem).
        assert (E * (2 * d - 2) = 2 * (E * d) - 2 * E) as Hn2 by (clear; nia).
        assert (E <= E * d) as Hn3 by (clear - H2; nia).
        clear - Hn Hn2 Hn3 HE. lia.
    + intros c k' mem' mem2 l H1 H2 H3 H4 H5 H6. exact (node_finish s m st k mem (proj1 Hs) Hm0 Hw Hlt Hfirst Hlen Hroom s' rest' c k' mem' mem2 l Hs' (proj2 Hs'm) H1 H2 H3 H4 H5 H6).
Qed.

End Make.
