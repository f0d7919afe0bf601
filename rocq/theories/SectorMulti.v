(** Proofs about multisectors: decomposition of states into parts selected by
    disjoint masks *)
From Coq Require Import NArith ZArith List Bool Arith Sorted Permutation Lia.
From Verif Require Import BitsModel BitsSpec BitsProofs RankModel RankSpec RankProofs ExprModel ExprSpec ExprOrder HSModel HSSpec HSEnum HSProofs HSMain PropHS
  PropRank LOpModel LOpSpec SectorModel SectorSpec SectorProofs SectorMain SectorGen.
Import ListNotations.
Open Scope N_scope.
Open Scope list_scope.

Definition sub (v m : N) : Prop := N.land v m = v.
Lemma sub_bits v m : sub v m <-> (forall n, N.testbit v n = true -> N.testbit m n = true).
Proof.
  unfold sub. split.
  - intros E n h. rewrite <- E, N.land_spec in h. now apply andb_prop in h.
  - intros H. apply N.bits_inj. intros n. rewrite N.land_spec. specialize (H n). destruct (N.testbit v n); auto.
Qed.
Lemma disj_bits a b : N.land a b = 0 <-> (forall n, N.testbit a n = true -> N.testbit b n = false).
Proof.
  split.
  - intros E n h. assert (N.testbit (N.land a b) n = false) by (rewrite E; apply N.bits_0). rewrite N.land_spec, h in H. auto.
  - intros H. apply N.bits_inj_0. intros n. rewrite N.land_spec. specialize (H n). destruct (N.testbit a n); auto.
Qed.
Lemma sub_disj a m b m' : sub a m -> sub b m' -> N.land m m' = 0 -> N.land a b = 0.
Proof.
  rewrite !sub_bits, !disj_bits. intros H1 H2 H3 n h. specialize (H1 n h). specialize (H3 n H1). specialize (H2 n). destruct (N.testbit b n); auto.
  rewrite H2 in H3; auto.
Qed.
Lemma sub_refl a : sub a a. Proof. apply N.land_diag. Qed.
Lemma sub_trans a b c : sub a b -> sub b c -> sub a c.
Proof. rewrite !sub_bits. auto. Qed.
Lemma sub_lt a m k : sub a m -> m < 2 ^ k -> a < 2 ^ k.
Proof.
  rewrite sub_bits, !bits_lt_pow. intros H1 H2 i hi. specialize (H1 i). specialize (H2 i hi). destruct (N.testbit a i); auto. rewrite H1 in H2; auto.
Qed.
Lemma add_disj a b : N.land a b = 0 -> a + b = N.lor a b.
Proof. intros H. rewrite N.add_nocarry_lxor by auto. now apply N.lxor_lor. Qed.
Lemma sub_lor a b m : sub a m -> sub b m -> sub (N.lor a b) m.
Proof. rewrite !sub_bits. intros H1 H2 n. rewrite N.lor_spec. intros h. apply orb_prop in h. destruct h; auto. Qed.
Lemma sub_lor_l a m m' : sub a m -> sub a (N.lor m m').
Proof. rewrite !sub_bits. intros H n h. rewrite N.lor_spec, (H n h). auto. Qed.
Lemma sub_lor_r a m m' : sub a m' -> sub a (N.lor m m').
Proof. rewrite !sub_bits. intros H n h. rewrite N.lor_spec, (H n h). apply orb_true_r. Qed.
Lemma sub_land a m : sub (N.land a m) m.
Proof. apply sub_bits. intros n. rewrite N.land_spec. intros h. now apply andb_prop in h. Qed.
Lemma land_comm0 a b : N.land a b = 0 -> N.land b a = 0.
Proof. now rewrite N.land_comm. Qed.

(** ** extraction and deposition as functions *)
Definition ext (m x : N) : N := match extract_bits x m with Some r => r | None => 0 end.
Lemma ext_some m x : u64 m -> u64 x -> extract_bits x m = Some (ext m x).
Proof. intros h hx. destruct (extract_bits_spec x m hx h) as [r [E _]]. unfold ext. now rewrite E. Qed.
Lemma ext_is m x : u64 m -> u64 x -> is_extract x m (ext m x).
Proof. intros h hx. destruct (extract_bits_spec x m hx h) as [r [E Q]]. unfold ext. now rewrite E. Qed.
Lemma dep_is m u : u64 m -> is_deposit u m (dep m u).
Proof. intros h. destruct (deposit_bits_spec u m h) as [r [E Q]]. unfold dep. now rewrite E. Qed.
Lemma ones_bit m p : In p (ones m) -> N.testbit m (N.of_nat p) = true.
Proof. unfold ones. intros H. apply filter_In in H. tauto. Qed.
Lemma ext_agree m x y : u64 m -> u64 x -> u64 y -> N.land x m = N.land y m -> ext m x = ext m y.
Proof.
  intros hm hx hy E. apply testbit_nat_ext. intros i. rewrite (ext_is m x hm hx i), (ext_is m y hm hy i).
  destruct (nth_error (ones m) i) as [p|] eqn:Q; auto. apply nth_error_In, ones_bit in Q.
  apply (f_equal (fun z => N.testbit z (N.of_nat p))) in E. rewrite !N.land_spec, Q, !andb_true_r in E. exact E.
Qed.
Lemma ext_dep m u : u64 m -> u < 2 ^ N.of_nat (weight m) -> ext m (dep m u) = u.
Proof.
  intros hm hu. assert (hd : u64 (dep m u)) by (eapply sub_lt; [apply (is_deposit_le u); now apply dep_is|exact hm]).
  rewrite (extract_deposit u m (dep m u) (ext m (dep m u)) (dep_is m u hm) (ext_is m _ hm hd)).
  rewrite N.land_ones. now apply N.mod_small.
Qed.
Lemma dep_ext m x : u64 m -> u64 x -> dep m (ext m x) = N.land x m.
Proof. intros hm hx. apply (deposit_extract x m (ext m x)); [now apply ext_is|now apply dep_is]. Qed.
Lemma dep_sub m u : u64 m -> sub (dep m u) m.
Proof. intros hm. apply (is_deposit_le u). now apply dep_is. Qed.
Lemma ext_lt m x : u64 m -> u64 x -> ext m x < 2 ^ N.of_nat (weight m).
Proof. intros hm hx. eapply is_extract_lt. now apply ext_is. Qed.

(** number of extracted bits that are set *)
Lemma weight_filter n x : x < 2 ^ N.of_nat n -> weight x = length (filter (fun k => N.testbit x (N.of_nat k)) (seq 0 n)).
Proof. intros h. rewrite ones_mod_length. now rewrite N.mod_small. Qed.
Lemma filter_nth_seq (f : nat -> bool) (l : list nat) : forall (g : nat -> bool) s,
  (forall j, (j < length l)%nat -> g (s + j)%nat = match nth_error l j with Some p => f p | None => false end) ->
  length (filter g (seq s (length l))) = length (filter f l).
Proof.
  induction l as [|a l IH]; intros g s H; auto. cbn [length seq filter]. pose proof (H 0%nat ltac:(cbn; lia)) as H0. cbn in H0. rewrite Nat.add_0_r in H0. rewrite H0.
  assert (E : length (filter g (seq (Datatypes.S s) (length l))) = length (filter f l)).
  { apply IH. intros j hj. specialize (H (Datatypes.S j) ltac:(cbn; lia)). cbn in H. rewrite <- Nat.add_succ_comm in H. exact H. }
  destruct (f a); cbn; lia.
Qed.
Lemma ext_weight m x : u64 m -> u64 x -> weight (ext m x) = length (filter (fun p => N.testbit x (N.of_nat p)) (ones m)).
Proof.
  intros hm hx. rewrite (weight_filter (weight m)) by (now apply ext_lt). unfold weight. apply filter_nth_seq.
  intros j hj. cbn [Nat.add]. apply (ext_is m x hm hx j).
Qed.
Lemma filter_or_length (f g : nat -> bool) l : (forall k, In k l -> f k = true -> g k = false) ->
  length (filter (fun k => f k || g k) l) = (length (filter f l) + length (filter g l))%nat.
Proof.
  induction l as [|a l IH]; intros H; auto. cbn [filter]. pose proof (H a (or_introl eq_refl)) as Ha. specialize (IH (fun k i => H k (or_intror i))).
  destruct (f a) eqn:Fa; cbn [orb]; [rewrite Ha by auto; cbn; lia|]. destruct (g a); cbn; lia.
Qed.
Lemma size_nat_bound x : exists n, x < 2 ^ N.of_nat n.
Proof. exists (N.to_nat (N.size x)). rewrite N2Nat.id. apply N.size_gt. Qed.
Lemma weight_lor a b : N.land a b = 0 -> weight (N.lor a b) = (weight a + weight b)%nat.
Proof.
  intros D. destruct (size_nat_bound (N.lor a b)) as [n hn].
  assert (ha : a < 2 ^ N.of_nat n) by (eapply sub_lt; [|exact hn]; apply sub_lor_l, sub_refl).
  assert (hb : b < 2 ^ N.of_nat n) by (eapply sub_lt; [|exact hn]; apply sub_lor_r, sub_refl).
  rewrite (weight_filter n), (weight_filter n a), (weight_filter n b) by auto. rewrite <- filter_or_length.
  - f_equal. apply filter_ext. intros k. apply N.lor_spec.
  - intros k _ h. rewrite disj_bits in D. now apply D.
Qed.

(** ** Lists of disjoint masks *)
Fixpoint orall (ms : list N) : N := match ms with [] => 0 | m :: t => N.lor m (orall t) end.
Inductive disj : list N -> Prop :=
| disj_nil : disj []
| disj_cons m t : N.land m (orall t) = 0 -> disj t -> disj (m :: t).

Definition par_full (p : sector_params) : Prop := par_ok p /\ weight (pmask p) = pM p.
Notation ext_of p x := (ext (pmask p) x).

Lemma in_sector_lt M n x : in_sector M n x = true -> x < 2 ^ N.of_nat M.
Proof. unfold in_sector. intros h. apply andb_prop in h. now apply N.ltb_lt. Qed.
Lemma in_sector_weight M n x : in_sector M n x = true -> weight x = n.
Proof. unfold in_sector. intros h. apply andb_prop in h. now apply Nat.eqb_eq. Qed.

Lemma land_disj_l z y m : N.land z m = 0 -> N.land (N.lor z y) m = N.land y m.
Proof. intros H. now rewrite N.land_lor_distr_l, H, N.lor_0_l. Qed.
Lemma land_disj_r z y m : N.land y m = 0 -> N.land (N.lor z y) m = N.land z m.
Proof. intros H. now rewrite N.land_lor_distr_l, H, N.lor_0_r. Qed.
Lemma u64_lor a b : u64 a -> u64 b -> u64 (N.lor a b).
Proof.
  unfold u64. rewrite !bits_lt_pow. intros ha hb i hi. now rewrite N.lor_spec, ha, hb.
Qed.
Lemma u64_sub a m : sub a m -> u64 m -> u64 a.
Proof. intros h1 h2. eapply sub_lt; eauto. Qed.
Lemma orall_u64 ms : Forall u64 ms -> u64 (orall ms).
Proof. induction 1; [reflexivity|]. cbn. now apply u64_lor. Qed.
Lemma orall_In m ms : In m ms -> sub m (orall ms).
Proof. induction ms as [|a t IH]; [intros []|]. intros [->|h]; cbn; [apply sub_lor_l, sub_refl|apply sub_lor_r; auto]. Qed.

Lemma suf_sub ps : Forall par_full ps -> disj (map pmask ps) ->
  (forall y, In y (suf ps) <-> sub y (orall (map pmask ps)) /\ Forall (fun p => in_sector (pM p) (pN p) (ext_of p y) = true) ps).
Proof.
  induction ps as [|p ps IH]; intros F D y.
  - cbn. split; [intros [<-|[]]; split; [reflexivity|constructor]|]. intros [h _]. left. symmetry. rewrite <- h. apply N.land_0_r.
  - inversion F as [|? ? [[hM [hN hu]] hw] F']; subst. inversion D as [|? ? d D']; subst. specialize (IH F' D').
    pose proof (gen_rem_fresh p (conj hM (conj hN hu))) as [_ [_ [_ [A _]]]].
    assert (U : u64 (orall (map pmask ps))).
    { apply orall_u64. apply Forall_forall. intros m Hm. apply in_map_iff in Hm. destruct Hm as [q [<- Hq]].
      rewrite Forall_forall in F'. apply (F' q Hq). }
    cbn [suf map orall]. rewrite blocks_In. split.
    + intros [u [y' [Hu [Hy' ->]]]]. apply IH in Hy'. destruct Hy' as [S1 S2]. apply A in Hu.
      pose proof (dep_sub (pmask p) u hu) as Sd. assert (dd : N.land (dep (pmask p) u) y' = 0) by (eapply sub_disj; eauto).
      rewrite add_disj by auto. pose proof (u64_sub _ _ S1 U) as Uy. pose proof (u64_sub _ _ Sd hu) as Ud. split.
      * apply sub_lor; [now apply sub_lor_l|now apply sub_lor_r].
      * constructor.
        -- rewrite (ext_agree _ _ (dep (pmask p) u)); [|exact hu|now apply u64_lor|exact Ud|].
           ++ rewrite ext_dep; [exact Hu|exact hu|]. rewrite hw. eapply in_sector_lt; exact Hu.
           ++ apply land_disj_r. eapply sub_disj; [exact S1|apply sub_refl|]. now apply land_comm0.
        -- rewrite Forall_forall in S2 |- *. intros q Hq. rewrite Forall_forall in F'.
           assert (E1 : ext_of q (N.lor (dep (pmask p) u) y') = ext_of q y'); [|cbv beta; rewrite E1; exact (S2 q Hq)].
           apply ext_agree; auto; [apply (F' q Hq)|now apply u64_lor|].
           apply land_disj_l. eapply sub_disj; [exact Sd| |exact d]. apply orall_In. now apply in_map.
    + intros [S1 S2]. inversion S2 as [|? ? h1 h2]; subst.
      assert (Uy : u64 y) by (eapply u64_sub; [exact S1|now apply u64_lor]).
      exists (ext (pmask p) y), (N.land y (orall (map pmask ps))). split; [apply (proj2 (A _)); exact h1|]. split.
      * apply IH. split; [apply sub_land|]. rewrite Forall_forall in h2 |- *. intros q Hq.
        assert (E1 : ext_of q (N.land y (orall (map pmask ps))) = ext_of q y); [|cbv beta; rewrite E1; exact (h2 q Hq)].
        rewrite Forall_forall in F'. apply ext_agree; auto; [apply (F' q Hq)|eapply u64_sub; [apply sub_land|auto]|].
        rewrite <- N.land_assoc. rewrite (N.land_comm (orall _)). now rewrite (orall_In (pmask q) _ (in_map pmask _ _ Hq)).
      * rewrite dep_ext by auto. rewrite add_disj.
        -- rewrite <- N.land_lor_distr_r. symmetry. exact S1.
        -- eapply sub_disj; [apply sub_land|apply sub_land|exact d].
Qed.

(** ** map_index *)
Fixpoint prodt (ps : list sector_params) : list N :=
  match ps with [] => [] | _ :: t => prodb t :: prodt t end.
Lemma prodb_pos ps : Forall par_ok ps -> 0 < prodb ps.
Proof. induction 1 as [|p ps [h1 [h2 _]] H IH]; cbn; [lia|]. pose proof (binom_pos (pM p) (pN p) h2). fold (prodb ps). nia. Qed.
Lemma prodb_cons p ps : prodb (p :: ps) = binom (pM p) (pN p) * prodb ps.
Proof. reflexivity. Qed.
Lemma strides_spec ps : Forall par_ok ps -> prodb ps < 2 ^ 64 -> strides ps = prodt ps.
Proof.
  induction 1 as [|p ps Hp H IH]; intros hb; auto. rewrite prodb_cons in hb. destruct Hp as [h1 [h2 _]].
  pose proof (binom_pos (pM p) (pN p) h2) as P1. pose proof (prodb_pos ps H) as P2.
  assert (hb' : prodb ps < 2 ^ 64) by nia. specialize (IH hb'). cbn [strides prodt]. destruct ps as [|q t]; [reflexivity|].
  rewrite IH. cbn [prodt]. f_equal. inversion H as [|? ? [h3 [h4 _]] _]; subst. rewrite binomial_exact by auto. rewrite prodb_cons.
  rewrite N.mul_comm. apply w64_small. now rewrite <- prodb_cons.
Qed.

Lemma index_loop ps : Forall par_full ps -> disj (map pmask ps) -> prodb ps < 2 ^ 64 ->
  forall rs, Forall2 rank_ok ps rs ->
  forall z acc i y, u64 z -> N.land z (orall (map pmask ps)) = 0 -> nth_error (suf ps) i = Some y -> acc + N.of_nat i < 2 ^ 64 ->
  multi_index_loop ps rs (prodt ps) (N.lor z y) acc = Some (acc + N.of_nat i).
Proof.
  induction ps as [|p ps IH]; intros F D hb rs Rk z acc i y Uz dz E ha.
  - cbn in *. destruct i; [|destruct i; discriminate]. cbn in E. f_equal. lia.
  - inversion Rk as [|? r ? rs' Hr Rk']; subst. inversion F as [|? ? [[hM [hN hu]] hw] F']; subst. inversion D as [|? ? d D']; subst.
    assert (Fo : Forall par_ok ps) by (eapply Forall_impl; [|exact F']; intros q [a _]; exact a).
    rewrite prodb_cons in hb. pose proof (binom_pos (pM p) (pN p) hN) as P1. pose proof (prodb_pos ps Fo) as P2.
    assert (hb' : prodb ps < 2 ^ 64) by nia.
    pose proof (gen_rem_fresh p (conj hM (conj hN hu))) as [_ [_ [_ [A R]]]].
    cbn [suf] in E. destruct (blocks_nth _ _ _ _ _ E) as [k [q [u [y' [Ei [hq [Eu [Ey ->]]]]]]]].
    pose proof (nth_error_In _ _ Eu) as Hu. apply A in Hu. pose proof (nth_error_In _ _ Ey) as Hy. apply (suf_sub ps F' D') in Hy. destruct Hy as [S1 S2].
    assert (U : u64 (orall (map pmask ps))).
    { apply orall_u64. apply Forall_forall. intros m Hm. apply in_map_iff in Hm. destruct Hm as [q' [<- Hq']].
      rewrite Forall_forall in F'. apply (F' q' Hq'). }
    pose proof (u64_sub _ _ S1 U) as Uy. pose proof (dep_sub (pmask p) u hu) as Sd. pose proof (u64_sub _ _ Sd hu) as Ud.
    assert (dd : N.land (dep (pmask p) u) y' = 0) by (eapply sub_disj; eauto). rewrite add_disj by auto.
    cbn [map orall] in dz. assert (dz1 : N.land z (pmask p) = 0).
    { eapply sub_disj; [apply sub_refl| |exact dz]. apply sub_lor_l, sub_refl. }
    assert (dz2 : N.land z (orall (map pmask ps)) = 0).
    { eapply sub_disj; [apply sub_refl| |exact dz]. apply sub_lor_r, sub_refl. }
    cbn [multi_index_loop prodt]. rewrite ext_some; [|exact hu|repeat apply u64_lor; assumption].
    assert (Ex : ext (pmask p) (N.lor z (N.lor (dep (pmask p) u) y')) = u).
    { transitivity (ext (pmask p) (dep (pmask p) u)).
      - apply ext_agree; [exact hu|repeat apply u64_lor; assumption|exact Ud|].
        rewrite land_disj_l by assumption. apply land_disj_r. eapply sub_disj; [exact S1|apply sub_refl|]. now apply land_comm0.
      - apply ext_dep; [exact hu|]. rewrite hw. eapply in_sector_lt; exact Hu. }
    rewrite Ex, (Hr u Hu), (R k u Eu). pose proof (suf_length ps Fo) as Ls.
    assert (Ei' : N.of_nat i = N.of_nat k * prodb ps + N.of_nat q) by (rewrite Ei, Nat2N.inj_add, Nat2N.inj_mul, Ls; reflexivity).
    rewrite (w64_small (N.of_nat k * prodb ps)) by lia. rewrite w64_small by lia.
    rewrite N.lor_assoc. rewrite (IH F' D' hb' rs' Rk' (N.lor z (dep (pmask p) u)) _ q y').
    + f_equal. lia.
    + now apply u64_lor.
    + rewrite N.land_lor_distr_l, dz2, N.lor_0_l. eapply sub_disj; [exact Sd|apply sub_refl|exact d].
    + exact Ey.
    + lia.
Qed.

(** ** products of binomial coefficients *)
Lemma vandermonde_le a : forall i b j, binom a i * binom b j <= binom (a + b) (i + j).
Proof.
  induction a as [|a IH]; intros i b j.
  - destruct i; cbn [binom Nat.add]; lia.
  - destruct i as [|i].
    + cbn [binom]. rewrite N.mul_1_l. cbn [Nat.add]. pose proof (IH 0%nat b j) as H0. assert (binom a 0 = 1) as E by (now destruct a). rewrite E in H0.
      cbn [Nat.add] in H0. destruct j as [|j]; cbn [binom].
      * destruct b; cbn; lia.
      * lia.
    + cbn [Nat.add binom]. pose proof (IH i b j). pose proof (IH (Datatypes.S i) b j). cbn [Nat.add] in *. lia.
Qed.
Lemma prodb_le ps : exists n, prodb ps <= binom (fold_right (fun p a => (pM p + a)%nat) 0%nat ps) n.
Proof.
  induction ps as [|p ps [n IH]]; [exists 0%nat; cbn; lia|]. exists (pN p + n)%nat. rewrite prodb_cons. cbn [fold_right].
  eapply N.le_trans; [|apply vandermonde_le]. now apply N.mul_le_mono_l.
Qed.
Lemma binom_zero n k : (n < k)%nat -> binom n k = 0.
Proof. revert k. induction n as [|n IH]; intros [|k] h; try lia; cbn [binom]; auto. rewrite !IH by lia. reflexivity. Qed.
Lemma binom_32 n k : (n <= 32)%nat -> binom n k < 2 ^ 31.
Proof.
  intros h. destruct (Nat.lt_ge_cases n k) as [h2|h2]; [rewrite binom_zero by auto; reflexivity|].
  assert (Q : forallb (fun n => forallb (fun k => binomial n k <? 2 ^ 31) (seq 0 33)) (seq 0 33) = true) by (vm_compute; reflexivity).
  rewrite forallb_forall in Q. specialize (Q n ltac:(apply in_seq; lia)). rewrite forallb_forall in Q. specialize (Q k ltac:(apply in_seq; lia)).
  apply N.ltb_lt in Q. rewrite binomial_exact in Q by lia. exact Q.
Qed.
