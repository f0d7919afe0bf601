From Coq Require Import NArith List Bool Lia Arith Sorted ZifyBool ZifyNat ZifyN.
From Verif Require Import BitsModel BitsSpec BitsProofs RankModel RankSpec RankProofs.
Import ListNotations.
Open Scope N_scope.

Lemma omap_nth {A B} (f : A -> option B) l : forall bs i a,
  omap f l = Some bs -> nth_error l i = Some a -> exists b, f a = Some b /\ nth_error bs i = Some b.
Proof.
  induction l as [|x l IH]; intros bs i a Ho Hi.
  - destruct i; discriminate.
  - simpl in Ho. destruct (f x) as [b|] eqn:Ef; [|discriminate]. simpl in Ho.
    destruct (omap f l) as [bs'|] eqn:E; [|discriminate]. simpl in Ho. injection Ho as <-.
    destruct i as [|i]; simpl in *; [injection Hi as <-; eauto|]. eapply IH; eauto.
Qed.
Lemma omap_length {A B} (f : A -> option B) l : forall bs, omap f l = Some bs -> length bs = length l.
Proof.
  induction l as [|x l IH]; intros bs Ho; simpl in Ho; [injection Ho as <-; reflexivity|].
  destruct (f x); [|discriminate]. simpl in Ho. destruct (omap f l) eqn:E; [|discriminate].
  simpl in Ho. injection Ho as <-. simpl. f_equal. now apply IH.
Qed.
Lemma omap_some {A B} (f : A -> option B) l : (forall a, In a l -> exists b, f a = Some b) -> exists bs, omap f l = Some bs.
Proof.
  induction l as [|x l IH]; intros H; [eexists; reflexivity|]. simpl.
  destruct (H x (or_introl eq_refl)) as [b ->]. simpl.
  destruct IH as [bs ->]; [intros a Ha; apply H; now right|]. eexists; reflexivity.
Qed.

Lemma flat_map_prefix {A} (g : nat -> list A) n m k w : (m < n)%nat ->
  (k < length (g m))%nat -> length (flat_map g (seq 0 m)) = w ->
  nth_error (flat_map g (seq 0 n)) (w + k) = nth_error (g m) k.
Proof.
  intros Hm Hk Hw. replace n with (m + (1 + (n - m - 1)))%nat by lia.
  rewrite seq_app, seq_app, !flat_map_app. rewrite nth_error_app2 by lia. rewrite Hw.
  replace (w + k - w)%nat with k by lia. simpl. rewrite app_nil_r.
  rewrite nth_error_app1 by exact Hk. reflexivity.
Qed.

Lemma range_nth n r : r < n -> nth_error (range n) (N.to_nat r) = Some r.
Proof.
  intros H. unfold range. rewrite nth_error_map, nth_error_nth' with (d := 0%nat) by (rewrite seq_length; lia).
  rewrite seq_nth by lia. simpl. f_equal. lia.
Qed.
Lemma range_length n : length (range n) = N.to_nat n.
Proof. unfold range. now rewrite map_length, seq_length. Qed.
Lemma in_range r n : In r (range n) <-> r < n.
Proof. exact (in_below r n). Qed.

Lemma sr_rank_loop_some l : forall fuel r Mp Np k i, ones r = l -> u64 r -> (length l <= fuel)%nat ->
  exists v, sr_rank_loop fuel r Mp Np k i = Some v.
Proof.
  induction l as [|c l IH]; intros fuel r Mp Np k i Ho Hu Hf.
  - apply ones_nil in Ho. subst. destruct fuel; simpl; eauto.
  - destruct (hd_tl_ones _ _ _ Ho Hu) as [H0 [Hc Ht]]. destruct fuel as [|f]; [simpl in Hf; lia|].
    cbn [sr_rank_loop]. destruct (N.eqb_spec r 0); [contradiction|]. rewrite Hc. cbn [obind].
    apply IH; auto; [now apply clear_lowest_u64|simpl in Hf; lia].
Qed.
Lemma sr_rank_loop_exact l : forall fuel r Mp Np k i, ones r = l -> u64 r -> (length l <= fuel)%nat -> (1 <= k)%nat ->
  (forall c, In c l -> (Mp + c <= 62)%nat) ->
  i + csum (Np + k - 1) (map (Nat.add Mp) l) < 2 ^ 64 ->
  sr_rank_loop fuel r Mp Np k i = Some (i + csum (Np + k - 1) (map (Nat.add Mp) l)).
Proof.
  induction l as [|c l IH]; intros fuel r Mp Np k i Ho Hu Hf Hk Hc62 Hb.
  - apply ones_nil in Ho. subst. destruct fuel; simpl; f_equal; lia.
  - destruct (hd_tl_ones _ _ _ Ho Hu) as [H0 [Hc Ht]]. destruct fuel as [|f]; [simpl in Hf; lia|].
    cbn [sr_rank_loop]. destruct (N.eqb_spec r 0); [contradiction|]. rewrite Hc. cbn [obind].
    cbn [map csum] in *. rewrite binomial_exact by (apply Hc62; now left).
    replace (S (Np + k - 1)) with (Np + k)%nat in * by lia.
    rewrite w64_small by lia.
    rewrite IH; auto.
    + replace (Np + S k - 1)%nat with (Np + k)%nat by lia. f_equal. lia.
    + now apply clear_lowest_u64.
    + simpl in Hf; lia.
    + intros c' Hc'. apply Hc62. now right.
    + replace (Np + S k - 1)%nat with (Np + k)%nat by lia. lia.
Qed.

Section Staggered.
Variables (R : nat) (p : sector_params) (s : staggered_ranking).
Hypothesis HR : (0 < R < 64)%nat.
Hypothesis HM : (pM p <= 63)%nat.
Hypothesis Hs : staggered_ranking_init R p = Some s.
Hypothesis Hfit : N.of_nat (length (sr_lookup s)) < 2 ^ 64.

Let rdim := 2 ^ N.of_nat R.
Let mpmax := (pM p / R)%nat.
Let entries (mp : nat) : list ((nat * nat) * N) :=
  flat_map (fun Np => map (fun r => ((mp, Np), r)) (range rdim)) (seq 0 (mp * R + 1)).

Lemma sr_fields :
  sr_R s = R /\
  sr_heads s = map (fun mp => w64 (N.of_nat (mp + R * (mp * mp - mp) / 2) * rdim)) (seq 0 (mpmax + 1)) /\
  omap (fun t => sr_rank_entry (snd t) (fst (fst t) * R) (snd (fst t))) (flat_map entries (seq 0 (mpmax + 1))) = Some (sr_lookup s) /\
  sr_pop s = map popcount (range rdim) /\
  sr_mask s = cmask (pM p) (pN p).
Proof.
  unfold staggered_ranking_init in Hs.
  match type of Hs with obind ?x _ = _ => destruct x as [lk|] eqn:E end; [|discriminate].
  simpl in Hs. injection Hs as <-. simpl. repeat split; auto.
Qed.

Lemma entries_length mp : length (entries mp) = ((mp * R + 1) * N.to_nat rdim)%nat.
Proof.
  unfold entries.
  assert (forall n a, length (flat_map (fun Np => map (fun r => (mp, Np, r)) (range rdim)) (seq a n)) = (n * N.to_nat rdim)%nat) as HH.
  { induction n as [|n IH]; intros a; [reflexivity|]. cbn [seq flat_map]. rewrite app_length, IH, map_length, range_length. lia. }
  apply HH.
Qed.
Lemma tri mp : (S mp * S mp - S mp = (mp * mp - mp) + 2 * mp)%nat.
Proof. destruct mp; lia. Qed.
Lemma heads_div mp : (R * (mp * mp - mp) / 2 + R * mp = R * (S mp * S mp - S mp) / 2)%nat.
Proof.
  rewrite tri. replace (R * (mp * mp - mp + 2 * mp))%nat with (R * (mp * mp - mp) + (R * mp) * 2)%nat by lia.
  rewrite Nat.div_add by lia. reflexivity.
Qed.
Lemma prefix_length mp : length (flat_map entries (seq 0 mp)) = ((mp + R * (mp * mp - mp) / 2) * N.to_nat rdim)%nat.
Proof.
  induction mp as [|mp IH].
  - rewrite Nat.mul_0_r. reflexivity.
  - rewrite seq_S, flat_map_app, app_length, IH. simpl flat_map. rewrite app_nil_r, entries_length.
    rewrite <- heads_div. lia.
Qed.

Lemma lookup_len : length (sr_lookup s) = ((mpmax + 1 + R * ((mpmax + 1) * (mpmax + 1) - (mpmax + 1)) / 2) * N.to_nat rdim)%nat.
Proof.
  destruct sr_fields as [_ [_ [Ho _]]]. rewrite (omap_length _ _ _ Ho). apply prefix_length.
Qed.

Lemma lookup_get mp Np r : (mp <= mpmax)%nat -> (Np <= mp * R)%nat -> r < rdim ->
  exists h, vec_get (sr_heads s) (N.of_nat mp) = Some h /\
            h + N.of_nat Np * rdim + r < 2 ^ 64 /\
            exists v, vec_get (sr_lookup s) (h + N.of_nat Np * rdim + r) = Some v /\
                      sr_rank_entry r (mp * R) Np = Some v.
Proof.
  intros Hmp HNp Hr. destruct sr_fields as [_ [Hh [Ho _]]].
  set (hn := ((mp + R * (mp * mp - mp) / 2) * N.to_nat rdim)%nat).
  assert (nth_error (flat_map entries (seq 0 (mpmax + 1))) (hn + (Np * N.to_nat rdim + N.to_nat r)) = Some ((mp, Np), r)) as Hn.
  { rewrite flat_map_prefix with (m := mp); [|lia| |apply prefix_length].
    - unfold entries. rewrite flat_map_nth; [|intros; now rewrite map_length, range_length|lia|lia].
      rewrite nth_error_map, range_nth by exact Hr. reflexivity.
    - rewrite entries_length. assert (N.to_nat r < N.to_nat rdim)%nat by lia. nia. }
  pose proof (omap_nth _ _ _ _ _ Ho Hn) as [v [Hv Hv']]. simpl in Hv.
  assert (hn + (Np * N.to_nat rdim + N.to_nat r) < length (sr_lookup s))%nat as Hlt
      by (apply nth_error_Some; congruence).
  assert (w64 (N.of_nat (mp + R * (mp * mp - mp) / 2) * rdim) = N.of_nat hn) as Ew.
  { rewrite w64_small; unfold hn; lia. }
  exists (N.of_nat hn). split.
  - rewrite Hh. unfold vec_get. rewrite Nat2N.id, nth_error_map, nth_error_nth' with (d := 0%nat) by (rewrite seq_length; lia).
    rewrite seq_nth by lia. simpl. f_equal. exact Ew.
  - split; [lia|]. exists v. split; [|exact Hv]. unfold vec_get.
    replace (N.to_nat (N.of_nat hn + N.of_nat Np * rdim + r)) with (hn + (Np * N.to_nat rdim + N.to_nat r))%nat by lia.
    exact Hv'.
Qed.

Lemma pop_get r : r < rdim -> vec_get (sr_pop s) r = Some (weight r).
Proof.
  intros Hr. destruct sr_fields as [_ [_ [_ [Hp _]]]]. rewrite Hp. unfold vec_get.
  rewrite nth_error_map, range_nth by exact Hr. simpl. now rewrite weight_popcount.
Qed.

Lemma csum_bound y : y < 2 ^ N.of_nat (pM p) -> csum 0 (ones y) < 2 ^ 63.
Proof.
  intros H. rewrite <- count_below_csum. pose proof (count_below_lt_pow (weight y) _ y eq_refl H).
  pose proof (binom_u63 (pM p) (weight y) HM). lia.
Qed.

Lemma shiftr_pow_decomp y k : y = y mod 2 ^ N.of_nat k + 2 ^ N.of_nat k * N.shiftr y (N.of_nat k).
Proof. rewrite N.shiftr_div_pow2. pose proof (N.div_mod y (2 ^ N.of_nat k) ltac:(pose proof (pow_pos_N (N.of_nat k)); lia)). lia. Qed.

Lemma sr_loop_spec y : y < 2 ^ N.of_nat (pM p) -> forall fuel mp,
  (64 <= fuel + mp)%nat ->
  sr_loop fuel s mp (weight (y mod 2 ^ N.of_nat (mp * R))) (N.shiftr y (N.of_nat (mp * R)))
     (csum 0 (ones (y mod 2 ^ N.of_nat (mp * R)))) = Some (csum 0 (ones y)).
Proof.
  intros Hy. induction fuel as [|f IH]; intros mp Hf.
  - assert (N.shiftr y (N.of_nat (mp * R)) = 0) as E.
    { rewrite N.shiftr_div_pow2. apply N.div_small.
      assert (2 ^ N.of_nat (pM p) <= 2 ^ N.of_nat (mp * R)) by (apply N.pow_le_mono_r; nia). lia. }
    cbn [sr_loop]. rewrite E. cbn [N.eqb].
    pose proof (shiftr_pow_decomp y (mp * R)) as Ey. rewrite E, N.mul_0_r, N.add_0_r in Ey. rewrite <- Ey. reflexivity.
  - cbn [sr_loop]. set (index := N.shiftr y (N.of_nat (mp * R))).
    set (low := y mod 2 ^ N.of_nat (mp * R)).
    assert (low < 2 ^ N.of_nat (mp * R)) as Hlow by (apply N.mod_lt; pose proof (pow_pos_N (N.of_nat (mp * R))); lia).
    pose proof (shiftr_pow_decomp y (mp * R)) as Ey. fold index low in Ey.
    destruct (N.eqb_spec index 0) as [E|E].
    + rewrite Ey, E, N.mul_0_r, N.add_0_r. reflexivity.
    + destruct sr_fields as [ER [_ [_ _]]]. rewrite ER. fold rdim.
      assert (mp * R < pM p)%nat as Hlt.
      { destruct (Nat.lt_ge_cases (mp * R) (pM p)) as [L|L]; [exact L|exfalso].
        apply E. unfold index. rewrite N.shiftr_div_pow2. apply N.div_small.
        assert (2 ^ N.of_nat (pM p) <= 2 ^ N.of_nat (mp * R)) by (apply N.pow_le_mono_r; lia). lia. }
      assert (mp <= mpmax)%nat as Hmp by (apply Nat.div_le_lower_bound; lia).
      assert (N.land index (rdim - 1) = index mod rdim) as El.
      { unfold rdim. rewrite <- N.land_ones, N.ones_equiv. f_equal. lia. }
      rewrite El. set (r := index mod rdim).
      assert (r < rdim) as Hr by (apply N.mod_lt; unfold rdim; pose proof (pow_pos_N (N.of_nat R)); lia).
      pose proof (weight_le low (mp * R) Hlow) as HNp.
      destruct (lookup_get mp (weight low) r Hmp HNp Hr) as [h [Hh [Hw [v [Hv He]]]]].
      rewrite Hh. cbn [obind]. rewrite w64_small by exact Hw. rewrite Hv. cbn [obind]. rewrite pop_get by exact Hr. cbn [obind].
      (* low part with one more chunk *)
      assert (y mod 2 ^ N.of_nat (S mp * R) = low + 2 ^ N.of_nat (mp * R) * r) as Elow.
      { replace (S mp * R)%nat with (mp * R + R)%nat by lia. rewrite Nat2N.inj_add, N.pow_add_r.
        rewrite N.mod_mul_r by (pose proof (pow_pos_N (N.of_nat (mp * R))); pose proof (pow_pos_N (N.of_nat R)); lia).
        unfold low, r, index. rewrite N.shiftr_div_pow2. reflexivity. }
      assert (ones (low + 2 ^ N.of_nat (mp * R) * r) = ones low ++ map (Nat.add (mp * R)) (ones r)) as Eo
          by (apply ones_app; exact Hlow).
      assert (low + 2 ^ N.of_nat (mp * R) * r <= y) as Hle.
      { rewrite <- Elow. apply N.mod_le. pose proof (pow_pos_N (N.of_nat (S mp * R))) as Hpp. clear - Hpp. lia. }
      pose proof (csum_bound _ (N.le_lt_trans _ _ _ Hle Hy)) as Hcb. rewrite Eo, csum_app in Hcb.
      rewrite Nat.add_0_l in Hcb. fold (weight low) in Hcb.
      assert (u64 r) as Hur.
      { unfold u64. assert (rdim <= 2 ^ 63) as Hrd by (unfold rdim; apply N.pow_le_mono_r; clear - HR; lia). clear - Hrd Hr. change (2 ^ 64) with (2 * 2 ^ 63). lia. }
      assert (v = csum (weight low) (map (Nat.add (mp * R)) (ones r))) as Ev.
      { unfold sr_rank_entry in He. rewrite (sr_rank_loop_exact (ones r) 64 r (mp * R) (weight low) 1 0 eq_refl Hur (ones_length_64 r Hur) (le_n 1)) in He.
        - injection He as <-. rewrite N.add_0_l, Nat.add_sub. reflexivity.
        - intros c Hc. assert (In (mp * R + c)%nat (ones (low + 2 ^ N.of_nat (mp * R) * r))) as Hin.
          { rewrite Eo. apply in_or_app. right. now apply in_map. }
          assert (low + 2 ^ N.of_nat (mp * R) * r < 2 ^ N.of_nat (pM p)) as Hb by (clear - Hle Hy; lia).
          rewrite ones_lt in Hb. apply Hb in Hin. clear - Hin HM; lia.
        - rewrite Nat.add_sub, N.add_0_l.
          clear - Hcb. change (2 ^ 64) with (2 * 2 ^ 63). lia. }
      rewrite Ev.
      rewrite w64_small by (clear - Hcb; change (2 ^ 64) with (2 * 2 ^ 63); lia).
      assert (N.shiftr index (N.of_nat R) = N.shiftr y (N.of_nat (S mp * R))) as Esh.
      { unfold index. rewrite N.shiftr_shiftr. f_equal. clear; lia. }
      rewrite Esh.
      assert (weight low + weight r = weight (y mod 2 ^ N.of_nat (S mp * R)))%nat as Ewt.
      { rewrite Elow. unfold weight. rewrite Eo, app_length, map_length. reflexivity. }
      rewrite Ewt.
      replace (csum 0 (ones low) + csum (weight low) (map (Nat.add (mp * R)) (ones r)))
        with (csum 0 (ones (y mod 2 ^ N.of_nat (S mp * R))))
        by (rewrite Elow, Eo, csum_app; reflexivity).
      apply IH. clear - Hf; lia.
Qed.

Lemma sr_rank_raw x : (pN p <= pM p)%nat -> in_sector (pM p) (pN p) x = true ->
  sr_rank s x = Some (rank_raw (pM p) (pN p) x).
Proof.
  intros HN Hx. unfold sr_rank, rank_raw. destruct sr_fields as [_ [_ [_ [_ Em]]]]. rewrite Em.
  pose proof (cmask_sector _ _ _ Hx HN) as Hsec. unfold in_sector in Hsec.
  rewrite andb_true_iff, N.ltb_lt, Nat.eqb_eq in Hsec. destruct Hsec as [Hlt Hw].
  rewrite <- Hw, count_below_csum.
  pose proof (sr_loop_spec _ Hlt 64 0 ltac:(lia)) as H.
  rewrite Nat.mul_0_l in H. change (2 ^ N.of_nat 0) with 1 in H.
  rewrite N.mod_1_r in H. change (N.of_nat 0) with 0 in H. rewrite N.shiftr_0_r in H. exact H.
Qed.
End Staggered.

Lemma staggered_init_some R p : (0 < R < 64)%nat -> exists s, staggered_ranking_init R p = Some s.
Proof.
  intros HR. unfold staggered_ranking_init.
  match goal with |- context [omap ?f ?l] => destruct (omap_some f l) as [bs Hb] end.
  - intros [[mp Np] r] Hin. apply in_flat_map in Hin. destruct Hin as [mp' [_ Hin]].
    apply in_flat_map in Hin. destruct Hin as [Np' [_ Hin]]. apply in_map_iff in Hin.
    destruct Hin as [r' [E Hr]]. injection E as <- <- <-. apply in_range in Hr. simpl.
    assert (u64 r') as Hu.
    { unfold u64. assert (2 ^ N.of_nat R <= 2 ^ 64) by (apply N.pow_le_mono_r; lia). lia. }
    apply (sr_rank_loop_some (ones r')); auto. now apply ones_length_64.
  - rewrite Hb. simpl. eauto.
Qed.

(** ** statements used by PropRank.v *)
Lemma binomial_63_31 : binom 63 31 < 2 ^ 64 /\ binomial 63 31 <> binom 63 31.
Proof. rewrite <- pascal_nth. vm_compute. split; [reflexivity|discriminate]. Qed.
Lemma binomial_63_set k : (k <= 63)%nat -> (binomial 63 k = binom 63 k <-> ~ (29 <= k <= 34)%nat).
Proof.
  intros Hk.
  assert (forallb (fun k => Bool.eqb (binomial 63 k =? nth k (pascal 63) 0) (negb (Nat.leb 29 k && Nat.leb k 34))) (seq 0 64) = true)
    as H by (vm_compute; reflexivity).
  rewrite forallb_forall in H. specialize (H k ltac:(apply in_seq; lia)). rewrite pascal_nth in H.
  apply Bool.eqb_prop in H. rewrite <- N.eqb_eq, H.
  destruct (Nat.leb_spec 29 k); destruct (Nat.leb_spec k 34); simpl; split; intros; try lia; try discriminate; reflexivity.
Qed.
Lemma cr_rank_position p x :
  (pM p <= 63)%nat -> (pN p <= pM p)%nat -> in_sector (pM p) (pN p) x = true ->
  cr_rank (combination_ranking_init p) x = Some (sector_position (pM p) (pN p) x).
Proof. intros HM HN Hx. rewrite cr_rank_raw by assumption. f_equal. now apply rank_raw_position. Qed.

(** surjectivity without the generator: the k-th element of the ascending enumeration *)
Lemma count_below_surj K : forall m r, r < binom m K -> exists y, y < 2 ^ N.of_nat m /\ weight y = K /\ count_below K y = r.
Proof.
  revert K. intros K m; revert K. induction m as [|m IH]; intros K r Hr.
  - destruct K as [|K]; [|simpl in Hr; lia]. exists 0. simpl in Hr. repeat split; try reflexivity.
    change (count_below 0 0) with 0. lia.
  - replace (2 ^ N.of_nat (S m)) with (2 ^ N.of_nat m + 2 ^ N.of_nat m) by (rewrite Nat2N.inj_succ, N.pow_succ_r'; lia).
    destruct (N.lt_ge_cases r (binom m K)) as [L|L].
    + destruct (IH K r L) as [y [H1 [H2 H3]]]. exists y. split; [lia|auto].
    + destruct K as [|K]; [rewrite !binom_0_r in *; lia|]. rewrite binom_SS in Hr.
      destruct (IH K (r - binom m (S K)) ltac:(lia)) as [y [H1 [H2 H3]]].
      exists (2 ^ N.of_nat m + y). split; [lia|]. split; [rewrite weight_top by exact H1; lia|].
      rewrite count_below_top, count_below_pow by lia. lia.
Qed.
Lemma rank_raw_surj M K r : (K <= M)%nat -> r < binom M K -> exists x, in_sector M K x = true /\ rank_raw M K x = r.
Proof.
  intros HK Hr. rewrite <- n_counted_binom in Hr by exact HK.
  destruct (count_below_surj _ _ _ Hr) as [y [H1 [H2 H3]]].
  exists (N.lxor y (cmask M K)). split.
  - apply cmask_sector'; [|exact HK]. unfold in_sector. rewrite H2, Nat.eqb_refl, andb_true_r. now apply N.ltb_lt.
  - unfold rank_raw. now rewrite cmask_invol.
Qed.
Lemma cr_rank_bijective p : (pM p <= 63)%nat -> (pN p <= pM p)%nat ->
  (forall x, in_sector (pM p) (pN p) x = true ->
     exists r, cr_rank (combination_ranking_init p) x = Some r /\ r < binom (pM p) (pN p)) /\
  (forall x y, in_sector (pM p) (pN p) x = true -> in_sector (pM p) (pN p) y = true ->
     cr_rank (combination_ranking_init p) x = cr_rank (combination_ranking_init p) y -> x = y) /\
  (forall r, r < binom (pM p) (pN p) ->
     exists x, in_sector (pM p) (pN p) x = true /\ cr_rank (combination_ranking_init p) x = Some r).
Proof.
  intros HM HN. split; [|split].
  - intros x Hx. rewrite cr_rank_raw by assumption. eexists; split; [reflexivity|]. now apply rank_raw_lt.
  - intros x y Hx Hy H. rewrite !cr_rank_raw in H by assumption. injection H as H. now apply (rank_raw_inj (pM p) (pN p)).
  - intros r Hr. destruct (rank_raw_surj _ _ _ HN Hr) as [x [Hx Er]]. exists x. split; [exact Hx|].
    rewrite cr_rank_raw by assumption. now rewrite Er.
Qed.
Lemma ug_run_inverts p k :
  (pM p <= 62)%nat -> (pN p <= pM p)%nat -> N.of_nat k <= binom (pM p) (pN p) ->
  exists g l, ug_run k (unranking_generator_init p) = Some (g, l) /\ length l = k /\
    (ug_done g = true <-> N.of_nat k = binom (pM p) (pN p)) /\
    (forall i x, nth_error l i = Some x ->
       in_sector (pM p) (pN p) x = true /\
       cr_rank (combination_ranking_init p) x = Some (N.of_nat i)).
Proof.
  intros HM HN Hk. destruct (ug_run_full p (ug_exact_62 p HM HN) k Hk) as [g [l [Hr [Hl [Hi [Ht Hx]]]]]].
  exists g, l. split; [exact Hr|]. split; [exact Hl|]. split.
  - unfold ug_done. rewrite Hi, Ht. apply N.eqb_eq.
  - intros i x H. destruct (Hx i x H) as [A B]. split; [exact A|].
    rewrite cr_rank_raw by (assumption || lia). now rewrite B.
Qed.
Lemma ug_run_complete p : (pM p <= 62)%nat -> (pN p <= pM p)%nat ->
  exists g l, ug_run (N.to_nat (binom (pM p) (pN p))) (unranking_generator_init p) = Some (g, l) /\
    ug_done g = true /\ NoDup l /\ (forall x, In x l <-> in_sector (pM p) (pN p) x = true).
Proof.
  intros HM HN. set (k := N.to_nat (binom (pM p) (pN p))).
  destruct (ug_run_full p (ug_exact_62 p HM HN) k ltac:(unfold k; lia)) as [g [l [Hr [Hl [Hi [Ht Hx]]]]]].
  exists g, l. split; [exact Hr|]. split; [unfold ug_done; rewrite Hi, Ht; apply N.eqb_eq; unfold k; lia|].
  split.
  - apply NoDup_nth_error. intros i j Hil Hij.
    destruct (nth_error l i) as [x|] eqn:Ei; [|apply nth_error_None in Ei; lia].
    destruct (Hx _ _ Ei) as [_ A]. symmetry in Hij. destruct (Hx _ _ Hij) as [_ B]. lia.
  - intros x. split.
    + intros Hin. apply In_nth_error in Hin. destruct Hin as [i Hin]. now apply (Hx i).
    + intros Hin. pose proof (rank_raw_lt _ _ _ HN Hin) as Hlt.
      destruct (nth_error l (N.to_nat (rank_raw (pM p) (pN p) x))) as [y|] eqn:E.
      * destruct (Hx _ _ E) as [A B]. assert (x = y) as ->; [|now apply nth_error_In in E].
        apply (rank_raw_inj (pM p) (pN p)); auto. lia.
      * apply nth_error_None in E. unfold k in Hl. lia.
Qed.
Lemma staggered_combination R p s x :
  (0 < R < 64)%nat -> (pM p <= 63)%nat -> (pN p <= pM p)%nat ->
  staggered_ranking_init R p = Some s -> N.of_nat (length (sr_lookup s)) < 2 ^ 64 ->
  in_sector (pM p) (pN p) x = true ->
  sr_rank s x = cr_rank (combination_ranking_init p) x.
Proof.
  intros HR HM HN Hs Hfit Hx. rewrite (sr_rank_raw R p s HR HM Hs Hfit x HN Hx). symmetry. now apply cr_rank_raw.
Qed.
