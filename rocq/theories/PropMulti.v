(** C46: multisectors *)
From Coq Require Import NArith ZArith List Bool Arith Sorted Permutation Lia.
From Verif Require Import BitsModel BitsSpec BitsProofs RankModel RankSpec RankProofs ExprModel ExprSpec ExprOrder HSModel HSSpec HSEnum HSProofs HSMain PropHS
  PropRank LOpModel LOpSpec SectorModel SectorSpec SectorProofs SectorMain SectorGen SectorMulti SectorSpace PropSector.
Import ListNotations.
Open Scope N_scope.
Open Scope list_scope.

(** ** the mask of the other modes *)
Lemma sub64_disj a m : u64 a -> sub m a -> sub64 a m = N.ldiff a m.
Proof.
  intros U S. assert (E : N.ldiff m a = 0).
  { apply N.bits_inj_0. intros n. rewrite N.ldiff_spec. rewrite sub_bits in S. specialize (S n). destruct (N.testbit m n); auto. now rewrite S. }
  rewrite sub64_ge.
  - now apply N.sub_nocarry_ldiff.
  - exact U.
  - apply N.ldiff_le. exact E.
Qed.
Lemma ldiff_land a m : N.land (N.ldiff a m) m = 0.
Proof. apply disj_bits. intros n. rewrite N.ldiff_spec. intros h. apply andb_prop in h. destruct h as [_ h]. now apply negb_true_iff in h. Qed.
Lemma sub_ldiff a m b : sub b a -> N.land b m = 0 -> sub b (N.ldiff a m).
Proof.
  rewrite !sub_bits, disj_bits. intros H1 H2 n h. rewrite N.ldiff_spec, (H1 n h), (H2 n h). reflexivity.
Qed.
Lemma rest_mask ms : disj ms -> forall a, u64 a -> sub (orall ms) a ->
  fold_left (fun m p => sub64 m p) ms a = N.ldiff a (orall ms).
Proof.
  induction 1 as [|m t d D IH]; intros a U S; cbn [fold_left orall]; [now rewrite N.ldiff_0_r|].
  assert (Sm : sub m a) by (eapply sub_trans; [|exact S]; cbn [orall]; apply sub_lor_l, sub_refl).
  assert (St : sub (orall t) a) by (eapply sub_trans; [|exact S]; cbn [orall]; apply sub_lor_r, sub_refl).
  rewrite sub64_disj by auto. rewrite IH.
  - apply N.bits_inj. intros n. rewrite !N.ldiff_spec, N.lor_spec, negb_orb. now rewrite andb_assoc.
  - eapply u64_sub; [|exact U]. apply sub_bits. intros n. rewrite N.ldiff_spec. intros h. now apply andb_prop in h.
  - apply sub_ldiff; auto. now apply land_comm0.
Qed.
Lemma fold_map {A B C} (f : C -> B -> C) (g : A -> B) l : forall c, fold_left (fun c a => f c (g a)) l c = fold_left f (map g l) c.
Proof. induction l; cbn; auto. Qed.
Lemma rest_count ps : forall T, fold_left (fun M p => (M - Z.of_nat (pM p))%Z) ps T = (T - Z.of_nat (sumM ps))%Z.
Proof. induction ps as [|p ps IH]; intros T; cbn [fold_left sumM fold_right]; [lia|]. rewrite IH. fold (sumM ps). lia. Qed.

Section C46.
Context {I : Type} (io : index_ops I) (Hio : index_order io).
Notation desc := (@sector_desc I).

Lemma omap_map {A B} (f : A -> option B) (g : A -> B) l : (forall a, In a l -> f a = Some (g a)) -> omap f l = Some (map g l).
Proof. induction l as [|a l IH]; intros H; auto. cbn. rewrite (H a (or_introl eq_refl)), IH; auto. intros; apply H; now right. Qed.
Lemma ranks_ok rk ps : ranking_algorithm rk -> Forall par_ok ps -> exists rs, omap rk ps = Some rs /\ Forall2 rank_ok ps rs.
Proof.
  intros H. induction 1 as [|p ps [h1 [h2 _]] F [rs [E Q]]]; [exists []; auto|]. destruct (ranking_ok rk p H ltac:(lia) h2) as [r [Er Hr]].
  exists (r :: rs). cbn. rewrite Er, E. cbn. auto.
Qed.
(** n_fermion_multisector_size's product *)
Lemma size_loop (ss : list desc) : (forall s, In s ss -> (sd_N s <= length (sd_indices s))%nat /\ (length (sd_indices s) <= 62)%nat) -> forall Mt sz,
  0 < sz -> sz * fold_right (fun s a => binom (length (sd_indices s)) (sd_N s) * a) 1 ss < 2 ^ 64 ->
  ms_size_loop ss Mt sz = Some ((Mt + length (flat_map sd_indices ss))%nat, sz * fold_right (fun s a => binom (length (sd_indices s)) (sd_N s) * a) 1 ss).
Proof.
  induction ss as [|s ss IH]; intros H Mt sz h0 hb; cbn [ms_size_loop flat_map fold_right length] in *; [f_equal; f_equal; lia|].
  destruct (H s (or_introl eq_refl)) as [h1 h2]. destruct (Nat.ltb_spec (length (sd_indices s)) (sd_N s)); [lia|].
  pose proof (binom_pos _ _ h1) as P1. set (r := fold_right _ 1 ss) in *.
  assert (P2 : 0 < r). { unfold r. clear - H. induction ss as [|s' ss IH]; cbn; [lia|]. pose proof (binom_pos _ _ (proj1 (H s' (or_intror (or_introl eq_refl))))).
    assert (0 < fold_right (fun s a => binom (length (sd_indices s)) (sd_N s) * a) 1 ss); [|nia]. apply IH. intros s0 h. apply H. destruct h; [now left|right; now right]. }
  rewrite binomial_exact by auto. rewrite w64_small by nia. rewrite IH.
  - rewrite app_length. f_equal. f_equal; [lia|]. fold r. lia.
  - intros; apply H; now right.
  - nia.
  - fold r. nia.
Qed.

(** For a non-sparse Hilbert space, disjoint sectors of its first 32 fermionic
    modes, no more particles than modes in each sector, and at least one bit per
    state: n_fermion_multisector_basis_states() lists exactly the basis states with the given
    particle numbers, without repetition; n_fermion_multisector_size() is their
    number; for each ranking algorithm map_index() of the view is the position in that list and
    foreach() calls its functor for the states of the list, in that order, with the
    amplitudes stored at those positions, skipping zeros. *)
Theorem C46_multisector : forall (h : hspace I) (ss : list desc),
  hs_reachable io h -> hs_is_sparse h = Some false ->
  NoDup (flat_map sd_indices ss) ->
  (forall s i, In s ss -> In i (sd_indices s) -> In i (firstn 32 (modes (spaces h)))) ->
  (forall s, In s ss -> (sd_N s <= length (sd_indices s))%nat) ->
  let T := total_bits (spaces h) in
  (0 < T)%nat ->
  exists l, multi_basis_states io h ss = SOk l /\
    multisector_size io h ss = SOk (N.of_nat (length l)) /\
    N.of_nat (length l) = fold_right (fun s a => binom (length (sd_indices s)) (sd_N s) * a) 1 ss * 2 ^ N.of_nat (T - length (flat_map sd_indices ss)) /\
    NoDup l /\ (forall x, In x l <-> in_multisector io (spaces h) ss x) /\
    forall rk, ranking_algorithm rk ->
      exists w, make_multi_view io rk h ss = SOk w /\
        numbering l (in_multisector io (spaces h) ss) (multi_map_index w) /\
        forall V S (so : scalar_ops S) (sv : sv_ops V S) (v : V) (amp : N -> S),
          (forall k, k < N.of_nat (length l) -> sv_get sv v k = Some (amp k)) ->
          multi_foreach so sv w v = SOk (nonzero_pairs so amp l 0).
Proof.
  intros h ss R Sp ND Hm hN T hT. destruct (reach_total io Hio h R) as [ET hT63]. fold T in ET, hT63.
  assert (D : dense_spaces (spaces h)) by (now apply (sparse_dense io Hio h R)).
  destruct (pos_exists (modes (spaces h)) (flat_map sd_indices ss) 32) as [ks [F hk]].
  { intros i Hi. apply in_flat_map in Hi. destruct Hi as [s [Hs Hi]]. eapply Hm; eauto. }
  pose proof (pos_nodup _ _ _ F ND) as NDk. pose proof (Forall2_len F) as Lk.
  destruct (ms_all_spec io Hio h ss ks R F ND hk hN) as [ps [Ep [P [Dj [O [Sm [Pr Q]]]]]]].
  assert (V : validate_sectors io h ss = true).
  { apply (validate_spec io Hio). split; auto. intros s i Hs Hi. specialize (Hm s i Hs Hi). apply In_nth_error in Hm. destruct Hm as [k Ek].
    assert (Pk : exists k', pos_in (modes (spaces h)) i k').
    { exists k. unfold pos_in. assert (hk' : (k < length (firstn 32 (modes (spaces h))))%nat) by (apply nth_error_Some; congruence).
      rewrite <- Ek. clear - hk'. set (n := 32%nat) in *. clearbody n. revert n k hk'. generalize (modes (spaces h)) as l. clear h.
      induction l as [|a l IH]; intros n k hk'; [rewrite firstn_nil in hk'; cbn in hk'; lia|]. destruct n; [cbn in hk'; lia|]. destruct k; auto. cbn. apply IH. cbn in hk'. lia. }
    destruct Pk as [k' Pk]. destruct (mode_range io Hio h i k' R Pk) as [e [_ Hh]]. exact Hh. }
  assert (Ems : make_sector_params io h ss = SOk ps) by (unfold make_sector_params; now rewrite V).
  assert (kT : forall k, In k ks -> (k < T)%nat).
  { intros k Hk. clear - F Hk T. pose proof (modes_le (spaces h)). assert ((k < length (modes (spaces h)))%nat); [|unfold T; lia].
    induction F as [|i k' is ks P F IH]; [destruct Hk|]. destruct Hk as [->|Hk]; auto. apply nth_error_Some. unfold pos_in in P. congruence. }
  pose proof (bitsum_lt ks T NDk kT) as hO. pose proof (pow2_lt64 T hT63) as h64.
  assert (UO : u64 (orall (map pmask ps))) by (rewrite O; unfold u64; lia).
  assert (kl : (length ks <= T)%nat). { rewrite <- (seq_length T 0). apply NoDup_incl_length; auto. intros k Hk. apply in_seq. specialize (kT k Hk). lia. }
  assert (kl32 : (length ks <= 32)%nat). { rewrite <- (seq_length 32 0). apply NoDup_incl_length; auto. intros k Hk. apply in_seq. specialize (hk k Hk). lia. }
  set (full := 2 ^ N.of_nat T - 1). set (rm := N.ldiff full (orall (map pmask ps))). set (K := (T - length ks)%nat).
  assert (Ef : full = N.ones (N.of_nat T)) by (unfold full; rewrite N.ones_equiv; lia).
  assert (Uf : u64 full) by (unfold u64, full; lia).
  assert (SO : sub (orall (map pmask ps)) full).
  { unfold sub. rewrite Ef, N.land_ones. apply N.mod_small. rewrite O. exact hO. }
  assert (Drm : N.land rm (orall (map pmask ps)) = 0) by apply ldiff_land.
  assert (Srm : sub rm full). { apply sub_bits. intros n. unfold rm. rewrite N.ldiff_spec. intros q. now apply andb_prop in q. }
  assert (Urm : u64 rm) by (eapply u64_sub; eauto).
  assert (Full : N.lor rm (orall (map pmask ps)) = full).
  { apply N.bits_inj. intros n. unfold rm. rewrite N.lor_spec, N.ldiff_spec. rewrite sub_bits in SO. specialize (SO n).
    destruct (N.testbit full n), (N.testbit (orall (map pmask ps)) n); auto. symmetry. now apply SO. }
  assert (Wr : weight rm = K).
  { pose proof (weight_lor rm (orall (map pmask ps)) Drm) as W. rewrite Full, O, bitsum_weight in W by auto. rewrite Ef in W.
    assert (weight (N.ones (N.of_nat T)) = T). { rewrite N.ones_equiv, <- N.sub_1_r. rewrite (weight_filter T) by (pose proof (pow_pos T); lia).
      rewrite N.sub_1_r, <- N.ones_equiv. rewrite (filter_ext_in _ (fun _ => true)).
      - clear. rewrite <- (seq_length T 0) at 2. generalize (seq 0 T). intros l. induction l; cbn; auto.
      - intros k Hk. apply in_seq in Hk. apply N.ones_spec_low. lia. }
    unfold K. lia. }
  assert (Enm : nonmulti_mask h ps = SOk (rm, Z.of_nat K)).
  { unfold nonmulti_mask. rewrite ET, Nat2Z.id, pow2_some by lia. cbn [of_opt sbind]. f_equal. f_equal.
    - rewrite (fold_map (fun m p => sub64 m p) pmask). fold full. apply rest_mask; auto.
    - rewrite rest_count, Sm. unfold K. lia. }
  assert (Fo : Forall par_ok ps) by (eapply Forall_impl; [|exact P]; intros q [a _]; exact a).
  assert (Pb : prodb ps < 2 ^ 31). { destruct (prodb_le ps) as [n Hn]. eapply N.le_lt_trans; [exact Hn|]. apply binom_32. fold (sumM ps). lia. }
  pose proof (suf_sub ps P Dj) as Suf. pose proof (suf_length ps Fo) as Ls.
  assert (Su : Forall (fun y => y < 2 ^ 64) (suf ps)).
  { apply Forall_forall. intros y Hy. apply Suf in Hy. destruct Hy as [Hy _]. eapply u64_sub; eauto. }
  set (ds := map (fun k => dep rm k) (count_to (2 ^ N.of_nat K))).
  set (l := flat_map (fun u => map (fun x => N.lor u x) ds) (suf ps)).
  assert (Hd : forall x, In x ds -> sub x rm) by (intros x Hx; apply in_map_iff in Hx; destruct Hx as [k [<- _]]; now apply dep_sub).
  assert (Hs : forall u, In u (suf ps) -> sub u (orall (map pmask ps))) by (intros u Hu; now apply Suf).
  assert (El : multi_loop ps (Z.of_nat K) rm = SOk l).
  { unfold multi_loop. rewrite (mg_all_spec ps Fo Pb Su). cbn [of_opt sbind]. rewrite Nat2Z.id, pow2_some by (unfold K; lia). cbn [of_opt sbind].
    rewrite (omap_map _ (fun k => dep rm k)) by (intros a _; now apply dep_some). cbn [of_opt sbind]. fold ds. f_equal. unfold l.
    rewrite !flat_map_concat_map. f_equal. apply map_ext_in. intros u Hu. apply map_ext_in. intros x Hx.
    rewrite add_disj.
    - apply w64_small. apply u64_lor; [eapply u64_sub; [now apply Hs|exact UO]|eapply u64_sub; [now apply Hd|exact Urm]].
    - eapply sub_disj; [now apply Hs|now apply Hd|]. now apply land_comm0. }
  assert (Ll : N.of_nat (length l) = prodb ps * 2 ^ N.of_nat K).
  { unfold l, ds. rewrite blocks_length, map_length, count_to_length, Nat2N.inj_mul, Ls, N2Nat.id. reflexivity. }
  assert (A : forall x, In x l <-> in_multisector io (spaces h) ss x).
  { intros x. unfold in_multisector. rewrite (dense_valid _ x D). fold T. unfold l. rewrite blocks_In. split.
    - intros [u [d [Hu [Hx ->]]]]. pose proof (Hs u Hu) as Su1. pose proof (Hd d Hx) as Sd1.
      assert (Sx : sub (N.lor u d) full). { apply sub_lor; [eapply sub_trans; eauto|eapply sub_trans; eauto]. }
      assert (hx : N.lor u d < 2 ^ N.of_nat T) by (eapply sub_lt; [exact Sx|unfold full; pose proof (pow_pos T); lia]).
      assert (Ux : u64 (N.lor u d)) by (eapply u64_sub; eauto). split; [exact hx|]. apply (Q _ Ux).
      apply Suf in Hu. destruct Hu as [_ Hu]. rewrite Forall_forall in Hu, P |- *. intros p Hp. specialize (Hu p Hp).
      assert (E1 : ext (pmask p) (N.lor u d) = ext (pmask p) u); [|rewrite E1; exact Hu].
      apply ext_agree; [apply (P p Hp)|exact Ux|eapply u64_sub; [exact Su1|exact UO]|]. apply land_disj_r.
      eapply sub_disj; [exact Sd1| |exact Drm]. apply orall_In. now apply in_map.
    - intros [hx Hp]. assert (Ux : u64 x) by (unfold u64; lia). apply (Q x Ux) in Hp.
      exists (N.land x (orall (map pmask ps))), (N.land x rm). split; [|split].
      + apply Suf. split; [apply sub_land|]. rewrite Forall_forall in Hp, P |- *. intros p Hpp. specialize (Hp p Hpp).
        assert (E1 : ext (pmask p) (N.land x (orall (map pmask ps))) = ext (pmask p) x); [|rewrite E1; exact Hp].
        apply ext_agree; [apply (P p Hpp)|eapply u64_sub; [apply sub_land|exact UO]|exact Ux|].
        rewrite <- N.land_assoc. rewrite (N.land_comm (orall _)). now rewrite (orall_In (pmask p) _ (in_map pmask _ _ Hpp)).
      + unfold ds. apply in_map_iff. exists (ext rm x). split; [now apply dep_ext|]. apply count_to_In. rewrite <- Wr. now apply ext_lt.
      + rewrite <- N.land_lor_distr_r, N.lor_comm, Full, Ef, N.land_ones. symmetry. now apply N.mod_small. }
  assert (Nm : forall rs, Forall2 rank_ok ps rs -> forall i x, nth_error l i = Some x ->
     multi_map_index (mk_mv ps rs (strides ps) (Z.of_nat K) rm) x = Some (N.of_nat i)).
  { intros rs Hrs i x Hx. assert (hi : N.of_nat i < prodb ps * 2 ^ N.of_nat K).
    { rewrite <- Ll. assert ((i < length l)%nat) by (apply nth_error_Some; congruence). lia. }
    assert (hb : prodb ps * 2 ^ N.of_nat K < 2 ^ 64).
    { destruct (prodb_le ps) as [n Hn]. fold (sumM ps) in Hn. pose proof (binom_le_pow (sumM ps) n) as Q2. rewrite Sm in Q2, Hn.
      eapply N.le_lt_trans; [|exact h64]. replace T with (length ks + K)%nat by (unfold K; lia). rewrite Nat2N.inj_add, N.pow_add_r. apply N.mul_le_mono_r. lia. }
    unfold l in Hx. destruct (blocks_nth _ _ _ _ _ Hx) as [r [q [u [d [Ei [hq [Eu [Ed ->]]]]]]]].
    unfold ds in Ed. rewrite nth_error_map, count_to_nth in Ed. unfold ds in hq, Ei. rewrite map_length, count_to_length in hq, Ei.
    destruct (Nat.ltb_spec q (N.to_nat (2 ^ N.of_nat K))); [|lia]. cbn in Ed. inversion Ed; subst d. clear Ed.
    pose proof (nth_error_In _ _ Eu) as Hu. pose proof (Hs u Hu) as Su1. pose proof (dep_sub rm (N.of_nat q) Urm) as Sd1.
    assert (Uu : u64 u) by (eapply u64_sub; eauto). assert (Ud : u64 (dep rm (N.of_nat q))) by (eapply u64_sub; eauto).
    assert (hr : N.of_nat r < 2 ^ 64).
    { assert ((r < length (suf ps))%nat) by (apply nth_error_Some; congruence). assert (N.of_nat r < prodb ps) by (rewrite <- Ls; lia).
      eapply N.lt_trans; [eassumption|]. eapply N.lt_trans; [exact Pb|reflexivity]. }
    unfold multi_map_index. cbn [mv_params mv_ranks mv_strides mv_mask mv_M]. rewrite (N.lor_comm u).
    rewrite (strides_spec ps Fo) by (eapply N.lt_trans; [exact Pb|reflexivity]).
    rewrite (index_loop ps P Dj ltac:(eapply N.lt_trans; [exact Pb|reflexivity]) rs Hrs (dep rm (N.of_nat q)) 0 r u Ud); [|eapply sub_disj; [exact Sd1|apply sub_refl|exact Drm]|exact Eu|rewrite N.add_0_l; exact hr].
    rewrite ext_some; [|exact Urm|now apply u64_lor].
    assert (Ex : ext rm (N.lor (dep rm (N.of_nat q)) u) = N.of_nat q).
    { transitivity (ext rm (dep rm (N.of_nat q))).
      - apply ext_agree; [exact Urm|now apply u64_lor|exact Ud|]. apply land_disj_r. eapply sub_disj; [exact Su1|apply sub_refl|]. now apply land_comm0.
      - apply ext_dep; [exact Urm|]. rewrite Wr. lia. }
    rewrite Ex, N.add_0_l, N.shiftl_mul_pow2. replace (Z.to_N (Z.of_nat K)) with (N.of_nat K) by lia.
    assert (Ei' : N.of_nat i = N.of_nat r * 2 ^ N.of_nat K + N.of_nat q) by (rewrite Ei, Nat2N.inj_add, Nat2N.inj_mul, N2Nat.id; reflexivity).
    rewrite (w64_small (N.of_nat r * _)) by lia. rewrite w64_small by lia. now rewrite Ei'. }
  exists l. split; [|split; [|split; [|split; [|split; [exact A|]]]]].
  - unfold multi_basis_states, sec_sparse. rewrite Sp. cbn [of_opt sbind]. rewrite Ems. cbn [sbind].
    destruct (Z.eqb_spec (hs_total_n_bits h) 0); [lia|]. rewrite Enm. cbn [sbind fst snd]. exact El.
  - unfold multisector_size, sec_sparse. rewrite Sp. cbn [of_opt sbind]. rewrite V. cbn [negb].
    destruct (Z.eqb_spec (hs_total_n_bits h) 0); [lia|].
    rewrite size_loop; [|intros s Hs'; split; [now apply hN|]|lia|rewrite N.mul_1_l, <- Pr; eapply N.lt_trans; [exact Pb|reflexivity]].
    + rewrite N.mul_1_l. cbn [Nat.add]. rewrite ET. replace (Z.to_nat _) with K by (unfold K; lia). rewrite pow2_some by (unfold K; lia). cbn [of_opt sbind].
      f_equal. rewrite Ll, <- Pr. apply w64_small. destruct (prodb_le ps) as [n' Hn]. fold (sumM ps) in Hn. pose proof (binom_le_pow (sumM ps) n') as Q2. rewrite Sm in Q2, Hn.
      eapply N.le_lt_trans; [|exact h64]. replace T with (length ks + K)%nat by (unfold K; lia). rewrite Nat2N.inj_add, N.pow_add_r. apply N.mul_le_mono_r. lia.
    + assert ((length (sd_indices s) <= length (flat_map sd_indices ss))%nat); [|lia]. clear - Hs'. induction ss as [|a ss IH]; [destruct Hs'|]. cbn. rewrite app_length.
      destruct Hs' as [->|Hs']; [lia|]. specialize (IH Hs'). lia.
  - rewrite Ll, Pr. unfold K. now rewrite Lk.
  - destruct (ranks_ok comb_ranking ps ra_combination Fo) as [rs [_ Hrs]]. eapply numbered_nodup. exact (Nm rs Hrs).
  - intros rk Hrk. destruct (ranks_ok rk ps Hrk Fo) as [rs [Ers Hrs]]. exists (mk_mv ps rs (strides ps) (Z.of_nat K) rm). split; [|split].
    + unfold make_multi_view. rewrite Ems. cbn [sbind]. rewrite Ers. cbn [of_opt sbind]. unfold sec_sparse. rewrite Sp. cbn [of_opt sbind]. rewrite Enm. reflexivity.
    + split; [eapply numbered_nodup; exact (Nm rs Hrs)|]. split; [exact A|exact (Nm rs Hrs)].
    + intros V0 S0 so sv v amp Hv. unfold multi_foreach. cbn [mv_params mv_M mv_mask].
      assert (G : (sdo xs <- multi_loop ps (Z.of_nat K) rm; of_opt (foreach_calls so sv v xs 0)) = SOk (nonzero_pairs so amp l 0)).
      { rewrite El. cbn [sbind]. rewrite (foreach_calls_spec so sv v amp); [reflexivity|]. intros j hj. rewrite N.add_0_l. apply Hv. lia. }
      destruct ps as [|p0 pt0] eqn:Eps; [|exact G]. destruct (Z.eqb_spec (Z.of_nat K) 0) as [z|]; [|exact G].
      exfalso. cbn in Sm. unfold K in z. lia.
Qed.
End C46.
Print Assumptions C46_multisector.

Section Reject.
Context {I : Type} (io : index_ops I) (Hio : index_order io).
Notation desc := (@sector_desc I).

Lemma ms_params_reject (h : hspace I) (s : desc) : hs_reachable io h -> (forall i, In i (sd_indices s) -> hs_has io h (ESFermion i) = true) ->
  if (length (sd_indices s) <? sd_N s)%nat then ms_params io h s = SThrow else exists p, ms_params io h s = SOk p.
Proof.
  intros R H. assert (F : exists ks, Forall2 (pos_in (modes (spaces h))) (sd_indices s) ks).
  { assert (Q : forall i, In i (sd_indices s) -> In i (firstn (length (modes (spaces h))) (modes (spaces h)))).
    { intros i Hi. rewrite firstn_all. specialize (H i Hi). apply (has_iff io Hio h _ (reachable_inv io Hio h R)) in H. destruct H as [x [Hx Ss]].
      inversion Ss; subst.
      unfold modes. apply in_flat_map. exists (ESFermion i). split; auto. now left. }
    destruct (pos_exists _ _ _ Q) as [ks [F _]]. eauto. }
  destruct F as [ks F].
  assert (ML : forall m, exists m', mask_loop io h (sd_indices s) m = SOk m').
  { clear H. induction F as [|i k is ks P F IH]; intros m; cbn [mask_loop]; [eauto|]. destruct (mode_range io Hio h i k R P) as [e [-> _]].
    assert (hk : (k < length (modes (spaces h)))%nat) by (apply nth_error_Some; unfold pos_in in P; congruence).
    destruct (reach_total io Hio h R) as [_ hT]. pose proof (modes_le (spaces h)). rewrite Nat2Z.id, pow2_some by lia. cbn [of_opt sbind]. apply IH. }
  unfold ms_params, init_mask. destruct (ML 0) as [m ->]. cbn [sbind]. unfold validated_n.
  destruct (length (sd_indices s) <? sd_N s)%nat; cbn [sbind]; eauto.
Qed.
Lemma ms_all_reject (h : hspace I) (ss : list desc) s : hs_reachable io h -> (forall s i, In s ss -> In i (sd_indices s) -> hs_has io h (ESFermion i) = true) ->
  In s ss -> (length (sd_indices s) < sd_N s)%nat -> ms_params_all io h ss = SThrow.
Proof.
  intros R. induction ss as [|a ss IH]; intros H Hs hn; [destruct Hs|]. cbn [ms_params_all].
  pose proof (ms_params_reject h a R (fun i => H a i (or_introl eq_refl))) as Q. destruct (Nat.ltb_spec (length (sd_indices a)) (sd_N a)).
  - now rewrite Q.
  - destruct Q as [p ->]. cbn [sbind]. destruct Hs as [->|Hs]; [lia|]. rewrite IH; auto. intros; eapply H; [right|]; eauto.
Qed.

(** Errors: sparse spaces; a sector with an index that is not a fermionic mode
    of the space, or two sectors sharing a mode; more particles than modes (in
    that case the size is 0). *)
Theorem C46_rejections : forall (h : hspace I) (ss : list desc) rk, hs_reachable io h ->
  (hs_is_sparse h = Some true -> multisector_size io h ss = SThrow /\ multi_basis_states io h ss = SThrow) /\
  (hs_is_sparse h = Some false ->
    ((exists s i, In s ss /\ In i (sd_indices s) /\ ~ In i (modes (spaces h))) \/ ~ NoDup (flat_map sd_indices ss) ->
       multisector_size io h ss = SThrow /\ multi_basis_states io h ss = SThrow /\ make_multi_view io rk h ss = SThrow) /\
    ((forall s i, In s ss -> In i (sd_indices s) -> In i (modes (spaces h))) -> NoDup (flat_map sd_indices ss) ->
     (exists s, In s ss /\ (length (sd_indices s) < sd_N s)%nat) ->
       multisector_size io h ss = SOk 0 /\ multi_basis_states io h ss = SThrow /\ make_multi_view io rk h ss = SThrow)).
Proof.
  intros h ss rk R.
  assert (Hm : forall i, hs_has io h (ESFermion i) = true <-> In i (modes (spaces h))).
  { intros i. rewrite (has_iff io Hio h _ (reachable_inv io Hio h R)). unfold modes. rewrite in_flat_map. split.
    - intros [x [Hx Ss]]. exists x. split; auto. inversion Ss; subst. now left.
    - intros [x [Hx Hi]]. exists x. split; auto. destruct x as [j| |]; try (destruct Hi; fail). destruct Hi as [->|[]]. apply same_slot_refl. }
  split; [intros Sp; split; [unfold multisector_size, sec_sparse; now rewrite Sp|unfold multi_basis_states, sec_sparse; now rewrite Sp]|].
  intros Sp. split.
  - intros Bad. assert (V : validate_sectors io h ss = false).
    { destruct (validate_sectors io h ss) eqn:V; auto. exfalso. apply (validate_spec io Hio) in V. destruct V as [V1 V2]. destruct Bad as [[s [i [Hs [Hi ni]]]]|nd]; [|contradiction].
      apply ni, Hm. eapply V1; eauto. }
    assert (E : make_sector_params io h ss = SThrow) by (unfold make_sector_params; now rewrite V).
    split; [unfold multisector_size, sec_sparse; rewrite Sp; cbn [of_opt sbind]; now rewrite V|].
    split; [unfold multi_basis_states, sec_sparse; rewrite Sp; cbn [of_opt sbind]; now rewrite E|unfold make_multi_view; now rewrite E].
  - intros Ok ND [s [Hs hn]].
    assert (Ok' : forall s i, In s ss -> In i (sd_indices s) -> hs_has io h (ESFermion i) = true) by (intros; apply Hm; eauto).
    assert (V : validate_sectors io h ss = true) by (apply (validate_spec io Hio); auto).
    assert (E : make_sector_params io h ss = SThrow) by (unfold make_sector_params; rewrite V; eapply ms_all_reject; eauto).
    split; [|split; [unfold multi_basis_states, sec_sparse; rewrite Sp; cbn [of_opt sbind]; now rewrite E|unfold make_multi_view; now rewrite E]].
    unfold multisector_size, sec_sparse. rewrite Sp. cbn [of_opt sbind]. rewrite V. cbn [negb]. destruct (Z.eqb (hs_total_n_bits h) 0); auto.
    assert (L : forall ss, In s ss -> forall Mt sz, ms_size_loop ss Mt sz = None).
    { clear - hn. induction ss as [|a ss IH]; intros Hs Mt sz; [destruct Hs|]. cbn [ms_size_loop]. destruct (Nat.ltb_spec (length (sd_indices a)) (sd_N a)); auto.
      destruct Hs as [->|Hs]; [lia|]. now apply IH. }
    now rewrite L.
Qed.
End Reject.
Print Assumptions C46_rejections.

(** The claim is false for modes beyond the 32nd: the mask is computed with 32
    bits.  With 33 modes and the sector of all of them, N = 1, the list contains
    the vacuum and lacks the state with the last mode occupied. *)
Definition h33 : hspace Z := Eval vm_compute in fst (hs_of_vector ioZ (map (fun k => ESFermion (Z.of_nat k)) (seq 0 33))).
Definition all33 : list (@sector_desc Z) := [mk_sd (map Z.of_nat (seq 0 33)) 1].
Theorem C46_33_modes_refuted :
  hs_fresh ioZ h33 /\ hs_is_sparse h33 = Some false /\ modes (spaces h33) = map Z.of_nat (seq 0 33) /\
  exists l, multi_basis_states ioZ h33 all33 = SOk l /\
    (In 0 l /\ ~ in_multisector ioZ (spaces h33) all33 0) /\
    (~ In (2 ^ 32) l /\ in_multisector ioZ (spaces h33) all33 (2 ^ 32)).
Proof.
  split; [|split; [vm_compute; reflexivity|split; [vm_compute; reflexivity|]]].
  - eapply hf_vector with (l := map (fun k => ESFermion (Z.of_nat k)) (seq 0 33)); [|vm_compute; reflexivity].
    apply Forall_forall. intros e He. apply in_map_iff in He. destruct He as [k [<- _]]. exact Logic.I.
  - eexists. split; [vm_compute; reflexivity|]. split; split.
    + cbn. tauto.
    + intros [_ H]. specialize (H _ (or_introl eq_refl)). vm_compute in H. discriminate.
    + cbn. intros H. repeat (destruct H as [H|H]; [discriminate|]). exact H.
    + split.
      * assert (Q : forallb (fun e : espace Z => N.eqb (es_dim e) (2 ^ N.of_nat (es_nbits e))) (spaces h33) = true) by (vm_compute; reflexivity).
        apply dense_valid; [|vm_compute; reflexivity]. apply Forall_forall. intros e He. rewrite forallb_forall in Q. now apply N.eqb_eq, Q.
      * intros s [<-|[]]. vm_compute. reflexivity.
Qed.
Print Assumptions C46_33_modes_refuted.

(** the hypotheses are met: the space [hsec] of C45_ex, one particle in the modes
    1, 7 and one in the mode 3 *)
Example C46_ex :
  let ss := [mk_sd [1; 7]%Z 1; mk_sd [] 0; mk_sd [3]%Z 1] in
  NoDup (flat_map sd_indices ss) /\ (forall s i, In s ss -> In i (sd_indices s) -> In i (firstn 32 (modes (spaces hsec)))) /\
  multi_basis_states ioZ hsec ss = SOk (flat_map (fun u => map (fun k => u + 8 * k) [0; 1; 2; 3; 4; 5; 6; 7]) [3; 6]).
Proof.
  cbn [flat_map sd_indices app]. split; [|split].
  - repeat constructor; cbn; intuition discriminate.
  - intros s i Hs Hi. vm_compute. destruct Hs as [<-|[<-|[<-|[]]]]; cbn in Hi; intuition.
  - vm_compute. reflexivity.
Qed.
