(** C77: loops over views and Hilbert spaces in several threads *)
From Coq Require Import NArith ZArith List Bool Arith Sorted Lia Reals.
From Verif Require Import BitsModel BitsSpec BitsProofs RankModel RankSpec RankProofs ExprModel ExprSpec ExprOrder HSModel HSSpec HSEnum HSProofs HSMain PropHS
  PropRank TrieModel LOpModel LOpSpec SectorModel SectorSpec SectorProofs SectorMain SectorGen SectorMulti SectorSpace PropSector PropMulti ReentModel ReentSpec ReentProofs
  ViewModel ViewSpec PropComp PropReent ConcLoopModel ConcLoopSpec ConcLoopProofs.
Import ListNotations.
Close Scope R_scope.
Close Scope nat_scope.
Open Scope N_scope.
Open Scope list_scope.

(** a loop over [l] as the machine of [ConcLoopProofs] sees it *)
Definition good_loop (it : iter) (o : iobj) (l : list N) : Prop :=
  exists (rows : N -> list N) us o1 v, it_skip it = false /\ it_init it o = Some (o1, v) /\ trace it o1 v us /\
    (forall u, In u us -> it_row it u = Some (rows u)) /\ l = flat_map rows us /\ (length us <= length l)%nat.

Lemma steps_trace_sector w : forall g us ge, steps ug_done ug_next g us ge -> trace (sector_iter w) (OSector g) (0, 0) us.
Proof.
  intros g us ge H. induction H as [g Hd|g g' u us ge Hd Hn H IH].
  - apply tr_end. cbn. now rewrite Hd.
  - eapply tr_next; [cbn; now rewrite Hd|cbn; rewrite Hn; reflexivity|reflexivity|exact IH].
Qed.
Lemma steps_trace_multi w : forall g us ge, steps mg_done mg_next g us ge -> trace (multi_iter w) (OMulti g) (0, 0) us.
Proof.
  intros g us ge H. induction H as [g Hd|g g' u us ge Hd Hn H IH].
  - apply tr_end. cbn. now rewrite Hd.
  - eapply tr_next; [cbn; now rewrite Hd|cbn; rewrite Hn; reflexivity|reflexivity|exact IH].
Qed.

Lemma sector_good I (io : index_ops I) (h : hspace I) n rk w g l :
  index_order io -> hs_fresh io h -> hs_is_sparse h = Some false ->
  (length (modes (spaces h)) <= 62)%nat -> (n <= length (modes (spaces h)))%nat -> (0 < total_bits (spaces h))%nat ->
  ranking_algorithm rk -> make_sector_view rk h n = SOk w ->
  gen_state ug_reset ug_next (sector_gen w) g ->
  sector_basis_states h n = SOk l -> good_loop (sector_iter w) (OSector g) l.
Proof.
  intros Hio F Sp hM hn hT Hrk Ew Hg El. pose proof (fresh_reachable io h F) as R.
  destruct (reach_total io Hio h R) as [ET hT63]. set (M := length (modes (spaces h))) in *. set (T := total_bits (spaces h)) in *.
  assert (hMT : (M <= T)%nat) by (apply modes_le).
  set (p := {| pM := M; pmask := 2 ^ N.of_nat M - 1; pN := n |}).
  assert (Ep : sec_params h n = SOk p).
  { unfold sec_params. rewrite (fresh_m io Hio h F). cbn [sbind]. fold M. rewrite pow2_some by lia. cbn [of_opt sbind].
    unfold validated_n. destruct (Nat.ltb_spec M n); [lia|]. reflexivity. }
  assert (EK : (hs_total_n_bits h - Z.of_nat M)%Z = Z.of_nat (T - M)) by lia.
  assert (NE : (M =? 0)%nat && Z.eqb (Z.of_nat (T - M)) 0 = false).
  { destruct (Nat.eqb_spec M 0); auto. destruct (Z.eqb_spec (Z.of_nat (T - M)) 0); auto. lia. }
  destruct (ranking_ok rk p Hrk ltac:(cbn [pM p]; lia) ltac:(cbn [pM pN p]; lia)) as [r [Er Hr]].
  unfold make_sector_view in Ew. rewrite Ep in Ew. cbn [sbind] in Ew. rewrite Er in Ew. cbn [of_opt sbind pM p] in Ew. rewrite pow2_some in Ew by lia. cbn [of_opt sbind] in Ew.
  unfold sec_sparse in Ew. rewrite Sp in Ew. cbn [of_opt sbind] in Ew. rewrite EK in Ew. injection Ew as Ew.
  unfold sector_basis_states, sec_sparse in El. rewrite Sp in El. cbn [of_opt sbind] in El. rewrite Ep in El. cbn [sbind pM p] in El. rewrite EK, NE in El.
  unfold sector_loop in El. destruct (ug_all (ug_reset (unranking_generator_init p))) as [us|] eqn:Eu; [|discriminate El].
  cbn [of_opt sbind] in El. rewrite Nat2Z.id, pow2_some in El by lia. cbn [of_opt sbind] in El. injection El as El.
  subst w. unfold sector_gen in Hg. cbn [vw_params] in Hg. destruct (ug_all_steps p us Eu g Hg) as [ge Hs].
  exists (fun u => map (fun nf => w64 (u + w64 (N.shiftl nf (N.of_nat (pM p))))) (count_to (2 ^ N.of_nat (T - M)))), us, (OSector (ug_reset g)), (0, 0).
  split; [exact NE|]. split; [reflexivity|]. split; [eapply steps_trace_sector; eauto|]. split; [|split].
  - intros u _. cbn [sector_iter it_row vw_nonf vw_params]. rewrite Nat2Z.id, pow2_some by lia. reflexivity.
  - symmetry. exact El.
  - rewrite <- El. apply (rows_fewer _ (N.to_nat (2 ^ N.of_nat (T - M)))).
    + pose proof (pow_pos (T - M)). lia.
    + intros u. now rewrite map_length, count_to_length.
Qed.

Lemma multi_good I (io : index_ops I) (h : hspace I) (ss : list (@sector_desc I)) rk w g l :
  index_order io -> hs_reachable io h -> hs_is_sparse h = Some false ->
  NoDup (flat_map sd_indices ss) ->
  (forall s i, In s ss -> In i (sd_indices s) -> In i (firstn 32 (modes (spaces h)))) ->
  (forall s, In s ss -> (sd_N s <= length (sd_indices s))%nat) -> (0 < total_bits (spaces h))%nat ->
  ranking_algorithm rk -> make_multi_view io rk h ss = SOk w ->
  gen_state mg_reset mg_next (multi_gen_of w) g ->
  multi_basis_states io h ss = SOk l -> good_loop (multi_iter w) (OMulti g) l.
Proof.
  intros Hio R Sp ND Hm hN hT Hrk E2 Hg E1. destruct (reach_total io Hio h R) as [ET hT63]. set (T := total_bits (spaces h)) in *.
  destruct (pos_exists (modes (spaces h)) (flat_map sd_indices ss) 32) as [ks [F hk]].
  { intros i Hi. apply in_flat_map in Hi. destruct Hi as [s [Hs Hi]]. eapply Hm; eauto. }
  pose proof (pos_nodup _ _ _ F ND) as NDk. pose proof (Forall2_len F) as Lk.
  destruct (ms_all_spec io Hio h ss ks R F ND hk hN) as [ps [Ep [P [Dj [O [Sm [Pr Q]]]]]]].
  assert (kT : forall k, In k ks -> (k < T)%nat).
  { intros k Hk. clear - F Hk T. pose proof (modes_le (spaces h)). assert ((k < length (modes (spaces h)))%nat); [|unfold T; lia].
    induction F as [|i k' is ks P F IH]; [destruct Hk|]. destruct Hk as [->|Hk]; auto. apply nth_error_Some. unfold pos_in in P. congruence. }
  pose proof (bitsum_lt ks T NDk kT) as hO. pose proof (pow2_lt64 T hT63) as h64.
  assert (UO : u64 (orall (map pmask ps))) by (rewrite O; unfold u64; lia).
  assert (kl : (length ks <= T)%nat). { rewrite <- (seq_length T 0). apply NoDup_incl_length; auto. intros k Hk. apply in_seq. specialize (kT k Hk). lia. }
  assert (kl32 : (length ks <= 32)%nat). { rewrite <- (seq_length 32 0). apply NoDup_incl_length; auto. intros k Hk. apply in_seq. specialize (hk k Hk). lia. }
  assert (Fo : Forall par_ok ps) by (eapply Forall_impl; [|exact P]; intros q [a _]; exact a).
  assert (Pb : prodb ps < 2 ^ 31). { destruct (prodb_le ps) as [n Hn]. eapply N.le_lt_trans; [exact Hn|]. apply binom_32. fold (sumM ps). lia. }
  pose proof (suf_sub ps P Dj) as Suf.
  assert (Su : Forall (fun y => y < 2 ^ 64) (suf ps)).
  { apply Forall_forall. intros y Hy. apply Suf in Hy. destruct Hy as [Hy _]. eapply u64_sub; eauto. }
  set (K := (T - length (flat_map sd_indices ss))%nat).
  unfold multi_basis_states, sec_sparse in E1. unfold make_multi_view, sec_sparse in E2. rewrite Sp in E1, E2. cbn [of_opt sbind] in E1.
  assert (Ems : make_sector_params io h ss = SOk ps).
  { unfold make_sector_params in *. destruct (validate_sectors io h ss); [exact Ep|discriminate E1]. }
  rewrite Ems in E1, E2. cbn [sbind] in E1, E2. destruct (of_opt (omap rk ps)) as [rs| |]; try discriminate E2. cbn [of_opt sbind] in E2.
  destruct (nonmulti_mask h ps) as [[rm KZ]| |] eqn:Enm; try discriminate E2. cbn [sbind fst snd] in E1, E2. injection E2 as E2.
  assert (EK : KZ = Z.of_nat K).
  { unfold nonmulti_mask in Enm. destruct (of_opt _) as [fl| |]; try discriminate Enm. cbn [sbind] in Enm. injection Enm as _ <-. rewrite rest_count, Sm, ET. unfold K. lia. }
  destruct (Z.eqb_spec (hs_total_n_bits h) 0); [lia|]. unfold multi_loop in E1. rewrite (mg_all_spec ps Fo Pb Su) in E1. cbn [of_opt sbind] in E1.
  rewrite EK, Nat2Z.id, pow2_some in E1 by (unfold K; lia). cbn [of_opt sbind] in E1.
  destruct (omap (fun k => deposit_bits k rm) (count_to (2 ^ N.of_nat K))) as [ds|] eqn:Ed; [|discriminate E1]. cbn [of_opt sbind] in E1.
  pose proof (omap_length _ _ _ Ed) as Ld. rewrite count_to_length in Ld. injection E1 as E1.
  assert (Hg' : gen_state mg_reset mg_next (multi_gen_make ps) g) by (rewrite <- E2 in Hg; exact Hg).
  destruct (mg_all_part ps Fo Pb Su g Hg') as [ge Hs].
  exists (fun u => map (fun x => w64 (u + x)) ds), (suf ps), (OMulti (mg_reset g)), (0, 0).
  rewrite <- E2. split.
  { cbn [multi_iter it_skip mv_params mv_M]. destruct ps as [|p0 pt0] eqn:Eps; [|reflexivity]. destruct (Z.eqb_spec KZ 0) as [zz|]; [|reflexivity].
    exfalso. cbn in Sm. unfold K in EK. lia. }
  split; [reflexivity|]. split; [eapply steps_trace_multi; eauto|]. split; [|split].
  - intros u _. cbn [multi_iter it_row mv_M mv_mask]. rewrite EK, Nat2Z.id, pow2_some by (unfold K; lia). rewrite Ed. reflexivity.
  - symmetry. exact E1.
  - rewrite <- E1. apply (rows_fewer _ (N.to_nat (2 ^ N.of_nat K))).
    + pose proof (pow_pos K). lia.
    + intros u. now rewrite map_length.
Qed.

Lemma map_const {A} (l : list A) (l' : list A) : length l = length l' -> map (fun _ => 0) l = map (fun _ => 0) l'.
Proof. revert l'. induction l as [|x l IH]; intros [|y l'] H; cbn in *; try discriminate; auto. f_equal. auto. Qed.

Lemma sparse_trace s : sfe_sizes s <> [] -> Forall (fun s => 0 < s /\ s <= 2 ^ 63) (sfe_sizes s) ->
  init_jumps (sfe_sizes s) = Some (sfe_jumps s) -> sfe_n s < 2 ^ 64 ->
  forall k i, N.of_nat (i + k) = sfe_n s ->
  trace (sparse_iter s) (OIndices (digs (sfe_sizes s) (N.of_nat i))) (N.of_nat i, w64 (stv (sfe_sizes s) (N.of_nat i)))
    (map (fun j => w64 (stv (sfe_sizes s) (N.of_nat j))) (seq i k)).
Proof.
  intros NE F Ej Hn. induction k as [|k IH]; intros i Hi.
  - apply tr_end. cbn [sparse_iter it_done fst]. rewrite Nat.add_0_r in Hi. rewrite Hi, N.ltb_irrefl. reflexivity.
  - cbn [seq map]. destruct (digs (sfe_sizes s) (N.of_nat i)) as [|i0 r] eqn:Ed.
    { destruct (sfe_sizes s) as [|s1 [|s2 t]]; try contradiction; discriminate. }
    pose proof (carry_step (sfe_sizes s) NE F 1 (sfe_jumps s) 0 (N.of_nat i) i0 r Ej Ed) as C.
    replace (0 + 1 * (stv (sfe_sizes s) (N.of_nat i) + 1)) with (stv (sfe_sizes s) (N.of_nat i) + 1) in C by lia.
    replace (0 + 1 * stv (sfe_sizes s) (N.of_nat i + 1)) with (stv (sfe_sizes s) (N.of_nat i + 1)) in C by lia.
    eapply tr_next with (o2 := OIndices (digs (sfe_sizes s) (N.of_nat (Datatypes.S i)))) (v2 := (N.of_nat (Datatypes.S i), w64 (stv (sfe_sizes s) (N.of_nat (Datatypes.S i))))).
    + cbn [sparse_iter it_done fst]. destruct (N.ltb_spec (N.of_nat i) (sfe_n s)); [reflexivity|lia].
    + reflexivity.
    + cbn [sparse_iter it_post fst snd]. rewrite w64_add_l, C. replace (N.of_nat (Datatypes.S i)) with (N.of_nat i + 1) by lia.
      rewrite (w64_small (N.of_nat i + 1)) by lia. reflexivity.
    + apply IH. rewrite <- Hi. f_equal. lia.
Qed.

Lemma sorted_unique (l : list N) : forall l', StronglySorted N.lt l -> StronglySorted N.lt l' -> (forall x, In x l <-> In x l') -> l = l'.
Proof.
  induction l as [|a l IH]; intros [|b l'] S1 S2 H; auto.
  - destruct (proj2 (H b) ltac:(now left)).
  - destruct (proj1 (H a) ltac:(now left)).
  - inversion S1 as [|? ? S1' F1]; inversion S2 as [|? ? S2' F2]; subst. rewrite Forall_forall in F1, F2.
    assert (a = b). { destruct (proj1 (H a) ltac:(now left)) as [|Ha]; auto. destruct (proj2 (H b) ltac:(now left)) as [|Hb]; auto.
      specialize (F1 b Hb). specialize (F2 a Ha). lia. }
    subst b. f_equal. apply IH; auto. intros x. specialize (H x). cbn [In] in H. split; intros Hx.
    + destruct (proj1 H ltac:(now right)) as [<-|]; auto. specialize (F1 a Hx). lia.
    + destruct (proj2 H ltac:(now right)) as [<-|]; auto. specialize (F2 a Hx). lia.
Qed.

Lemma sparse_good I (io : index_ops I) (h : hspace I) s ind l : index_order io -> hs_reachable io h ->
  sfe_sizes s <> [] -> Forall (fun s => 0 < s /\ s <= 2 ^ 63) (sfe_sizes s) ->
  init_jumps (sfe_sizes s) = Some (sfe_jumps s) -> sfe_n s = product_dim (spaces h) ->
  (forall i, i < product_dim (spaces h) -> stv (sfe_sizes s) i = stl (spaces h) i) ->
  length ind = length (sfe_sizes s) ->
  StronglySorted N.lt l -> (forall x, In x l <-> valid_state (spaces h) x) -> good_loop (sparse_iter s) (OIndices ind) l.
Proof.
  intros Hio R K1 K2 K3 SN K7 Li Sl Hl. pose proof (reachable_inv io Hio h R) as Hi. pose proof Hi as [S0 [W [P [E [B [D F]]]]]].
  assert (PD : product_dim (spaces h) < 2 ^ 64) by (pose proof (product_63 _ W B); eapply N.le_lt_trans; [eassumption|reflexivity]).
  assert (El : l = basis_list (spaces h)).
  { apply sorted_unique; auto; [now apply basis_list_sorted|]. intros x. rewrite Hl. symmetry. now apply basis_list_In. }
  exists (fun u => [u]), l, (OIndices (digs (sfe_sizes s) 0)), (0, 0). split; [reflexivity|]. split.
  { cbn [sparse_iter it_init]. rewrite digs_zero by auto. do 3 f_equal. now apply map_const. }
  split; [|split; [|split]].
  - pose proof (sparse_trace s K1 K2 K3 ltac:(rewrite SN; exact PD) (N.to_nat (sfe_n s)) 0 ltac:(lia)) as T.
    change (N.of_nat 0) with 0 in T. rewrite (stv_zero _ K2) in T. change (w64 0) with 0 in T.
    rewrite El. unfold basis_list. rewrite SN in T.
    erewrite map_ext_in; [exact T|]. intros j hj. apply in_seq in hj. cbn beta. rewrite K7 by lia. symmetry. apply w64_small.
    eapply N.lt_le_trans; [apply stl_bound; auto; lia|]. apply N.pow_le_mono_r; lia.
  - reflexivity.
  - clear. induction l as [|x l IH]; cbn; auto. now f_equal.
  - auto.
Qed.

Lemma loops_good it o l : loops_over it o l -> good_loop it o l.
Proof.
  intros H. destruct H as [I io h n rk w g l Hio F Sp hM hn hT Hrk Ew Hg El
    |I io h ss rk w g l Hio R Sp ND Hm hN hT Hrk Ew Hg El
    |I io h s ind l Hio R Ef Hd Li Sl Hl
    |I io h w ind l Hio R Hd Ew Li Sl Hl].
  - eapply sector_good; eauto.
  - eapply multi_good; eauto.
  - pose proof (reachable_inv io Hio h R) as Hi. pose proof Hi as [S0 [W [P [E [B [D F]]]]]].
    destruct (init_fa_spec (place (spaces h) 0)) as [fa [Ea K]]; rewrite ?place_fst in *; auto.
    rewrite F, Ef in Ea. inversion Ea; subst fa. destruct K as [K1 [K2 [K3 [K4 [K5 [K6 K7]]]]]].
    assert (SN : sfe_n s = product_dim (spaces h)).
    { apply (sfe_n_iff io h s Hi Ef). unfold hs_dim in Hd. now rewrite <- D. }
    eapply sparse_good; eauto.
  - pose proof (reachable_inv io Hio h R) as Hi. pose proof Hi as [S0 [W [P [E [B [D F]]]]]].
    destruct (comp_view_spec io Hio h Hi) as [w' [Ew' [A [K1 [K2 [K3 [K4 [K5 K7]]]]]]]]. assert (w' = w) by congruence. subst w'.
    assert (Ed : hs_dim h = product_dim (spaces h)) by exact D. rewrite Ed in Hd. specialize (K1 ltac:(lia)). specialize (K5 K1).
    assert (SN : sfe_n (cv_fa w) = product_dim (spaces h)).
    { rewrite K5. unfold int_accumulate. change 1%Z with (Z.of_N 1).
      rewrite HSProofs.int_acc_small by (auto; try lia; rewrite K4; lia).
      rewrite N.mul_1_l, K4. apply z_to_u64_small. apply N.lt_trans with (2 ^ 31); [lia|reflexivity]. }
    eapply sparse_good; eauto.
Qed.

(** Every thread loops over an object of its own (e.g. a copy of a view), with any
    functor and data: in every schedule each loop does what it does without other
    threads, i.e. it visits exactly the states l in this order, and it ends after
    at most 4 |l| + 2 steps. *)
Theorem C77_own_objects : forall A S (objs : list iobj) (ts : list (cthread A S)) (sch : list nat),
  NoDup (map ct_obj ts) ->
  forall i t o l, nth_error ts i = Some t -> ct_pc t = PStart ->
  nth_error objs (ct_obj t) = Some o -> loops_over (ct_iter t) o l ->
  (4 * length l + 2 <= count_occ Nat.eq_dec sch i)%nat ->
  exists t', nth_error (snd (crun objs ts sch)) i = Some t' /\
    outcome t' = Some (visit (ct_zero t) (ct_get t) (ct_fun t) l 0 (ct_data t)).
Proof.
  intros A S objs ts sch ND i t o l Ht Hp Ho Hl Hn.
  assert (D : forall i j ti tj, nth_error ts i = Some ti -> nth_error ts j = Some tj -> ct_obj ti = ct_obj tj -> i = j).
  { intros a b ta tb Ha Hb Hab. assert (La : (a < length (map ct_obj ts))%nat) by (rewrite map_length; apply nth_error_Some; congruence).
    apply (proj1 (NoDup_nth_error _) ND a b La). rewrite !nth_error_map, Ha, Hb. cbn. now rewrite Hab. }
  destruct (separate sch objs ts D i t o Ht Ho) as [E _].
  exists (fst (alone (count_occ Nat.eq_dec sch i) t o)). split; [exact E|].
  destruct (loops_good _ _ _ Hl) as [rows [us [o1 [v [G1 [G2 [G3 [G4 [G5 G6]]]]]]]]].
  destruct t as [it ob z gt f p a]. cbn [ct_pc ct_iter ct_zero ct_get ct_fun ct_data] in *. subst p.
  eapply loop_alone; eauto.
Qed.
Print Assumptions C77_own_objects.
(** Linear operators: threads that apply operators (one shared object or several)
    to views of their own of a shared source vector and write to destinations of
    their own get the same vectors as without other threads. *)
Definition apply_thread {S V} (so : scalar_ops S) (sq : N -> S) (half : Z -> S) (sv : sv_ops V S)
  (L : lop S) (it : iter) (ob : nat) (src : N -> option S) (dst : V) : cthread V S :=
  mk_cthread it ob (s_is_zero so) (fun _ => src)
    (fun x a d => match act_monos so sq half sv L x a d with Some d' => FOk d' | None => FBad end) PStart (sv_zero sv dst).
Lemma visit_entries {S V} (so : scalar_ops S) sq half (sv : sv_ops V S) L src (amp : N -> S) : forall xs k d,
  (forall j, k <= j < k + N.of_nat (length xs) -> src j = Some (amp j)) ->
  visit (s_is_zero so) (fun _ => src) (fun x a d => match act_monos so sq half sv L x a d with Some d' => FOk d' | None => FBad end) xs k d =
  match act_entries so sq half sv L (nonzero_pairs so amp xs k) d with Some d' => FOk d' | None => FBad end.
Proof.
  induction xs as [|x xs IH]; intros k d H; [reflexivity|]. cbn [visit nonzero_pairs length] in *. rewrite (H k) by lia.
  assert (H' : forall j, k + 1 <= j < k + 1 + N.of_nat (length xs) -> src j = Some (amp j)) by (intros j hj; apply H; lia).
  destruct (s_is_zero so (amp k)); [now apply IH|]. cbn [act_entries]. destruct (act_monos so sq half sv L x (amp k) d); [now apply IH|reflexivity].
Qed.
Theorem C77_operators : forall S V (so : scalar_ops S) sq half (sv : sv_ops V S) (src : N -> option S) (amp : N -> S) objs
  (jobs : list (lop S * iter * nat * V)) (sch : list nat),
  let ts := map (fun j => let '(L, it, ob, dst) := j in apply_thread so sq half sv L it ob src dst) jobs in
  NoDup (map ct_obj ts) ->
  forall i L it ob dst o l, nth_error jobs i = Some (L, it, ob, dst) -> nth_error objs ob = Some o -> loops_over it o l ->
  (forall k, k < N.of_nat (length l) -> src k = Some (amp k)) ->
  (4 * length l + 2 <= count_occ Nat.eq_dec sch i)%nat ->
  exists t', nth_error (snd (crun objs ts sch)) i = Some t' /\
    outcome t' = Some match lop_apply_to so sq half sv L (nonzero_pairs so amp l 0) dst with Some r => FOk r | None => FBad end.
Proof.
  intros S V so sq half sv src amp objs jobs sch ts ND i L it ob dst o l Hj Ho Hl Hs Hn.
  destruct (C77_own_objects V S objs ts sch ND i (apply_thread so sq half sv L it ob src dst) o l) as [t' [E1 E2]]; auto.
  - unfold ts. rewrite nth_error_map, Hj. reflexivity.
  - exists t'. split; [exact E1|]. rewrite E2. cbn [apply_thread ct_zero ct_get ct_fun ct_data].
    rewrite (visit_entries so sq half sv L src amp l 0) by (intros j hj; apply Hs; lia). reflexivity.
Qed.
Print Assumptions C77_operators.


(** *** Threads must not share an object (false of the code)
    Two threads loop over one view of the states |1>, |2> of one fermion in two
    modes, the amplitudes are those of a vector of two elements.  In one schedule
    the second loop ends without having visited |2>; in another one the first loop
    reads beyond the end of the vector. *)
Definition amps2 (k : N) : option Z := nth_error [5%Z; 7%Z] (N.to_nat k).
Definition collector (it : iter) (ob : nat) : cthread (list (N * Z)) Z :=
  mk_cthread it ob (Z.eqb 0) (fun _ => amps2) (fun x s a => FOk (a ++ [(x, s)])) PStart [].
Theorem C77_shared_view_refuted :
  hs_fresh ioZ h2f /\ sector_basis_states h2f 1 = SOk [1; 2] /\
  exists w, make_sector_view comb_ranking h2f 1 = SOk w /\
  let it := sector_iter w in
  let start := [collector it 0; collector it 0] in
  visit (Z.eqb 0) (fun _ => amps2) (fun x s a => FOk (a ++ [(x, s)])) [1; 2] 0 [] = FOk [(1, 5%Z); (2, 7%Z)] /\
  (exists sch, map outcome (snd (crun [OSector (sector_gen w)] start sch)) = [Some (FOk [(1, 5%Z); (2, 7%Z)]); Some (FOk [(1, 5%Z)])]) /\
  (exists sch o, map outcome (snd (crun [OSector (sector_gen w)] start sch)) = [Some FBad; o]).
Proof.
  split; [eapply hf_vector with (l := [ESFermion 0%Z; ESFermion 1%Z]); [repeat constructor; cbn; lia|vm_compute; reflexivity]|].
  split; [vm_compute; reflexivity|].
  assert (F : hs_fresh ioZ h2f) by (eapply hf_vector with (l := [ESFermion 0%Z; ESFermion 1%Z]); [repeat constructor; cbn; lia|vm_compute; reflexivity]).
  assert (q1 : hs_is_sparse h2f = Some false) by reflexivity.
  assert (q2 : (length (modes (spaces h2f)) <= 62)%nat) by (cbn; lia).
  assert (q3 : (1 <= length (modes (spaces h2f)))%nat) by (cbn; lia).
  assert (q4 : (0 < total_bits (spaces h2f))%nat) by (cbn; lia).
  destruct (C73_sector Z ioZ h2f 1 comb_ranking sto_Z F q1 q2 q3 q4 ra_combination) as [l [w [rows [_ [E2 _]]]]].
  exists w. split; [exact E2|]. intros it start.
  assert (Ew : vw_params w = {| pM := 2; pmask := 3; pN := 1 |} /\ vw_nonf w = 0%Z).
  { clear - E2. destruct w as [p r m nf]. cbn [vw_params vw_nonf]. unfold make_sector_view in E2.
    assert (Ep : sec_params h2f 1 = SOk {| pM := 2; pmask := 3; pN := 1 |}) by reflexivity. rewrite Ep in E2. cbn [sbind] in E2.
    destruct (comb_ranking {| pM := 2; pmask := 3; pN := 1 |}); cbn [of_opt sbind] in E2; [|discriminate E2].
    cbn [pM] in E2. assert (Ps : sec_sparse h2f = SOk false) by reflexivity. rewrite Ps in E2.
    assert (Pp : exists q, pow2 2 = Some q) by (eexists; reflexivity). destruct Pp as [q Pp]. rewrite Pp in E2. cbn [of_opt sbind] in E2.
    injection E2 as <- _ _ <-. split; reflexivity. }
  destruct Ew as [Ew1 Ew2].
  assert (Eit : it = sector_iter {| vw_params := {| pM := 2; pmask := 3; pN := 1 |}; vw_rank := vw_rank w; vw_fmask := vw_fmask w; vw_nonf := 0 |}).
  { unfold it. destruct w; cbn in *. now subst. }
  unfold sector_gen. rewrite Ew1. unfold start. rewrite Eit.
  split; [reflexivity|]. split.
  - exists [0; 0; 0; 1; 1; 1; 0; 0; 0; 0; 0; 0; 0; 0; 1; 1; 1; 1]%nat. vm_compute. reflexivity.
  - exists [0; 0; 0; 1; 1; 1; 0; 0; 0; 1; 1; 1; 0; 1; 0; 0; 0; 0; 0; 0; 0; 0; 0; 0; 0; 0]%nat. eexists. vm_compute. reflexivity.
Qed.
Print Assumptions C77_shared_view_refuted.

(** The same for a sparse Hilbert space of two bosons with three states each, whose
    basis states are 0, 1, 2, 4, 5, 6, 8, 9, 10: while one thread has only started
    its loop, the other one visits 3. *)
Definition hb33 : hspace Z := Eval vm_compute in fst (hs_of_vector ioZ [ESBoson 3 0%Z; ESBoson 3 1%Z]).
Definition lister (it : iter) (ob : nat) : cthread (list N) unit :=
  mk_cthread it ob (fun _ => false) (fun _ _ => Some tt) (fun x _ a => FOk (a ++ [x])) PStart [].
Theorem C77_shared_space_refuted :
  hs_reachable ioZ hb33 /\ hs_dim hb33 = 9 /\
  exists s, hs_fa hb33 = Some s /\
  let it := sparse_iter s in
  exists sch ts, snd (crun [OIndices [0; 0]] [lister it 0; lister it 0] sch) = ts /\
    option_map outcome (nth_error ts 0) = Some (Some (FOk [0; 1; 2; 3; 5; 6; 7; 9; 10])) /\
    ~ valid_state (spaces hb33) 3.
Proof.
  assert (R : hs_reachable ioZ hb33).
  { apply fresh_reachable. eapply hf_vector with (l := [ESBoson 3 0%Z; ESBoson 3 1%Z]); [|vm_compute; reflexivity].
    repeat constructor; cbn; lia. }
  split; [exact R|]. split; [reflexivity|]. eexists. split; [reflexivity|]. intros it.
  exists (repeat 0 5 ++ [1] ++ repeat 0 33)%nat. eexists. split; [reflexivity|]. split; [vm_compute; reflexivity|].
  destruct (reachable_inv ioZ sto_Z hb33 R) as [_ [W _]]. intros V. apply (basis_list_In _ W) in V. vm_compute in V. intuition discriminate.
Qed.
Print Assumptions C77_shared_space_refuted.

(** Non-vacuity: a sector view whose generator was left in the middle of a loop
    and a sparse Hilbert space with old indices, looped over at the same time *)
Definition sch_ex : list nat := flat_map (fun _ => [0; 1; 1; 1; 1]%nat) (seq 0 10).
Example C77_ex : exists it0 g it1,
  loops_over it0 (OSector g) [1; 2] /\ loops_over it1 (OIndices [2; 1]) [0; 1; 2; 4; 5; 6; 8; 9; 10] /\
  let ts := [mk_cthread it0 1 (fun _ => false) (fun _ _ => Some tt) (fun x _ a => if x =? 2 then FThrow a else FOk (a ++ [x])) PStart []; lister it1 0] in
  NoDup (map ct_obj ts) /\
  (4 * length [1; 2] + 2 <= count_occ Nat.eq_dec sch_ex 0)%nat /\
  map outcome (snd (crun [OIndices [2; 1]; OSector g] ts sch_ex)) =
  [Some (FThrow [1]); Some (FOk [0; 1; 2; 4; 5; 6; 8; 9; 10])].
Proof.
  assert (F : hs_fresh ioZ h2f) by (eapply hf_vector with (l := [ESFermion 0%Z; ESFermion 1%Z]); [repeat constructor; cbn; lia|vm_compute; reflexivity]).
  assert (q1 : hs_is_sparse h2f = Some false) by reflexivity.
  assert (q2 : (length (modes (spaces h2f)) <= 62)%nat) by (cbn; lia).
  assert (q3 : (1 <= length (modes (spaces h2f)))%nat) by (cbn; lia).
  assert (q4 : (0 < total_bits (spaces h2f))%nat) by (cbn; lia).
  destruct (C73_sector Z ioZ h2f 1 comb_ranking sto_Z F q1 q2 q3 q4 ra_combination) as [l [w [rows [E1 [E2 _]]]]].
  assert (El : l = [1; 2]) by (assert (Q : sector_basis_states h2f 1 = SOk [1; 2]) by (vm_compute; reflexivity); rewrite Q in E1; congruence). subst l.
  assert (R : hs_reachable ioZ hb33).
  { apply fresh_reachable. eapply hf_vector with (l := [ESBoson 3 0%Z; ESBoson 3 1%Z]); [|vm_compute; reflexivity].
    repeat constructor; cbn; lia. }
  assert (Fa : exists s, hs_fa hb33 = Some s) by (eexists; reflexivity). destruct Fa as [s Fa].
  assert (G : exists g' u, ug_next (sector_gen w) = Some (g', u) /\ gen_state ug_reset ug_next (sector_gen w) g').
  { assert (Q : exists g' u, ug_next (sector_gen w) = Some (g', u)).
    { unfold ug_next, sector_gen. assert (Z0 : forall p, ug_i (unranking_generator_init p) = 0) by reflexivity.
      rewrite Z0. cbn. eauto. }
    destruct Q as [g' [u Q]]. exists g', u. split; [exact Q|]. eapply gs_next; [apply gs_new|exact Q]. }
  destruct G as [g' [u [G1 G2]]].
  assert (L1 : loops_over (sector_iter w) (OSector g') [1; 2]).
  { refine (lo_sector Z ioZ h2f 1 comb_ranking w g' [1; 2] sto_Z F q1 q2 q3 q4 ra_combination E2 G2 E1). }
  destruct (reachable_inv ioZ sto_Z hb33 R) as [_ [W _]].
  assert (Bl : basis_list (spaces hb33) = [0; 1; 2; 4; 5; 6; 8; 9; 10]) by (vm_compute; reflexivity).
  assert (L2 : loops_over (sparse_iter s) (OIndices [2; 1]) [0; 1; 2; 4; 5; 6; 8; 9; 10]).
  { refine (lo_space Z ioZ hb33 s [2; 1] [0; 1; 2; 4; 5; 6; 8; 9; 10] sto_Z R Fa _ _ _ _).
    - reflexivity.
    - assert (Fa' : hs_fa hb33 = Some s) by exact Fa. cbn in Fa'. injection Fa' as <-. reflexivity.
    - rewrite <- Bl. now apply basis_list_sorted.
    - intros x. rewrite <- Bl. now apply basis_list_In. }
  exists (sector_iter w), g', (sparse_iter s). split; [exact L1|]. split; [exact L2|]. intros ts.
  assert (ND : NoDup (map ct_obj ts)) by (cbn; constructor; [intros [H|[]]; discriminate|constructor; [intros []|constructor]]).
  set (sch := sch_ex).
  assert (C0 : (4 * length [1; 2] + 2 <= count_occ Nat.eq_dec sch 0)%nat) by (vm_compute; lia).
  assert (C1 : (4 * length [0; 1; 2; 4; 5; 6; 8; 9; 10] + 2 <= count_occ Nat.eq_dec sch 1)%nat) by (vm_compute; lia).
  split; [exact ND|]. split; [exact C0|].
  destruct (C77_own_objects _ _ [OIndices [2; 1]; OSector g'] ts sch ND 0 _ _ _ eq_refl eq_refl eq_refl L1 C0) as [t0 [T0 O0]].
  destruct (C77_own_objects _ _ [OIndices [2; 1]; OSector g'] ts sch ND 1 _ _ _ eq_refl eq_refl eq_refl L2 C1) as [t1 [T1 O1]].
  fold sch. assert (Len : forall (sc : list nat) ob (tt : list (cthread (list N) unit)), length (snd (crun ob tt sc)) = length tt).
  { clear. induction sc as [|i sc IH]; intros ob tt; cbn; auto. destruct (nth_error tt i); auto. destruct (nth_error ob _); auto.
    rewrite IH. apply DSProofs.upd_length. }
  specialize (Len sch [OIndices [2; 1]; OSector g'] ts). destruct (snd (crun _ ts sch)) as [|a [|b [|c r]]]; try discriminate Len.
  cbn in T0, T1. injection T0 as <-. injection T1 as <-. cbn [map]. rewrite O0, O1. reflexivity.
Qed.
