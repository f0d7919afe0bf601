(** C73: repeated, interrupted and nested loops over sector views *)
From Coq Require Import NArith ZArith List Bool Arith Sorted Lia.
From Verif Require Import BitsModel BitsSpec BitsProofs RankModel RankSpec RankProofs ExprModel ExprSpec ExprOrder HSModel HSSpec HSEnum HSProofs HSMain PropHS
  PropRank TrieModel LOpModel LOpSpec SectorModel SectorSpec SectorProofs SectorMain SectorGen SectorMulti SectorSpace PropSector PropMulti ReentModel ReentSpec ReentProofs.
Import ListNotations.
Open Scope N_scope.
Open Scope list_scope.

Lemma concat_rows {A} (f : N -> list A) us : concat (map f us) = flat_map f us.
Proof. symmetry. apply flat_map_concat_map. Qed.
Lemma rows_fewer (f : N -> list N) c us : (0 < c)%nat -> (forall u, length (f u) = c) -> (length us <= length (flat_map f us))%nat.
Proof.
  intros hc H. induction us as [|u us IH]; cbn; auto. rewrite app_length, H. lia.
Qed.

Section Finish.
Context {G A S : Type} (is_zero : S -> bool) (get : A -> N -> option S).
Context (ginit : G -> G) (gdone : G -> bool) (gnext : G -> option (G * N)) (row : N -> list N) (g0 : G) (us : list N).
Context (Hall : forall g, gen_state ginit gnext g0 g -> exists ge, steps gdone gnext (ginit g) us ge).
Context (loop : @functor G A S -> G * A -> fres (G * A)) (fuel : nat) (Hf : (length us <= fuel)%nat).
Context (Hl : loop = gloop is_zero get ginit gdone gnext row fuel).
Notation l := (flat_map row us).
Lemma finish g a : gen_state ginit gnext g0 g ->
  (forall f : N -> S -> A -> fres A,
     fmap snd (loop (leaves f) (g, a)) = visit is_zero get f l 0 a /\
     match loop (leaves f) (g, a) with FOk (g', _) | FThrow (g', _) => gen_state ginit gnext g0 g' | FBad => True end) /\
  (forall body nests inner,
     fmap snd (loop (nesting loop body nests inner) (g, a)) = rows_until_nested is_zero get body nests inner l (map row us) 0 a).
Proof.
  intros Hg. split.
  - intros f. split.
    + pose proof (loop_leaves is_zero get ginit gdone gnext row g0 us Hall fuel Hf f g a Hg) as R. rewrite Hl.
      destruct (gloop is_zero get ginit gdone gnext row fuel (leaves f) (g, a)) as [[g' a']|[g' a']|];
        destruct (visit is_zero get f l 0 a); cbn [fmap snd]; try contradiction; auto.
      * destruct R as [-> _]. reflexivity.
      * now rewrite R.
    + rewrite Hl. unfold gloop. cbn [fst snd]. apply (rows_ok is_zero get ginit gdone gnext row g0 (leaves f)); [|now apply gs_init].
      intros x s g1 a1 H1. unfold leaves. cbn [fst snd]. destruct (f x s a1); cbn; auto.
  - intros body nests inner.
    pose proof (loop_nested is_zero get ginit gdone gnext row g0 us Hall fuel Hf body nests inner g a Hg) as R. rewrite Hl.
    destruct (gloop is_zero get ginit gdone gnext row fuel _ (g, a)) as [[g' a']|[g' a']|];
      destruct (rows_until_nested is_zero get body nests inner l (map row us) 0 a); cbn [fmap snd]; try contradiction; congruence || auto.
Qed.
End Finish.

(** *** n_fermion_sector_view
    [l] are the basis states of the sector, [rows] the consecutive parts of l that
    belong to one state of the fermions.  [g] is any state the generator inside of
    the view can be in.  A loop whose functor does not use the view is the loop
    over l (and leaves the generator in such a state, also when it ends with an
    exception).  A functor that runs loops over the same view ends the outer loop
    after the first row in which it does so. *)
Theorem C73_sector : forall I (io : index_ops I) (h : hspace I) n rk,
  index_order io -> hs_fresh io h -> hs_is_sparse h = Some false ->
  let M := length (modes (spaces h)) in
  let T := total_bits (spaces h) in
  (M <= 62)%nat -> (n <= M)%nat -> (0 < T)%nat -> ranking_algorithm rk ->
  exists l w rows, sector_basis_states h n = SOk l /\ make_sector_view rk h n = SOk w /\
    concat rows = l /\ Forall (fun r => N.of_nat (length r) = 2 ^ N.of_nat (T - M)) rows /\
    forall A S (so : scalar_ops S) (get : A -> N -> option S) g a fuel,
      gen_state ug_reset ug_next (sector_gen w) g -> (length l <= fuel)%nat ->
      let loop := sector_foreach_st so get fuel w in
      (forall f : N -> S -> A -> fres A,
         fmap snd (loop (leaves f) (g, a)) = visit (s_is_zero so) get f l 0 a /\
         match loop (leaves f) (g, a) with FOk (g', _) | FThrow (g', _) => gen_state ug_reset ug_next (sector_gen w) g' | FBad => True end) /\
      (forall body nests inner,
         fmap snd (loop (nesting loop body nests inner) (g, a)) = rows_until_nested (s_is_zero so) get body nests inner l rows 0 a).
Proof.
  intros I io h n rk Hio F Sp M T hM hn hT Hrk. pose proof (fresh_reachable io h F) as R.
  destruct (reach_total io Hio h R) as [ET hT63]. fold T in ET, hT63.
  assert (hMT : (M <= T)%nat) by (apply modes_le).
  set (p := {| pM := M; pmask := 2 ^ N.of_nat M - 1; pN := n |}).
  assert (Ep : sec_params h n = SOk p).
  { unfold sec_params. rewrite (fresh_m io Hio h F). cbn [sbind]. fold M. rewrite pow2_some by lia. cbn [of_opt sbind].
    unfold validated_n. destruct (Nat.ltb_spec M n); [lia|]. reflexivity. }
  assert (EK : (hs_total_n_bits h - Z.of_nat M)%Z = Z.of_nat (T - M)) by lia.
  assert (NE : (M =? 0)%nat && Z.eqb (Z.of_nat (T - M)) 0 = false).
  { destruct (Nat.eqb_spec M 0); auto. destruct (Z.eqb_spec (Z.of_nat (T - M)) 0); auto. lia. }
  destruct (ranking_ok rk p Hrk ltac:(cbn [pM p]; lia) ltac:(cbn [pM pN p]; lia)) as [r [Er Hr]].
  destruct (sector_loop_spec p (T - M) hM hn ltac:(cbn [pM p]; lia)) as [l [El _]].
  set (w := mk_view p r (2 ^ N.of_nat M - 1) (Z.of_nat (T - M))).
  pose proof El as El'. unfold sector_loop in El'. destruct (ug_all (ug_reset (unranking_generator_init p))) as [us|] eqn:Eu; [|discriminate El'].
  cbn [of_opt sbind] in El'. rewrite Nat2Z.id, pow2_some in El' by lia. cbn [of_opt sbind] in El'.
  set (row := fun u => map (fun nf => w64 (u + w64 (N.shiftl nf (N.of_nat (pM p))))) (count_to (2 ^ N.of_nat (T - M)))) in *.
  injection El' as El'.
  exists l, w, (map row us). split; [|split; [|split; [|split]]].
  - unfold sector_basis_states, sec_sparse. rewrite Sp. cbn [of_opt sbind]. rewrite Ep. cbn [sbind pM p]. rewrite EK, NE. exact El.
  - unfold make_sector_view. rewrite Ep. cbn [sbind]. rewrite Er. cbn [of_opt sbind pM p]. rewrite pow2_some by lia. cbn [of_opt sbind].
    unfold sec_sparse. rewrite Sp. cbn [of_opt sbind]. now rewrite EK.
  - rewrite concat_rows. exact El'.
  - apply Forall_forall. intros rw Hrw. apply in_map_iff in Hrw. destruct Hrw as [u [<- _]]. unfold row. now rewrite map_length, count_to_length, N2Nat.id.
  - intros A S so get g a fuel Hg hf loop.
    assert (Hl : loop = gloop (s_is_zero so) get ug_reset ug_done ug_next row fuel).
    { unfold loop, sector_foreach_st. cbn [vw_params vw_nonf w pM p]. rewrite NE, Nat2Z.id, pow2_some by lia. reflexivity. }
    rewrite <- El' in *.
    assert (Hf : (length us <= fuel)%nat).
    { eapply Nat.le_trans; [|exact hf]. apply (rows_fewer row (N.to_nat (2 ^ N.of_nat (T - M)))).
      - pose proof (pow_pos (T - M)). lia.
      - intros u. unfold row. now rewrite map_length, count_to_length. }
    exact (finish (s_is_zero so) get ug_reset ug_done ug_next row (sector_gen w) us (ug_all_steps p us Eu) loop fuel Hf Hl g a Hg).
Qed.
Print Assumptions C73_sector.

(** *** n_fermion_multisector_view: the same; a row belongs to one state of the
    modes of the sectors. *)
Theorem C73_multisector : forall I (io : index_ops I) (h : hspace I) (ss : list (@sector_desc I)) rk,
  index_order io -> hs_reachable io h -> hs_is_sparse h = Some false ->
  NoDup (flat_map sd_indices ss) ->
  (forall s i, In s ss -> In i (sd_indices s) -> In i (firstn 32 (modes (spaces h)))) ->
  (forall s, In s ss -> (sd_N s <= length (sd_indices s))%nat) ->
  let T := total_bits (spaces h) in
  (0 < T)%nat -> ranking_algorithm rk ->
  exists l w rows, multi_basis_states io h ss = SOk l /\ make_multi_view io rk h ss = SOk w /\
    concat rows = l /\ Forall (fun r => N.of_nat (length r) = 2 ^ N.of_nat (T - length (flat_map sd_indices ss))) rows /\
    forall A S (so : scalar_ops S) (get : A -> N -> option S) g a fuel,
      gen_state mg_reset mg_next (multi_gen_of w) g -> (length l <= fuel)%nat ->
      let loop := multi_foreach_st so get fuel w in
      (forall f : N -> S -> A -> fres A,
         fmap snd (loop (leaves f) (g, a)) = visit (s_is_zero so) get f l 0 a /\
         match loop (leaves f) (g, a) with FOk (g', _) | FThrow (g', _) => gen_state mg_reset mg_next (multi_gen_of w) g' | FBad => True end) /\
      (forall body nests inner,
         fmap snd (loop (nesting loop body nests inner) (g, a)) = rows_until_nested (s_is_zero so) get body nests inner l rows 0 a).
Proof.
  intros I io h ss rk Hio R Sp ND Hm hN T hT Hrk. destruct (reach_total io Hio h R) as [ET hT63]. fold T in ET, hT63.
  destruct (C46_multisector io Hio h ss R Sp ND Hm hN hT) as [l [E1 [_ [_ [_ [_ Hw]]]]]].
  destruct (Hw rk Hrk) as [w [E2 _]]. clear Hw.
  destruct (pos_exists (modes (spaces h)) (flat_map sd_indices ss) 32) as [ks [F hk]].
  { intros i Hi. apply in_flat_map in Hi. destruct Hi as [s [Hs Hi]]. eapply Hm; eauto. }
  pose proof (pos_nodup _ _ _ F ND) as NDk. pose proof (Forall2_len F) as Lk.
  destruct (ms_all_spec io Hio h ss ks R F ND hk hN) as [ps [Ep [P [Dj [O [Sm [Pr Q]]]]]]].
  assert (kT : forall k, In k ks -> (k < T)%nat).
  { intros k Hk. clear - F Hk T. pose proof (modes_le (spaces h)). assert ((k < length (modes (spaces h)))%nat); [|unfold T; lia].
    induction F as [|i k' is ks P F IH]; [destruct Hk|]. destruct Hk as [->|Hk]; auto. apply nth_error_Some. unfold pos_in in P. congruence. }
  pose proof (bitsum_lt ks T NDk kT) as hO. pose proof (pow2_lt64 T hT63) as h64.
  assert (UO : u64 (orall (map pmask ps))) by (rewrite O; unfold u64; lia).
  assert (kl : (length ks <= T)%nat). { rewrite <- (seq_length T 0). apply NoDup_incl_length; auto. intros k Hk. apply in_seq. specialize (kT k Hk). lia. }
  assert (kl32 : (length ks <= 32)%nat). { rewrite <- (seq_length 32 0). apply NoDup_incl_length; auto. intros k Hk. apply in_seq. specialize (hk k Hk). lia. }
  assert (Fo : Forall par_ok ps) by (eapply Forall_impl; [|exact P]; intros q [a _]; exact a).
  assert (Pb : prodb ps < 2 ^ 31). { destruct (prodb_le ps) as [n Hn]. eapply N.le_lt_trans; [exact Hn|]. apply binom_32. fold (sumM ps). lia. }
  pose proof (suf_sub ps P Dj) as Suf.
  assert (Su : Forall (fun y => y < 2 ^ 64) (suf ps)).
  { apply Forall_forall. intros y Hy. apply Suf in Hy. destruct Hy as [Hy _]. eapply u64_sub; eauto. }
  set (K := (T - length (flat_map sd_indices ss))%nat).
  pose proof E1 as E1'. pose proof E2 as E2'. unfold multi_basis_states, sec_sparse in E1. unfold make_multi_view, sec_sparse in E2. rewrite Sp in E1, E2. cbn [of_opt sbind] in E1.
  assert (Ems : make_sector_params io h ss = SOk ps).
  { unfold make_sector_params in *. destruct (validate_sectors io h ss); [exact Ep|discriminate E1]. }
  rewrite Ems in E1, E2. cbn [sbind] in E1, E2. destruct (of_opt (omap rk ps)) as [rs| |]; try discriminate E2. cbn [of_opt sbind] in E2.
  destruct (nonmulti_mask h ps) as [[rm KZ]| |] eqn:Enm; try discriminate E2. cbn [sbind fst snd] in E1, E2. injection E2 as E2.
  assert (EK : KZ = Z.of_nat K).
  { unfold nonmulti_mask in Enm. destruct (of_opt _) as [fl| |]; try discriminate Enm. cbn [sbind] in Enm. injection Enm as _ <-. rewrite rest_count, Sm, ET. unfold K. lia. }
  destruct (Z.eqb_spec (hs_total_n_bits h) 0); [lia|]. unfold multi_loop in E1. rewrite (mg_all_spec ps Fo Pb Su) in E1. cbn [of_opt sbind] in E1.
  rewrite EK, Nat2Z.id, pow2_some in E1 by (unfold K; lia). cbn [of_opt sbind] in E1.
  destruct (omap (fun k => deposit_bits k rm) (count_to (2 ^ N.of_nat K))) as [ds|] eqn:Ed; [|discriminate E1]. cbn [of_opt sbind] in E1.
  pose proof (omap_length _ _ _ Ed) as Ld. rewrite count_to_length in Ld.
  set (row := fun u => map (fun x => w64 (u + x)) ds) in *. injection E1 as E1.
  exists l, w, (map row (suf ps)). split; [|split; [|split; [|split]]].
  - exact E1'.
  - exact E2'.
  - rewrite concat_rows. exact E1.
  - apply Forall_forall. intros rw Hrw. apply in_map_iff in Hrw. destruct Hrw as [u [<- _]]. unfold row. rewrite map_length, Ld. now rewrite N2Nat.id.
  - intros A S so get g a fuel Hg hf loop.
    assert (Hl : loop = gloop (s_is_zero so) get mg_reset mg_done mg_next row fuel).
    { unfold loop, multi_foreach_st. rewrite <- E2. cbn [mv_params mv_M mv_mask]. rewrite EK, Nat2Z.id, pow2_some by (unfold K; lia). rewrite Ed.
      destruct ps as [|p0 pt0] eqn:Eps; [|reflexivity]. destruct (Z.eqb_spec (Z.of_nat K) 0) as [z|]; [|reflexivity].
      exfalso. cbn in Sm. unfold K in z. lia. }
    rewrite <- E1 in *.
    assert (Hf : (length (suf ps) <= fuel)%nat).
    { eapply Nat.le_trans; [|exact hf]. apply (rows_fewer row (N.to_nat (2 ^ N.of_nat K))).
      - pose proof (pow_pos K). lia.
      - intros u. unfold row. now rewrite map_length. }
    assert (Hg' : gen_state mg_reset mg_next (multi_gen_make ps) g) by (rewrite <- E2 in Hg; exact Hg).
    pose proof (finish (s_is_zero so) get mg_reset mg_done mg_next row (multi_gen_make ps) (suf ps) (mg_all_part ps Fo Pb Su) loop fuel Hf Hl g a Hg') as Fin.
    unfold multi_gen_of. rewrite <- E2. cbn [mv_params]. exact Fin.
Qed.
Print Assumptions C73_multisector.

(** *** Nested loops are incomplete (false of the code)
    Two loops over one view of the states |1>, |2> of one fermion in two modes:
    the pairs (1, 1) and (1, 2) are visited, the pairs (2, 1) and (2, 2) are not. *)
Definition h2f : hspace Z := Eval vm_compute in fst (hs_of_vector ioZ [ESFermion 0%Z; ESFermion 1%Z]).
Definition pairs_loop (loop : @functor unranking_generator (list (N * N)) Z -> unranking_generator * list (N * N) -> fres (unranking_generator * list (N * N)))
  : @functor unranking_generator (list (N * N)) Z :=
  nesting loop (fun _ _ a => a) (fun _ _ _ => true) (fun x _ y _ a => FOk (a ++ [(x, y)])).
Theorem C73_nested_refuted :
  hs_fresh ioZ h2f /\ sector_basis_states h2f 1 = SOk [1; 2] /\
  exists w, make_sector_view comb_ranking h2f 1 = SOk w /\
  forall fuel, (2 <= fuel)%nat ->
    let loop := sector_foreach_st int_scalar_ops (fun _ _ => Some 1%Z) fuel w in
    fmap snd (loop (pairs_loop loop) (sector_gen w, [])) = FOk [(1, 1); (1, 2)].
Proof.
  split; [eapply hf_vector with (l := [ESFermion 0%Z; ESFermion 1%Z]); [repeat constructor; cbn; lia|vm_compute; reflexivity]|].
  split; [vm_compute; reflexivity|].
  assert (F : hs_fresh ioZ h2f) by (eapply hf_vector with (l := [ESFermion 0%Z; ESFermion 1%Z]); [repeat constructor; cbn; lia|vm_compute; reflexivity]).
  assert (q1 : hs_is_sparse h2f = Some false) by reflexivity.
  assert (q2 : (length (modes (spaces h2f)) <= 62)%nat) by (cbn; lia).
  assert (q3 : (1 <= length (modes (spaces h2f)))%nat) by (cbn; lia).
  assert (q4 : (0 < total_bits (spaces h2f))%nat) by (cbn; lia).
  destruct (C73_sector Z ioZ h2f 1 comb_ranking sto_Z F q1 q2 q3 q4 ra_combination) as [l [w [rows [E1 [E2 [E3 [E4 H]]]]]]].
  exists w. split; [exact E2|]. intros fuel hf loop.
  assert (El : l = [1; 2]) by (assert (Q : sector_basis_states h2f 1 = SOk [1; 2]) by (vm_compute; reflexivity); rewrite Q in E1; congruence). subst l.
  assert (Er : rows = [[1]; [2]]).
  { assert (S1 : Forall (fun r => length r = 1%nat) rows).
    { eapply Forall_impl; [|exact E4]. intros r Hr. assert (N.of_nat (length r) = 1) by (rewrite Hr; vm_compute; reflexivity). lia. }
    destruct S1 as [|r1 rows H1 S1]; [discriminate|]. destruct S1 as [|r2 rows H2 S2].
    - destruct r1 as [|x [|y r1]]; discriminate.
    - destruct r1 as [|x [|y r1]]; try discriminate. destruct r2 as [|x2 [|y2 r2]]; try discriminate. cbn in El. injection El as -> -> El'.
      destruct S2 as [|r3 rows H3 S3]; auto. destruct r3 as [|x3 r3]; [discriminate|discriminate El']. }
  destruct (H (list (N * N)) Z int_scalar_ops (fun _ _ => Some 1%Z) (sector_gen w) [] fuel (gs_new _ _ _) ltac:(rewrite El; exact hf)) as [_ H2].
  unfold pairs_loop. fold loop in H2. rewrite H2, Er. reflexivity.
Qed.
Print Assumptions C73_nested_refuted.

(** Non-vacuity: the examples C45_ex and C46_ex meet the hypotheses; a generator
    in the middle of a loop *)
Example C73_ex :
  (exists g, gen_state ug_reset ug_next (unranking_generator_init {| pM := 3; pmask := 7; pN := 2 |}) g /\ ug_i g = 2 /\ ug_done g = false) /\
  (exists g, gen_state mg_reset mg_next (multi_gen_make [{| pM := 2; pmask := 5; pN := 1 |}; {| pM := 1; pmask := 2; pN := 1 |}]) g /\
     mg_i g = 1 /\ mg_partial g = [1; 3] /\ mg_done g = false).
Proof.
  split; eexists.
  - split; [eapply gs_next; [eapply gs_next; [apply gs_new|vm_compute; reflexivity]|vm_compute; reflexivity]|]. split; vm_compute; reflexivity.
  - split; [eapply gs_next; [apply gs_init, gs_new|vm_compute; reflexivity]|]. split; [|split]; vm_compute; reflexivity.
Qed.
