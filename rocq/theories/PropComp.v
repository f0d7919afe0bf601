(** C56: compressed views *)
From Coq Require Import NArith ZArith List Bool Sorted Permutation Lia Arith Reals.
From Verif Require PropView.
From Verif Require Import BitsModel BitsSpec BitsProofs ExprModel ExprSpec ExprOrder ExprEval ExprInst PropFactories
  HSModel HSSpec HSEnum HSProofs HSMain PropHS LOpModel LOpSpec LOpFermion LOpSite LOpActF LOpActB LOpActS LOpComm LOpApply LOpMatrix LOpMain LOpReal
  PropLOp2 PropLOp3 SectorModel SectorSpec SectorProofs ViewModel ViewSpec ViewProofs ViewComp.
Import ListNotations.
Close Scope R_scope.
Close Scope nat_scope.
Open Scope N_scope.
Open Scope list_scope.

Section C56.
Context {I : Type} (io : index_ops I) (Hio : index_order io).

Lemma comp_view_spec (h : hspace I) : hs_inv io h -> exists w, comp_view_make io h = Some w /\
  (forall i, i < product_dim (spaces h) -> comp_map_index w (stl (spaces h) i) = Some i) /\
  (1 < product_dim (spaces h) -> sfe_sizes (cv_fa w) <> []) /\
  Forall (fun s => 0 < s /\ s <= 2 ^ 63) (sfe_sizes (cv_fa w)) /\
  init_jumps (sfe_sizes (cv_fa w)) = Some (sfe_jumps (cv_fa w)) /\
  fold_right N.mul 1 (sfe_sizes (cv_fa w)) = product_dim (spaces h) /\
  (sfe_sizes (cv_fa w) <> [] -> sfe_n (cv_fa w) = z_to_u64 (int_accumulate (sfe_sizes (cv_fa w)))) /\
  forall i, i < product_dim (spaces h) -> stv (sfe_sizes (cv_fa w)) i = stl (spaces h) i.
Proof.
  intros Hi. pose proof Hi as [S0 [W [P [E [B [D F]]]]]].
  destruct (cv_loop_spec io h (hs_es h) W 0 0) as [sm [E1 [E2 E3]]]; auto.
  { intros j e Hj. exists (Z.of_nat (offset (spaces h) j) + Z.of_nat (es_nbits e) - 1)%Z.
    unfold hs_bit_range. rewrite (find_nth io Hio h j e Hi Hj). reflexivity. }
  change (2 ^ N.of_nat 0) with 1 in *. change (cmask (0 - 0) 0) with 0 in E1. fold (spaces h) in *.
  destruct (merge_dims_spec (hs_es h) W 0 B) as [sizes [F1 [F2 [F3 F4]]]]. change (2 ^ N.of_nat 0) with 1 in *. fold (spaces h) in *.
  rewrite E2 in F1. inversion F1; subst sizes.
  unfold comp_view_make. rewrite E1. unfold sfe_make, init_jumps. destruct (init_jumps_ok (map fst sm) F2 1) as [js Ej]. rewrite Ej.
  eexists. split; [reflexivity|]. cbn [cv_fa sfe_sizes sfe_jumps sfe_n].
  split; [|split; [|split; [exact F2|split; [exact Ej|split; [|split]]]]].
  - intros i hi. unfold comp_map_index. cbn [cv_masks cv_strides]. change 1 with (w64 1) at 1. change 0 with (w64 0).
    assert (PD : product_dim (spaces h) < 2 ^ 64) by (pose proof (product_63 _ W B); eapply N.le_lt_trans; [eassumption|reflexivity]).
    rewrite (E3 _ i).
    + f_equal. rewrite N.add_0_l, N.mul_1_r. apply w64_small. lia.
    + unfold u64. eapply N.lt_le_trans; [apply stl_bound; auto|]. apply N.pow_le_mono_r; lia.
    + lia.
    + cbn [Nat.sub N.of_nat]. rewrite N.shiftr_0_r, N.mod_1_r, N.div_1_r. lia.
  - intros h1 C. rewrite C in F3. cbn in F3. lia.
  - rewrite F3. lia.
  - intros NE. destruct (map fst sm); [congruence|reflexivity].
  - intros i hi. rewrite F4 by lia. rewrite N.mod_1_r, N.div_1_r. lia.
Qed.
Lemma basis_nth (l : list (espace I)) i x : nth_error (basis_list l) i = Some x -> N.of_nat i < product_dim l /\ x = stl l (N.of_nat i).
Proof.
  intros E. assert (hl : (i < length (basis_list l))%nat) by (apply nth_error_Some; congruence).
  pose proof (basis_list_length l) as BL. split; [lia|]. unfold basis_list in *. rewrite map_length, seq_length in hl.
  rewrite (nth_error_nth' _ 0) in E by (rewrite map_length, seq_length; auto). inversion E; subst.
  rewrite (nth_indep _ 0 (stl l (N.of_nat 0))) by (rewrite map_length, seq_length; auto).
  rewrite (map_nth (fun i => stl l (N.of_nat i)) (seq 0 _) 0%nat). rewrite seq_nth by auto. reflexivity.
Qed.

(** map_index() numbers the basis states 0, ..., dim()-1 in increasing order *)
Theorem C56_map_index : forall (h : hspace I), hs_reachable io h ->
  exists w xs, comp_view_make io h = Some w /\
    StronglySorted N.lt xs /\ N.of_nat (length xs) = hs_dim h /\
    numbering xs (valid_state (spaces h)) (comp_map_index w).
Proof.
  intros h R. pose proof (reachable_inv io Hio h R) as Hi. pose proof Hi as [S0 [W [P [E [B [D F]]]]]].
  destruct (comp_view_spec h Hi) as [w [Ew [A _]]]. exists w, (basis_list (spaces h)). split; auto.
  pose proof (basis_list_sorted _ W) as St. split; auto. split; [rewrite basis_list_length; auto|].
  split; [|split].
  - clear -St. induction St as [|x t St IH F]; constructor; auto. rewrite Forall_forall in F. intros i. apply F in i. lia.
  - intros x. now apply basis_list_In.
  - intros i x Hx. apply basis_nth in Hx. destruct Hx as [hi ->]. now apply A.
Qed.

(** foreach() visits the states in this order, with the amplitudes at their
    positions (if they are not zero); the dimension has to be in [2, 2^31) *)
Theorem C56_foreach : forall (h : hspace I) V S (so : scalar_ops S) (sv : sv_ops V S) (v : V) (amp : N -> S),
  hs_reachable io h -> 1 < hs_dim h < 2 ^ 31 -> (forall k, k < hs_dim h -> sv_get sv v k = Some (amp k)) ->
  exists w xs, comp_view_make io h = Some w /\ numbering xs (valid_state (spaces h)) (comp_map_index w) /\
    comp_foreach so sv w v = Some (nonzero_pairs so amp xs 0).
Proof.
  intros h V S so sv v amp R hd Hv. pose proof (reachable_inv io Hio h R) as Hi. pose proof Hi as [S0 [W [P [E [B [D F]]]]]].
  destruct (comp_view_spec h Hi) as [w [Ew [A [K1 [K2 [K3 [K4 [K5 K7]]]]]]]].
  assert (Ed : hs_dim h = product_dim (spaces h)) by exact D. rewrite Ed in hd, Hv. specialize (K1 ltac:(lia)). specialize (K5 K1).
  exists w, (basis_list (spaces h)). split; auto. split.
  - split; [|split].
    + pose proof (basis_list_sorted _ W) as St. clear -St. induction St as [|x t St IH F]; constructor; auto. rewrite Forall_forall in F. intros i. apply F in i. lia.
    + intros x. now apply basis_list_In.
    + intros i x Hx. apply basis_nth in Hx. destruct Hx as [hi ->]. now apply A.
  - assert (SN : sfe_n (cv_fa w) = product_dim (spaces h)).
    { rewrite K5. unfold int_accumulate. change 1%Z with (Z.of_N 1).
      rewrite int_acc_small by (auto; try lia; rewrite K4; lia).
      rewrite N.mul_1_l, K4. apply z_to_u64_small. apply N.lt_trans with (2 ^ 31); [lia|reflexivity]. }
    unfold comp_foreach, sfe_run. rewrite <- digs_zero by auto.
    pose proof (sfe_loop_spec (fun st (a : N * option (list (N * S))) =>
      (w64 (fst a + 1), match snd a, sv_get sv v (fst a) with
       | Some l, Some x => Some (if s_is_zero so x then l else l ++ [(st, x)]) | _, _ => None end)) _ _ K1 K2 K3 (N.to_nat (sfe_n (cv_fa w))) 0 (0, Some [])) as Q.
    change (N.of_nat 0) with 0 in Q. rewrite (stv_zero _ K2) in Q. change (w64 0) with 0 in Q. rewrite Q. clear Q. rewrite SN.
    assert (G : forall n i l, N.of_nat (i + n) <= product_dim (spaces h) ->
      fold_left (fun a j => (w64 (fst a + 1), match snd a, sv_get sv v (fst a) with
       | Some l, Some x => Some (if s_is_zero so x then l else l ++ [(w64 (stv (sfe_sizes (cv_fa w)) (N.of_nat j)), x)]) | _, _ => None end)) (seq i n) (N.of_nat i, Some l)
      = (N.of_nat (i + n), Some (l ++ nonzero_pairs so amp (map (fun i => stl (spaces h) (N.of_nat i)) (seq i n)) (N.of_nat i)))).
    { induction n as [|n IH]; intros i l hn; cbn [seq fold_left map nonzero_pairs].
      - now rewrite app_nil_r, Nat.add_0_r.
      - cbn [fst snd]. rewrite (Hv (N.of_nat i)) by lia.
        replace (w64 (N.of_nat i + 1)) with (N.of_nat (Datatypes.S i)).
        2: { rewrite w64_small; [lia|]. change (2 ^ 31) with 2147483648 in hd. change (2 ^ 64) with 18446744073709551616. lia. }
        rewrite IH by lia. f_equal; [lia|]. f_equal. rewrite K7 by lia.
        rewrite (w64_small (stl _ _)).
        2: { eapply N.lt_le_trans; [apply stl_bound; auto; lia|]. apply N.pow_le_mono_r; lia. }
        replace (N.of_nat (Datatypes.S i)) with (N.of_nat i + 1) by lia.
        destruct (s_is_zero so (amp (N.of_nat i))); auto. now rewrite <- app_assoc. }
    specialize (G (N.to_nat (product_dim (spaces h))) 0%nat [] ltac:(lia)). change (N.of_nat 0) with 0 in G. cbn [fst snd] in G |- *. rewrite G. reflexivity.
Qed.
End C56.
Print Assumptions C56_map_index.
Print Assumptions C56_foreach.

(** Operators act through compressed views as on the full vectors: the amplitude
    of the state y is at the position map_index(y). *)
Theorem C56_action : forall I S V1 V2 (io : index_ops I) (so : scalar_ops S) sq half
  (sv1 : sv_ops V1 S) ok1 amp1 size1 (sv2 : sv_ops V2 S) ok2 amp2 size2 (h : hspace I) e Lp bas v dst,
  index_order io -> lop_laws so sq half -> sv_laws so sv1 ok1 amp1 size1 -> sv_laws so sv2 ok2 amp2 size2 ->
  hs_fresh io h -> 1 < hs_dim h < 2 ^ 31 -> Forall int_mult (spaces h) -> canonical_expr io so e -> make_loperator io e h = LOk Lp ->
  basis_of (spaces h) bas -> ok1 v -> ok2 dst -> hs_dim h <= size1 v -> hs_dim h <= size2 dst ->
  exists cv ent w, comp_view_make io h = Some cv /\ comp_foreach so sv1 cv v = Some ent /\
    lop_apply_to so sq half (comp_sv so sv2 cv) Lp ent dst = Some w /\ ok2 w /\ size2 w = size2 dst /\
    forall y k, valid_state (spaces h) y -> comp_map_index cv y = Some k -> amp2 w k =
      ssum so (fun x => s_mul so (mel io so sq half (spaces h) e y x)
                                 match comp_map_index cv x with Some j => amp1 v j | None => s_zero so end) bas.
Proof.
  intros I S V1 V2 io so sq half sv1 ok1 amp1 size1 sv2 ok2 amp2 size2 h e Lp bas v dst Hio LL SV1 SV2 Fr hd IM [_ C] E HB O1 O2 Z1 Z2.
  pose proof (fresh_reachable io h Fr) as Rh. pose proof (reachable_inv io Hio h Rh) as Hi. pose proof (fresh_algs io Hio h Fr) as HA.
  pose proof (ll_ring _ _ _ LL) as L. pose proof Hi as [S0 [W _]].
  assert (LI : lop_impl io so sq half (spaces h) e Lp).
  { apply (lop_make_impl io Hio so L sq half (ll_comm _ _ _ LL) (half_0 so sq half LL) h); auto. intros m c i. exact (proj1 (C m c i)). }
  destruct (C56_foreach io Hio h V1 S so sv1 v (amp1 v) Rh hd) as [cv [xs [Ec [[ND [NV Nn]] Ef]]]].
  { intros k hk. apply (svl_get _ _ _ _ _ SV1); auto. lia. }
  destruct (C56_map_index io Hio h Rh) as [cv' [xs' [Ec' [_ [Lx [ND' [NV' Nn']]]]]]].
  rewrite Ec in Ec'. inversion Ec'; subst cv'. clear Ec'.
  assert (LX : length xs = length xs').
  { apply Nat.le_antisymm; apply NoDup_incl_length; auto; intros x i; [apply NV', NV|apply NV, NV']; auto. }
  assert (IX : forall y, valid_state (spaces h) y -> exists k, comp_map_index cv y = Some k /\ k < hs_dim h).
  { intros y Vy. apply NV' in Vy. apply In_nth_error in Vy. destruct Vy as [i Hy]. exists (N.of_nat i). split; [now apply Nn'|].
    assert ((i < length xs')%nat) by (apply nth_error_Some; congruence). lia. }
  assert (INJ : forall y z k, valid_state (spaces h) y -> valid_state (spaces h) z -> comp_map_index cv y = Some k -> comp_map_index cv z = Some k -> y = z).
  { intros y z k Vy Vz Ey Ez. apply NV in Vy, Vz. apply In_nth_error in Vy, Vz. destruct Vy as [i Hy], Vz as [j Hz].
    rewrite (Nn i y Hy) in Ey. rewrite (Nn j z Hz) in Ez. inversion Ey; inversion Ez; subst. assert (i = j) by lia. subst. congruence. }
  set (src x := match comp_map_index cv x with Some j => amp1 v j | None => s_zero so end).
  set (va (u : V2) y := match comp_map_index cv y with Some k => amp2 u k | None => s_zero so end).
  set (ent := nonzero_pairs so (amp1 v) xs 0) in *.
  (* the entries *)
  assert (PR : forall zs k, (forall i x, nth_error zs i = Some x -> comp_map_index cv x = Some (k + N.of_nat i)) -> NoDup zs ->
    NoDup (map fst (nonzero_pairs so (amp1 v) zs k)) /\
    (forall x a, In (x, a) (nonzero_pairs so (amp1 v) zs k) -> In x zs /\ a = src x) /\
    (forall x, In x zs -> src x <> s_zero so -> In x (map fst (nonzero_pairs so (amp1 v) zs k)))).
  { induction zs as [|z zs IHz]; intros k Hz NDz; cbn [nonzero_pairs map].
    - split; [constructor|]. split; [intros x a []|intros x []].
    - inversion NDz as [|? ? nz NDz']; subst.
      assert (Ez : src z = amp1 v k).
      { unfold src. rewrite (Hz 0%nat z eq_refl). change (N.of_nat 0) with 0. now rewrite N.add_0_r. }
      destruct (IHz (k + 1)) as [A1 [A2 A3]]; auto.
      { intros i x Hx. rewrite (Hz (Datatypes.S i) x Hx). f_equal. lia. }
      destruct (s_is_zero so (amp1 v k)) eqn:Z0.
      + split; auto. split.
        * intros x a i. destruct (A2 x a i). cbn; auto.
        * intros x [<-|i] nx; auto. apply (sl_is_zero so L) in Z0. congruence.
      + cbn [map fst]. split; [|split].
        * constructor; auto. intros i. apply in_map_iff in i. destruct i as [[x a] [Ex i]]. cbn in Ex. subst x. apply nz. apply (A2 z a i).
        * intros x a [Q|i]; [inversion Q; subst; cbn; auto|]. destruct (A2 x a i). cbn; auto.
        * intros x [<-|i] nx; cbn; auto. }
  destruct (PR xs 0) as [D1 [D2 D3]]; auto.
  destruct (svl_zero _ _ _ _ _ SV2 dst O2) as [Oz [Zz Az]].
  destruct (act_entries_on io so L sq half (comp_sv so sv2 cv) (fun u => ok2 u /\ hs_dim h <= size2 u) va (valid_state (spaces h)) (fun u u' => size2 u' = size2 u))
    with (l := spaces h) (e := e) (Lp := Lp) (ent := ent) (dst := sv_zero sv2 dst) as [w [Ew [[Ow _] [Zw Aw]]]]; auto.
  - intros u u1 u2 Q1 Q2. congruence.
  - intros u n x [Ou Zu] Vn. destruct (IX n Vn) as [k [Ek hk]].
    destruct (svl_add _ _ _ _ _ SV2 u k x Ou ltac:(lia)) as [u' [Ea [Ou' [Zu' Au']]]].
    exists u'. cbn [sv_add comp_sv]. unfold comp_add. rewrite Ek. split; auto. split; [split; [auto|lia]|]. split; auto.
    intros y Vy. unfold va. destruct (IX y Vy) as [j [Ej hj]]. rewrite Ej, Au'.
    destruct (N.eqb_spec n y) as [<-|ne].
    + rewrite Ek in Ej. inversion Ej; subst. now rewrite N.eqb_refl.
    + destruct (N.eqb_spec k j); auto. subst j. exfalso. apply ne. eapply INJ; eauto.
  - apply Forall_forall. intros [x a] i. destruct (D2 x a i) as [ix _]. cbn [fst]. apply NV in ix. split; auto.
    intros m c k y _ Em. eapply mono_act_valid; eauto.
  - split; auto. lia.
  - exists cv, ent, w. split; auto. split; auto. split; [exact Ew|]. split; auto. split; [congruence|].
    intros y k Vy Ek. specialize (Aw y Vy). unfold va in Aw. rewrite Ek in Aw. rewrite Aw, Az, (sl_add_0 so L).
    set (src' x := if in_dec N.eq_dec x xs then src x else s_zero so).
    assert (SE : forall x, In x xs -> src' x = src x).
    { intros x i. unfold src'. destruct (in_dec N.eq_dec x xs); [reflexivity|contradiction]. }
    rewrite (esum_basis so L _ src' ent bas (proj1 HB) D1).
    + apply ssum_ext. intros x i. f_equal. apply SE. apply NV. now apply HB.
    + intros x a i. destruct (D2 x a i) as [ix ->]. now rewrite SE.
    + intros x nx. unfold src' in nx. destruct (in_dec N.eq_dec x xs) as [i|ni]; [now apply D3|congruence].
    + intros x i. apply in_map_iff in i. destruct i as [[x' a] [<- i]]. cbn [fst]. apply HB. apply NV. apply (D2 _ _ i).
Qed.
Print Assumptions C56_action.

(** foreach() of a view of a one-dimensional space visits nothing although
    map_index() sends the only state to the position 0: the list of sizes is empty *)
Definition hs_empty : hspace Z := Eval vm_compute in fst (hs_of_vector ioZ []).
Theorem C56_one_dimension_refuted : exists w,
  hs_fresh ioZ hs_empty /\ hs_dim hs_empty = 1 /\ comp_view_make ioZ hs_empty = Some w /\ comp_map_index w 0 = Some 0 /\
  comp_foreach int_scalar_ops (dense_sv int_scalar_ops) w [7%Z] = Some [].
Proof.
  eexists. split; [eapply hf_vector with (l := []); [constructor|vm_compute; reflexivity]|].
  repeat split; vm_compute; reflexivity.
Qed.
(** foreach() of a view of a space of dimension 2^32 visits nothing: the number
    of states is computed in the type int.  map_index() is right (C56_map_index). *)
Definition hs_32 : hspace Z := Eval vm_compute in fst (hs_of_vector ioZ (map (fun k => ESFermion (Z.of_nat k)) (seq 0 32))).
Theorem C56_large_refuted : exists w,
  hs_fresh ioZ hs_32 /\ hs_dim hs_32 = 2 ^ 32 /\ comp_view_make ioZ hs_32 = Some w /\
  forall V S (so : scalar_ops S) (sv : sv_ops V S) (v : V), comp_foreach so sv w v = Some [].
Proof.
  eexists. split; [|split; [|split]].
  - eapply hf_vector with (l := map (fun k => ESFermion (Z.of_nat k)) (seq 0 32)); [|vm_compute; reflexivity].
    apply Forall_forall. intros e He. apply in_map_iff in He. destruct He as [k [<- _]]. exact Logic.I.
  - vm_compute. reflexivity.
  - vm_compute. reflexivity.
  - intros V S so sv v. vm_compute. reflexivity.
Qed.
Print Assumptions C56_one_dimension_refuted.
Print Assumptions C56_large_refuted.

(** the hypotheses are met, by a space with 60 states in 7 bits *)
Example C56_ex : hs_fresh ioZ hs_ex /\ 1 < hs_dim hs_ex < 2 ^ 31 /\
  (exists w, comp_view_make ioZ hs_ex = Some w /\ sfe_sizes (cv_fa w) = [20; 3] /\ cv_masks w = [31; 96] /\
     map (comp_map_index w) [0; 1; 19; 32; 83] = map Some [0; 1; 19; 20; 59]) /\
  Forall int_mult (spaces hs_ex) /\
  (exists L, make_loperator ioZ (gen_expr real_ops (GFermion true 0%Z)) hs_ex = LOk L) /\
  canonical_expr ioZ real_ops (gen_expr real_ops (GFermion true 0%Z)).
Proof.
  split; [exact hs_ex_fresh|]. split; [destruct hs_ex_facts as [_ [-> _]]; split; reflexivity|]. split.
  - eexists. split; [vm_compute; reflexivity|]. repeat split.
  - destruct (PropView.cre_lop 0%Z) as [L0 H0]; [destruct hs_ex_facts as [-> _]; cbn; auto|].
    destruct H0 as [A B]. split; [|split; [exists L0; exact B|exact A]].
    destruct hs_ex_facts as [-> _]. repeat constructor.
Qed.
