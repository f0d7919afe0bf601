(** C71: Eigen 3 vectors, segments, columns, blocks and maps as state vectors *)
From Coq Require Import NArith ZArith List Bool Sorted Lia Reals Lra.
From Verif Require Import BitsModel BitsSpec BitsProofs ExprModel ExprSpec ExprOrder ExprMap ExprEval ExprStd ExprCanon ExprMain ExprInst PropExpr PropFactories
  HSModel HSSpec HSEnum HSProofs HSMain PropHS LOpModel LOpSpec LOpFermion LOpSite LOpActF LOpActB LOpActS LOpComm LOpApply
  LOpMatrix LOpMain LOpReal PropLOp2 PropLOp3 EigenModel EigenSpec.
Import ListNotations.
Close Scope R_scope.
Close Scope nat_scope.
Open Scope N_scope.
Open Scope list_scope.

Section Mem.
Context {S : Type} (so : scalar_ops S) (L : scalar_laws so).
Notation z := (s_zero so).

Lemma list_set_length (m : list S) k x : length (list_set m k x) = length m.
Proof. revert k. induction m as [|a m IH]; intros [|k]; cbn; auto. Qed.
Lemma list_set_nth (m : list S) k x j : nth j (list_set m k x) z = if Nat.eqb k j && Nat.ltb k (length m) then x else nth j m z.
Proof.
  revert k j. induction m as [|a m IH]; intros k j; cbn [list_set].
  - cbn [length]. replace (Nat.ltb k 0) with false by (symmetry; apply Nat.ltb_ge; lia). now rewrite andb_false_r.
  - destruct k as [|k], j as [|j]; cbn [nth]; auto.
    rewrite IH. cbn [length]. reflexivity.
Qed.
Lemma eg_zero_length w m : length (eg_zero so w m) = length m.
Proof.
  unfold eg_zero. generalize (seq 0 (N.to_nat (ev_len w))) as l. intros l. revert m. induction l as [|n l IH]; intros m; cbn; auto.
  now rewrite IH, list_set_length.
Qed.
Lemma addr_inj w n n' : (0 < ev_stride w)%nat -> ev_addr w n = ev_addr w n' -> n = n'.
Proof. unfold ev_addr. intros h E. assert (Q : (N.to_nat n * ev_stride w = N.to_nat n' * ev_stride w)%nat) by lia. apply Nat.mul_cancel_r in Q; lia. Qed.
Lemma zero_fold w l : forall m k, (forall n, In n l -> (ev_addr w (N.of_nat n) < length m)%nat) ->
  nth k (fold_left (fun m n => list_set m (ev_addr w (N.of_nat n)) z) l m) z =
  if existsb (fun n => Nat.eqb (ev_addr w (N.of_nat n)) k) l then z else nth k m z.
Proof.
  induction l as [|n l IH]; intros m k B; cbn [fold_left existsb]; auto.
  rewrite IH by (intros n' i; rewrite list_set_length; apply B; now right). rewrite list_set_nth.
  assert (Q : Nat.ltb (ev_addr w (N.of_nat n)) (length m) = true) by (apply Nat.ltb_lt, B; now left). rewrite Q, andb_true_r.
  destruct (Nat.eqb _ k); cbn; auto. now destruct (existsb _ l).
Qed.
Lemma eg_zero_in w m n : ev_fits w (length m) -> n < ev_len w -> nth (ev_addr w n) (eg_zero so w m) z = z.
Proof.
  intros [St F] h. unfold eg_zero. rewrite zero_fold.
  - destruct (existsb _ _) eqn:E; auto. exfalso. rewrite <- not_true_iff_false, existsb_exists in E. apply E.
    exists (N.to_nat n). split; [apply in_seq; lia|]. rewrite N2Nat.id. apply Nat.eqb_refl.
  - intros n' i. apply in_seq in i. apply F. lia.
Qed.
Lemma eg_zero_out w m k : ev_fits w (length m) -> ~ ev_has w k -> nth k (eg_zero so w m) z = nth k m z.
Proof.
  intros [St F] h. unfold eg_zero. rewrite zero_fold.
  - destruct (existsb _ _) eqn:E; auto. exfalso. apply existsb_exists in E. destruct E as [n [i e]]. apply in_seq in i.
    apply Nat.eqb_eq in e. apply h. exists (N.of_nat n). split; [lia|auto].
  - intros n' i. apply in_seq in i. apply F. lia.
Qed.
Lemma eg_add_spec w m n x : ev_fits w (length m) -> n < ev_len w -> exists m', eg_add so w m n x = Some m' /\ length m' = length m /\
  forall k, nth k m' z = if Nat.eqb (ev_addr w n) k then s_add so (nth k m z) x else nth k m z.
Proof.
  intros [St F] h. unfold eg_add. replace (n <? ev_len w) with true by (symmetry; now apply N.ltb_lt). apply list_update_spec; auto.
Qed.

(** the laws of state vectors *)
Lemma eg_entries_In w m x a : In (x, a) (eg_entries so w m) <-> x < ev_len w /\ a = ev_amp so w m x /\ a <> z.
Proof.
  unfold eg_entries, ev_amp. rewrite in_flat_map. split.
  - intros [n [i h]]. apply in_seq in i. destruct (s_is_zero so _) eqn:Z; [destruct h|]. destruct h as [E|[]]. inversion E; subst.
    split; [lia|]. replace (N.of_nat n <? ev_len w) with true by (symmetry; apply N.ltb_lt; lia). split; auto.
    intros C. rewrite (proj2 (sl_is_zero so L _) C) in Z. discriminate.
  - intros [h [E nz]]. replace (x <? ev_len w) with true in E by (symmetry; now apply N.ltb_lt).
    exists (N.to_nat x). split; [apply in_seq; lia|]. rewrite N2Nat.id. cbv zeta. rewrite <- E.
    destruct (s_is_zero so a) eqn:Z; [apply (sl_is_zero so L) in Z; contradiction|now left].
Qed.
Lemma eg_entries_nodup w m : NoDup (map fst (eg_entries so w m)).
Proof.
  unfold eg_entries. generalize (N.to_nat (ev_len w)) as k. intros k. generalize 0%nat as s. induction k as [|k IH]; intros s; cbn; [constructor|].
  destruct (s_is_zero so _); cbn; auto. constructor; auto. intros i. apply in_map_iff in i. destruct i as [[x a] [E i]]. cbn in E. subst x.
  apply in_flat_map in i. destruct i as [n [j h]]. apply in_seq in j. destruct (s_is_zero so _); [destruct h|]. destruct h as [h|[]]. inversion h. lia.
Qed.
Theorem eigen_strict w M : ev_fits w M -> sv_strict so (eigen_sv so w) (fun m => length m = M) (ev_amp so w) (fun _ => ev_len w).
Proof.
  intros F. constructor; [constructor|].
  - intros v. eexists. reflexivity.
  - intros v l E El. cbn in El. subst l. split; [apply eg_entries_nodup|]. split; [|split].
    + rewrite Forall_forall. intros [x a] i. apply eg_entries_In in i. apply i.
    + intros x a i. apply eg_entries_In in i. apply i.
    + intros x nz. apply in_map_iff. exists (x, ev_amp so w v x). split; auto. apply eg_entries_In.
      destruct (N.lt_ge_cases x (ev_len w)) as [h|h]; auto. exfalso. apply nz. unfold ev_amp. now replace (x <? ev_len w) with false by (symmetry; now apply N.ltb_ge).
  - intros v n E h. cbn. unfold eg_get, ev_amp. replace (n <? ev_len w) with true by (symmetry; now apply N.ltb_lt).
    apply nth_error_nth'. subst M. now apply F.
  - intros v n x E h. subst M. destruct (eg_add_spec w v n x F h) as [m' [E1 [E2 E3]]]. exists m'. split; [exact E1|]. split; auto. split; auto.
    intros y. unfold ev_amp. rewrite E3. destruct (N.ltb_spec y (ev_len w)) as [hy|hy].
    + destruct (Nat.eqb_spec (ev_addr w n) (ev_addr w y)) as [e|ne], (N.eqb_spec n y) as [e'|ne']; auto; exfalso; [|subst; auto].
      apply ne'. apply (addr_inj w); auto. apply F.
    + destruct (N.eqb_spec n y); auto; lia.
  - intros v E. subst M. cbn. split; [apply eg_zero_length|]. split; auto. intros y. unfold ev_amp. destruct (N.ltb_spec y (ev_len w)); auto.
    now apply eg_zero_in.
  - intros v l x a E El i. cbn in El. subst l. apply eg_entries_In in i. apply i.
Qed.
End Mem.

(** ** The types of vectors: which elements they show *)
Theorem C71_types : forall S (so : scalar_ops S) (p R C : nat) (o : storage) (m : list S),
  let el i j := nth (p + mat_pos o R C i j) m (s_zero so) in
  (forall n i, (i < n)%nat -> ev_amp so (ev_vector p n) m (N.of_nat i) = nth (p + i) m (s_zero so)) /\
  (forall k n i, (i < n)%nat -> ev_amp so (ev_segment p k n) m (N.of_nat i) = nth (p + (k + i)) m (s_zero so)) /\
  (forall j i, (i < R)%nat -> ev_amp so (ev_col p o R C j) m (N.of_nat i) = el i j) /\
  (forall i0 j n i, (i < n)%nat -> ev_amp so (ev_block p o R C i0 j n) m (N.of_nat i) = el (i0 + i)%nat j).
Proof.
  intros S so p R C o m el.
  assert (A : forall off st n i, (i < n)%nat -> ev_amp so (mk_ev off st (N.of_nat n)) m (N.of_nat i) = nth (off + i * st) m (s_zero so)).
  { intros off st n i h. unfold ev_amp, ev_addr. cbn [ev_len ev_off ev_stride]. replace (N.of_nat i <? N.of_nat n) with true by (symmetry; apply N.ltb_lt; lia).
    now rewrite Nat2N.id. }
  unfold el, ev_vector, ev_segment, ev_col, ev_block, mat_pos. split; [|split; [|split]].
  - intros n i h. rewrite A by auto. f_equal. lia.
  - intros k n i h. rewrite A by auto. f_equal. lia.
  - intros j i h. destruct o; rewrite A by auto; f_equal; nia.
  - intros i0 j n i h. destruct o; rewrite A by auto; f_equal; nia.
Qed.
Print Assumptions C71_types.

(** They are in the memory of their vector or matrix, and different columns, and
    disjoint segments and blocks, have no elements in common. *)
Lemma mat_pos_lt o R C i j : (i < R)%nat -> (j < C)%nat -> (mat_pos o R C i j < R * C)%nat.
Proof. intros hi hj. destruct o; cbn; nia. Qed.
Lemma mat_pos_inj o R C i j i' j' : (i < R)%nat -> (j < C)%nat -> (i' < R)%nat -> (j' < C)%nat ->
  mat_pos o R C i j = mat_pos o R C i' j' -> i = i' /\ j = j'.
Proof.
  intros hi hj hi' hj' E. destruct o; cbn in E.
  - assert (j = j') by nia. subst. lia.
  - assert (i = i') by nia. subst. lia.
Qed.
Lemma ev_block_addr p o R C i j n k : ev_addr (ev_block p o R C i j n) k = (p + mat_pos o R C (i + N.to_nat k) j)%nat.
Proof. unfold ev_addr, ev_block, mat_pos. destruct o; cbn [ev_off ev_stride]; nia. Qed.
Lemma ev_col_addr p o R C j k : ev_addr (ev_col p o R C j) k = (p + mat_pos o R C (N.to_nat k) j)%nat.
Proof. unfold ev_addr, ev_col, mat_pos. destruct o; cbn [ev_off ev_stride]; nia. Qed.
Lemma ev_block_len p o R C i j n : ev_len (ev_block p o R C i j n) = N.of_nat n. Proof. destruct o; reflexivity. Qed.
Lemma ev_col_len p o R C j : ev_len (ev_col p o R C j) = N.of_nat R. Proof. destruct o; reflexivity. Qed.
Theorem C71_disjoint_parts : forall (p R C size : nat) (o : storage), (p + R * C <= size)%nat ->
  (forall k n, (k + n <= R * C)%nat -> ev_fits (ev_segment p k n) size) /\
  (forall j, (j < C)%nat -> ev_fits (ev_col p o R C j) size) /\
  (forall i j n, (i + n <= R)%nat -> (j < C)%nat -> ev_fits (ev_block p o R C i j n) size) /\
  (forall k n k' n', (k + n <= k' \/ k' + n' <= k)%nat -> ev_disjoint (ev_segment p k n) (ev_segment p k' n')) /\
  (forall j j', (j < C)%nat -> (j' < C)%nat -> j <> j' -> ev_disjoint (ev_col p o R C j) (ev_col p o R C j')) /\
  (forall i j n i' j' n', (i + n <= R)%nat -> (j < C)%nat -> (i' + n' <= R)%nat -> (j' < C)%nat ->
     j <> j' \/ (i + n <= i')%nat \/ (i' + n' <= i)%nat -> ev_disjoint (ev_block p o R C i j n) (ev_block p o R C i' j' n')).
Proof.
  intros p R C size o hs. split; [|split; [|split; [|split; [|split]]]].
  - intros k n h. split; [cbn; lia|]. intros x hx. unfold ev_addr. cbn in *. lia.
  - intros j h. split; [destruct o; cbn; lia|]. intros x hx. rewrite ev_col_len in hx. rewrite ev_col_addr.
    pose proof (mat_pos_lt o R C (N.to_nat x) j). lia.
  - intros i j n h hj. split; [destruct o; cbn; lia|]. intros x hx. rewrite ev_block_len in hx. rewrite ev_block_addr.
    pose proof (mat_pos_lt o R C (i + N.to_nat x) j). lia.
  - intros k n k' n' h c [x [hx E]] [x' [hx' E']]. unfold ev_addr in *. cbn in *. lia.
  - intros j j' h h' ne c [x [hx E]] [x' [hx' E']]. rewrite ev_col_len in *. rewrite ev_col_addr in *.
    destruct (mat_pos_inj o R C (N.to_nat x) j (N.to_nat x') j'); try lia.
  - intros i j n i' j' n' h hj h' hj' ne c [x [hx E]] [x' [hx' E']]. rewrite ev_block_len in *. rewrite ev_block_addr in *.
    destruct (mat_pos_inj o R C (i + N.to_nat x) j (i' + N.to_nat x') j'); try lia.
Qed.
Print Assumptions C71_disjoint_parts.

(** ** The StateVector interface *)
Theorem C71_state_vector : forall S (so : scalar_ops S) w size, scalar_laws so -> ev_fits w size ->
  sv_strict so (eigen_sv so w) (fun m => length m = size) (ev_amp so w) (fun _ => ev_len w) /\
  (forall m n x m', length m = size -> eg_add so w m n x = Some m' -> forall k, ~ ev_has w k -> nth k m' (s_zero so) = nth k m (s_zero so)) /\
  (forall m k, length m = size -> ~ ev_has w k -> nth k (eg_zero so w m) (s_zero so) = nth k m (s_zero so)) /\
  (length (eg_zeros_like so w) = N.to_nat (ev_len w) /\ forall n, ev_amp so (ev_vector 0 (N.to_nat (ev_len w))) (eg_zeros_like so w) n = s_zero so).
Proof.
  intros S so w size L F. split; [now apply eigen_strict|]. split; [|split; [|split]].
  - intros m n x m' E A k nk. subst size. unfold eg_add in A. destruct (N.ltb_spec n (ev_len w)) as [h|h]; [|discriminate].
    destruct (list_update_spec so m (ev_addr w n) x) as [m2 [E1 [_ E3]]]; [now apply F|]. rewrite E1 in A. inversion A; subst. rewrite E3.
    destruct (Nat.eqb_spec (ev_addr w n) k) as [e|]; auto. exfalso. apply nk. exists n. auto.
  - intros m k E nk. subst size. now apply eg_zero_out.
  - apply repeat_length.
  - intros n. unfold ev_amp, eg_zeros_like. destruct (_ <? _); auto. apply nth_repeat.
Qed.
Print Assumptions C71_state_vector.

(** ** An operator acting from one part of the memory to another *)
Section Act.
Context {I S : Type} (io : index_ops I) (so : scalar_ops S) (sq : N -> S) (half : Z -> S) (h : hspace I) (e : list (list (gen I) * S)) (Lp : lop S).
Context (src dst : ev) (m0 : list S) (bas : list N).
Notation z := (s_zero so).
Notation same := (fun m => length m = length m0 /\ forall k, ~ ev_has dst k -> nth k m z = nth k m0 z).

Lemma src_get m n : ev_fits src (length m0) -> ev_disjoint src dst -> same m -> n < ev_len src ->
  eg_get src m n = Some (nth (ev_addr src n) m0 z).
Proof.
  intros F D [Lm Hm] hn. unfold eg_get. replace (n <? ev_len src) with true by (symmetry; now apply N.ltb_lt).
  rewrite nth_error_nth' with (d := z) by (rewrite Lm; now apply F). f_equal. apply Hm. intros H. apply (D (ev_addr src n)); auto. now exists n.
Qed.
Lemma add_same m n x m' : ev_fits dst (length m0) -> same m -> eg_add so dst m n x = Some m' -> same m'.
Proof.
  intros F [Lm Hm] E. unfold eg_add in E. destruct (N.ltb_spec n (ev_len dst)) as [hn|hn]; [|discriminate].
  destruct (list_update_spec so m (ev_addr dst n) x) as [m2 [E1 [E2 E3]]]; [rewrite Lm; now apply F|]. rewrite E1 in E. inversion E; subst.
  split; [congruence|]. intros k nk. rewrite E3. destruct (Nat.eqb_spec (ev_addr dst n) k) as [q|]; [|now apply Hm].
  exfalso. apply nk. now exists n.
Qed.
Lemma monos_eq Lq : forall m n, ev_fits src (length m0) -> ev_fits dst (length m0) -> ev_disjoint src dst -> same m -> n < ev_len src ->
  eg_monos so sq half Lq src dst n m = act_monos so sq half (eigen_sv so dst) Lq n (nth (ev_addr src n) m0 z) m /\
  forall m', eg_monos so sq half Lq src dst n m = Some m' -> same m'.
Proof.
  induction Lq as [|[acts c] Lq IH]; intros m n Fs Fd D Sm hn; cbn [eg_monos act_monos].
  - split; auto. intros m' E. inversion E; subst. exact Sm.
  - destruct (mono_run so sq half acts n (s_one so)) as [|k y|]; [now apply IH| |split; [auto|discriminate]].
    rewrite (src_get m n Fs D Sm hn). cbn [sv_add eigen_sv].
    destruct (eg_add so dst m y _) as [m1|] eqn:E1; [|split; [auto|discriminate]]. apply IH; auto. eapply add_same; eauto.
Qed.
Lemma loop_eq ns : forall m, ev_fits src (length m0) -> ev_fits dst (length m0) -> ev_disjoint src dst -> same m ->
  (forall n, In n ns -> N.of_nat n < ev_len src) ->
  eg_loop so sq half Lp src dst ns m =
  act_entries so sq half (eigen_sv so dst) Lp (flat_map (fun n => let a := nth (ev_addr src (N.of_nat n)) m0 z in
                     if s_is_zero so a then [] else [(N.of_nat n, a)]) ns) m /\
  forall m', eg_loop so sq half Lp src dst ns m = Some m' -> same m'.
Proof.
  induction ns as [|n ns IH]; intros m Fs Fd D Sm B; cbn [eg_loop flat_map].
  - split; auto. intros m' E. inversion E; subst. exact Sm.
  - assert (hn : N.of_nat n < ev_len src) by (apply B; now left).
    assert (B' : forall k, In k ns -> N.of_nat k < ev_len src) by (intros k i; apply B; now right).
    rewrite (src_get m (N.of_nat n) Fs D Sm hn). cbv zeta. destruct (s_is_zero so _); cbn [app]; [now apply IH|]. cbn [act_entries].
    destruct (monos_eq Lp m (N.of_nat n) Fs Fd D Sm hn) as [E1 E2]. rewrite <- E1.
    destruct (eg_monos so sq half Lp src dst (N.of_nat n) m) as [m1|]; [|split; [auto|discriminate]]. apply IH; auto.
Qed.

(** src and dst have no elements in common: dst becomes the product of the
    operator and src, and nothing else is changed. *)
Theorem C71_action :
  index_order io -> lop_laws so sq half -> hs_fresh io h -> Forall int_mult (spaces h) ->
  canonical_expr io so e -> make_loperator io e h = LOk Lp -> basis_of (spaces h) bas ->
  ev_fits src (length m0) -> ev_fits dst (length m0) -> ev_disjoint src dst ->
  2 ^ N.of_nat (total_bits (spaces h)) <= ev_len dst ->
  (forall x, ev_amp so src m0 x <> s_zero so -> valid_state (spaces h) x) ->
  exists m, eg_apply_to so sq half Lp src dst m0 = Some m /\ length m = length m0 /\
    (forall y, ev_amp so dst m y = ssum so (fun x => s_mul so (mel io so sq half (spaces h) e y x) (ev_amp so src m0 x)) bas) /\
    (forall k, ~ ev_has dst k -> nth k m (s_zero so) = nth k m0 (s_zero so)).
Proof.
  intros Hio LL Fr IM [_ C] E HB Fs Fd D Sz V0. pose proof (ll_ring _ _ _ LL) as L.
  pose proof (reachable_inv io Hio h (fresh_reachable io h Fr)) as Hi. pose proof (fresh_algs io Hio h Fr) as HA.
  pose proof Hi as [S0 [W _]].
  assert (LI : lop_impl io so sq half (spaces h) e Lp).
  { apply (lop_make_impl io Hio so L sq half (ll_comm _ _ _ LL) (half_0 so sq half LL) h); auto. intros m c i. exact (proj1 (C m c i)). }
  pose proof (eigen_strict so L dst (length m0) Fd) as SS. pose proof (svs_laws _ _ _ _ _ SS) as SV.
  pose proof (eigen_strict so L src (length m0) Fs) as SS1. pose proof (svs_laws _ _ _ _ _ SS1) as SV1.
  destruct (svl_zero _ _ _ _ _ SV m0 eq_refl) as [Oz [Zz Az]].
  assert (Sm : length (eg_zero so dst m0) = length m0 /\ forall k, ~ ev_has dst k -> nth k (eg_zero so dst m0) z = nth k m0 z).
  { split; [exact Oz|]. intros k nk. apply eg_zero_out; auto. }
  destruct (svl_entries _ _ _ _ _ SV1 m0 _ eq_refl eq_refl) as [N1 [_ [N2 N3]]].
  assert (Fv : Forall (fun p => valid_state (spaces h) (fst p)) (eg_entries so src m0)).
  { apply Forall_forall. intros [x a] i. cbn. apply V0. rewrite <- (N2 x a i). exact (svs_nonzero _ _ _ _ _ SS1 m0 _ x a eq_refl eq_refl i). }
  unfold eg_apply_to. destruct (loop_eq (seq 0 (N.to_nat (ev_len src))) (eg_zero so dst m0) Fs Fd D Sm) as [E1 E2].
  { intros n i. apply in_seq in i. lia. }
  fold (eg_entries so src m0) in E1.
  destruct (act_entries_spec io Hio so L sq half (ll_comm _ _ _ LL) (eigen_sv so dst) (fun m => length m = length m0) (ev_amp so dst) (fun _ => ev_len dst) SV (spaces h) e Lp S0 W LI
    (eg_entries so src m0) (eg_zero so dst m0) Fv Oz Sz) as [m [R1 [R2 [_ R4]]]].
  exists m. split; [rewrite E1; exact R1|]. destruct (E2 m) as [_ K]; [rewrite E1; exact R1|]. split; auto. split; auto.
  intros y. rewrite R4. cbn [sv_zero eigen_sv] in Az. rewrite Az, (sl_add_0 so L). destruct HB as [NB B].
  apply (esum_basis so L _ (ev_amp so src m0) _ bas NB N1 N2 N3). intros x i. apply B.
  apply in_map_iff in i. destruct i as [q [<- i]]. rewrite Forall_forall in Fv. now apply Fv.
Qed.
End Act.
Print Assumptions C71_action.

(** Overlapping parts give wrong results: the identity operator from the segment
    v(0..3) to the segment v(1..4) of v = (1, 2, 3, 4, 5). *)
Definition h2f : hspace Z := Eval vm_compute in fst (hs_of_vector ioZ [ESFermion 0%Z; ESFermion 1%Z]).
Definition e_id : list (list (gen Z) * Z) := [([], 1%Z)].
Theorem C71_overlap_refuted :
  hs_fresh ioZ h2f /\ exists Lp, make_loperator ioZ e_id h2f = LOk Lp /\
    ev_fits (ev_segment 0 0 4) 5 /\ ev_fits (ev_segment 0 1 4) 5 /\
    eg_apply_to int_scalar_ops (fun _ => 0%Z) (fun _ => 0%Z) Lp (ev_segment 0 0 4) (ev_segment 0 1 4) [1; 2; 3; 4; 5]%Z = Some [1; 1; 1; 1; 1]%Z /\
    map (fun y => ssum int_scalar_ops (fun x => (mel ioZ int_scalar_ops (fun _ => 0) (fun _ => 0) (spaces h2f) e_id y x *
       ev_amp int_scalar_ops (ev_segment 0 0 4) [1; 2; 3; 4; 5] x))%Z [0; 1; 2; 3]) [0; 1; 2; 3] = [1; 2; 3; 4]%Z.
Proof.
  split; [eapply hf_vector with (l := [ESFermion 0%Z; ESFermion 1%Z]); [repeat constructor; cbn; lia|vm_compute; reflexivity]|].
  eexists. split; [reflexivity|].
  split; [split; [cbn; lia|intros n hn; unfold ev_addr; cbn in *; lia]|].
  split; [split; [cbn; lia|intros n hn; unfold ev_addr; cbn in *; lia]|].
  split; vm_compute; reflexivity.
Qed.
Print Assumptions C71_overlap_refuted.

(** The hypotheses are met: from the column 0 to the column 2 of a 4x3-matrix in
    row-major order, with real numbers and the operator 2 c+_0 c_1. *)
Definition e_hop2 : list (list (gen Z) * R) := [([GFermion true 0%Z; GFermion false 1%Z], 2%R)].
Example C71_ex : exists Lp,
  index_order ioZ /\ lop_laws real_ops real_sq real_half /\ hs_fresh ioZ h2f /\ Forall int_mult (spaces h2f) /\
  canonical_expr ioZ real_ops e_hop2 /\ make_loperator ioZ e_hop2 h2f = LOk Lp /\
  (let m := repeat 1%R 12 in ev_fits (ev_col 0 RowMajor 4 3 0) (length m) /\ ev_fits (ev_col 0 RowMajor 4 3 2) (length m) /\
   ev_disjoint (ev_col 0 RowMajor 4 3 0) (ev_col 0 RowMajor 4 3 2) /\
   2 ^ N.of_nat (total_bits (spaces h2f)) <= ev_len (ev_col 0 RowMajor 4 3 2) /\
   forall x, ev_amp real_ops (ev_col 0 RowMajor 4 3 0) m x <> s_zero real_ops -> valid_state (spaces h2f) x).
Proof.
  destruct lop_hypotheses_met as (A1 & A2 & _).
  assert (HC : canonical_expr ioZ real_ops e_hop2).
  { split; [repeat constructor|]. intros m c [Q|[]]. inversion Q; subst. split; [|cbn; lra].
    split; [|split].
    - repeat constructor; left; constructor.
    - intros [|a1 [|a2 a3]] ga gb post E C; cbn in E; inversion E; subst.
      + inversion C.
      + destruct a3; discriminate.
    - apply no_spin_power. repeat constructor; cbn; discriminate. }
  eexists. split; [exact A1|]. split; [exact A2|]. split; [exact (proj1 C71_overlap_refuted)|]. split; [repeat constructor|].
  split; [exact HC|]. split; [reflexivity|]. cbv zeta. rewrite repeat_length.
  destruct (C71_disjoint_parts 0 4 3 12 RowMajor ltac:(lia)) as (_ & P2 & _ & _ & P5 & _).
  split; [apply P2; lia|]. split; [apply P2; lia|]. split; [apply P5; lia|]. split; [vm_compute; discriminate|].
  intros x nz. unfold ev_amp in nz. destruct (N.ltb_spec x (ev_len (ev_col 0 RowMajor 4 3 0))) as [q|q]; [|exfalso; now apply nz].
  cbn in q. split; [exact q|]. intros k es E. destruct k as [|[|k]]; cbn in E; inversion E; subst; try (destruct k; discriminate);
    unfold bit_field; (eapply N.lt_le_trans; [apply N.mod_lt; discriminate|vm_compute; discriminate]).
Qed.
