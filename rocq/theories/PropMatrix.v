(** C92: matrices filled column by column through views *)
From Coq Require Import NArith ZArith List Bool Sorted Permutation Lia Arith Reals Lra.
From Verif Require PropView PropConcLoop.
From Verif Require Import BitsModel BitsSpec BitsProofs RankModel RankSpec ExprModel ExprSpec ExprOrder ExprEval ExprMain ExprInst ExprConj PropFactories PropConj
  HSModel HSSpec HSEnum HSProofs HSMain PropHS LOpModel LOpSpec LOpFermion LOpSite LOpActF LOpActB LOpActS LOpComm LOpApply LOpMatrix LOpMain LOpReal
  PropLOp2 PropLOp3 SectorModel SectorSpec SectorProofs SectorMain SectorMulti SectorSpace PropSector PropMulti ViewModel ViewProofs SectorAct PropSectorAct
  PropComp PropAdjoint EigenModel EigenSpec PropEigen PropCut MatrixModel.
Import ListNotations.
Close Scope R_scope.
Close Scope nat_scope.
Open Scope N_scope.
Open Scope list_scope.

Section Cols.
Context {S : Type} (so : scalar_ops S) (L : scalar_laws so).
Notation z := (s_zero so).

(** the laws of state vectors, the rest of the memory being unchanged *)
Lemma frame_laws w (m0 : list S) : ev_fits w (length m0) ->
  sv_laws so (eigen_sv so w) (fun m => length m = length m0 /\ forall k, ~ ev_has w k -> nth k m z = nth k m0 z) (ev_amp so w) (fun _ => ev_len w).
Proof.
  intros F. destruct (C71_state_vector S so w (length m0) L F) as [SS [Fa [Fz _]]]. pose proof (svs_laws _ _ _ _ _ SS) as SV. constructor.
  - intros v. apply (svl_visits _ _ _ _ _ SV).
  - intros v l [Lv _]. apply (svl_entries _ _ _ _ _ SV); auto.
  - intros v n [Lv _]. apply (svl_get _ _ _ _ _ SV); auto.
  - intros v n x [Lv Kv] hn. destruct (svl_add _ _ _ _ _ SV v n x Lv hn) as [v' [E [O [Sz A]]]]. exists v'. split; auto. split; [split; auto|split; auto].
    intros k nk. rewrite (Fa v n x v' Lv E k nk). now apply Kv.
  - intros v [Lv Kv]. destruct (svl_zero _ _ _ _ _ SV v Lv) as [O [Sz A]]. split; [split; auto|split; auto].
    intros k nk. cbn [sv_zero eigen_sv]. rewrite (Fz v k Lv nk). now apply Kv.
Qed.

Lemma basis_vec_length d i : length (basis_vec so d i) = d.
Proof. unfold basis_vec. now rewrite list_set_length, repeat_length. Qed.
Lemma basis_vec_amp d i k : (i < d)%nat -> ev_amp so (ev_vector 0 d) (basis_vec so d i) k = if N.eqb k (N.of_nat i) then s_one so else z.
Proof.
  intros hi. unfold ev_amp, ev_vector, ev_addr, basis_vec. cbn [ev_len ev_off ev_stride]. rewrite Nat.add_0_l, Nat.mul_1_r.
  destruct (N.ltb_spec k (N.of_nat d)) as [hk|hk].
  - rewrite (list_set_nth so). rewrite repeat_length. replace (Nat.ltb i d) with true by (symmetry; now apply Nat.ltb_lt). rewrite andb_true_r.
    destruct (Nat.eqb_spec i (N.to_nat k)), (N.eqb_spec k (N.of_nat i)); auto; try lia. apply nth_repeat.
  - destruct (N.eqb_spec k (N.of_nat i)); auto; lia.
Qed.
Lemma vector_fits d : ev_fits (ev_vector 0 d) d.
Proof. split; [cbn; lia|]. intros n hn. unfold ev_addr, ev_vector in *. cbn in *. lia. Qed.
Lemma col_fits o d j : (j < d)%nat -> ev_fits (ev_col 0 o d d j) (d * d).
Proof. intros hj. destruct (C71_disjoint_parts 0 d d (d * d) o ltac:(lia)) as [_ [A _]]. now apply A. Qed.
Lemma col_has o d j k : ev_has (ev_col 0 o d d j) k <-> exists i, (i < d)%nat /\ k = mat_pos o d d i j.
Proof.
  unfold ev_has. split.
  - intros [n [hn ->]]. rewrite ev_col_len in hn. exists (N.to_nat n). split; [lia|]. rewrite ev_col_addr. reflexivity.
  - intros [i [hi ->]]. exists (N.of_nat i). rewrite ev_col_len. split; [lia|]. rewrite ev_col_addr, Nat2N.id. reflexivity.
Qed.

(** the loop over the columns *)
Lemma fill_cols_spec o d (f : nat -> list S -> option (list S)) (a : nat -> nat -> S) :
  forall l, NoDup l -> (forall i, In i l -> (i < d)%nat) ->
  (forall i m, In i l -> length m = (d * d)%nat -> exists m', f i m = Some m' /\
    (length m' = length m /\ forall k, ~ ev_has (ev_col 0 o d d i) k -> nth k m' z = nth k m z) /\
    forall j, (j < d)%nat -> nth (mat_pos o d d j i) m' z = a j i) ->
  forall m0, length m0 = (d * d)%nat -> exists m, fill_cols f l m0 = Some m /\ length m = (d * d)%nat /\
    (forall i j, In i l -> (j < d)%nat -> nth (mat_pos o d d j i) m z = a j i) /\
    (forall i j, ~ In i l -> (i < d)%nat -> (j < d)%nat -> nth (mat_pos o d d j i) m z = nth (mat_pos o d d j i) m0 z).
Proof.
  induction l as [|i l IH]; intros ND B St m0 L0; cbn [fill_cols].
  - exists m0. split; auto. split; auto. split; [intros i j []|auto].
  - inversion ND as [|? ? ni ND']; subst. destruct (St i m0 (or_introl eq_refl) L0) as [m1 [E1 [[L1 F1] A1]]]. rewrite E1.
    destruct (IH ND' (fun k hk => B k (or_intror hk)) (fun k m hk => St k m (or_intror hk)) m1 ltac:(congruence)) as [m [E [Lm [Am Fm]]]].
    exists m. split; auto. split; auto. pose proof (B i (or_introl eq_refl)) as hi. split.
    + intros k j [<-|hk] hj; [|now apply Am]. rewrite Fm by auto. now apply A1.
    + intros k j nk hk hj. rewrite Fm; auto; [|intros C; apply nk; now right]. apply F1. rewrite col_has. intros [i' [hi' E']].
      apply mat_pos_inj in E'; auto. apply nk. left. symmetry. apply E'.
Qed.
End Cols.

(** [m] holds the matrix elements of [e] between the states [xs] *)
Definition matrix_of {I S} (io : index_ops I) (so : scalar_ops S) sq half (l : list (espace I)) (e : list (list (gen I) * S))
  (xs : list N) (o : storage) (m : list S) : Prop :=
  length m = (length xs * length xs)%nat /\
  forall i j x y, nth_error xs i = Some x -> nth_error xs j = Some y ->
    nth (mat_pos o (length xs) (length xs) j i) m (s_zero so) = mel io so sq half l e y x.

Section C92.
Context {I S : Type} (io : index_ops I) (so : scalar_ops S) (sq : N -> S) (half : Z -> S).
Context (h : hspace I) (e : list (list (gen I) * S)) (Lp : lop S) (o : storage) (bas : list N).
Notation z := (s_zero so).
Notation M := (mel io so sq half (spaces h) e).
Notation lop_setup := (index_order io /\ lop_laws so sq half /\ hs_fresh io h /\ Forall int_mult (spaces h) /\ canonical_expr io so e /\
  make_loperator io e h = LOk Lp /\ basis_of (spaces h) bas).

Definition unit_at (xi x : N) : S := if N.eqb x xi then s_one so else z.
Lemma unit_embeds (L : scalar_laws so) xs i xi : NoDup xs -> nth_error xs i = Some xi ->
  embeds so (ev_amp so (ev_vector 0 (length xs)) (basis_vec so (length xs) i)) xs (unit_at xi).
Proof.
  intros ND Hi. assert (hi : (i < length xs)%nat) by (apply nth_error_Some; congruence). split.
  - intros k x Hx. rewrite basis_vec_amp by auto. unfold unit_at. destruct (N.eqb_spec x xi) as [->|ne], (N.eqb_spec (N.of_nat k) (N.of_nat i)) as [E|E]; auto.
    + exfalso. apply E. f_equal. apply (proj1 (NoDup_nth_error xs) ND); [apply nth_error_Some; congruence|congruence].
    + exfalso. apply Nat2N.inj in E. subst k. congruence.
  - intros x nx. unfold unit_at. destruct (N.eqb_spec x xi) as [->|]; auto. exfalso. apply nx. eapply nth_error_In; eauto.
Qed.
Lemma unit_sum (L : scalar_laws so) (f : N -> S) xi : basis_of (spaces h) bas -> valid_state (spaces h) xi ->
  ssum so (fun x => s_mul so (f x) (unit_at xi x)) bas = f xi.
Proof.
  intros [ND HB] V. rewrite (ssum_single so L bas xi); auto.
  - unfold unit_at. rewrite N.eqb_refl. apply (sl_mul_1_r so L).
  - now apply HB.
  - intros y _ ne. unfold unit_at. destruct (N.eqb_spec y xi); [contradiction|]. apply (mul_0_r so L).
Qed.

(** The matrix of an operator that does not change the number of fermions in the
    n-fermion sector (the states in the order of n_fermion_sector_basis_states()).
    The initial contents of the matrix do not matter; the operator does not leave
    the sector. *)
Theorem C92_sector : forall n rk xs m0, lop_setup -> hs_is_sparse h = Some false ->
  (length (modes (spaces h)) <= 62)%nat -> (n <= length (modes (spaces h)))%nat -> (0 < total_bits (spaces h))%nat ->
  (forall m c, In (m, c) e -> charge all_modes m = 0%Z) ->
  ranking_algorithm rk -> sector_basis_states h n = SOk xs -> length m0 = (length xs * length xs)%nat ->
  exists m, sector_matrix so sq half rk h n Lp o m0 = Some m /\
    matrix_of io so sq half (spaces h) e xs o m /\
    forall x y, In x xs -> ~ In y xs -> M y x = z.
Proof.
  intros n rk xs m0 (Hio & LL & Fr & IM & C & E & HB) Sp hM hn hT CH Hrk Ex L0. pose proof (ll_ring _ _ _ LL) as L.
  destruct (C45_sector io Hio h n Fr Sp hM hn hT) as [xs' [Ex' [Es [_ [ND [Ax K]]]]]]. rewrite Ex in Ex'. inversion Ex'; subst xs'. clear Ex'.
  destruct (K rk Hrk) as [w [Ew _]]. clear K. unfold sector_matrix. rewrite Es, Ew, Nat2N.id.
  assert (ACT : forall i xi m, nth_error xs i = Some xi -> length m = (length xs * length xs)%nat ->
    exists ent res, sector_foreach so (eigen_sv so (ev_vector 0 (length xs))) w (basis_vec so (length xs) i) = SOk ent /\
      lop_apply_to so sq half (sector_sv so (eigen_sv so (ev_col 0 o (length xs) (length xs) i)) w) Lp ent m = Some res /\
      (length res = length m /\ forall k, ~ ev_has (ev_col 0 o (length xs) (length xs) i) k -> nth k res z = nth k m z) /\
      (forall k y, nth_error xs k = Some y -> ev_amp so (ev_col 0 o (length xs) (length xs) i) res (N.of_nat k) = M y xi) /\
      (forall y, ~ In y xs -> M y xi = z)).
  { intros i xi m Hi Lm. assert (hi : (i < length xs)%nat) by (apply nth_error_Some; congruence).
    assert (Vi : valid_state (spaces h) xi) by (apply nth_error_In in Hi; apply Ax in Hi; apply Hi).
    destruct (C65_sector_action io so sq half (eigen_sv so (ev_vector 0 (length xs))) (fun v => length v = length xs) (ev_amp so (ev_vector 0 (length xs))) (fun _ => ev_len (ev_vector 0 (length xs)))
      (eigen_sv so (ev_col 0 o (length xs) (length xs) i)) (fun m' => length m' = length m /\ forall k, ~ ev_has (ev_col 0 o (length xs) (length xs) i) k -> nth k m' z = nth k m z) (ev_amp so (ev_col 0 o (length xs) (length xs) i)) (fun _ => ev_len (ev_col 0 o (length xs) (length xs) i))
      h e Lp bas (basis_vec so (length xs) i) m n n rk rk xs xs w w (unit_at xi)) as [ent [res [R1 [R2 [R3 [_ [R5 [_ R7]]]]]]]]; auto.
    - repeat (split; [assumption|]). split; [apply svs_laws, (eigen_strict so L), vector_fits|].
      split; [apply (frame_laws so L _ m); rewrite Lm; now apply col_fits|]. repeat (split; [assumption|]). split; [apply basis_vec_length|auto].
    - intros m' c im. rewrite (CH m' c im). lia.
    - cbn. lia.
    - rewrite ev_col_len. lia.
    - now apply unit_embeds.
    - exists ent, res. split; auto. split; auto. split; auto. split.
      + intros k y Hy. rewrite (R5 k y Hy). now apply (unit_sum L (fun x => M y x)).
      + intros y ny. rewrite <- (R7 y ny). symmetry. now apply (unit_sum L (fun x => M y x)). }
  destruct (fill_cols_spec so o (length xs)
    (fun i m => match sector_foreach so (eigen_sv so (ev_vector 0 (length xs))) w (basis_vec so (length xs) i) with
       | SOk calls => lop_apply_to so sq half (sector_sv so (eigen_sv so (ev_col 0 o (length xs) (length xs) i)) w) Lp calls m | _ => None end)
    (fun j i => match nth_error xs i, nth_error xs j with Some x, Some y => M y x | _, _ => z end)
    (seq 0 (length xs)) (seq_NoDup _ _)) with (m0 := m0) as [m [Em [Lm [Am _]]]]; auto.
  - intros i hi. apply in_seq in hi. lia.
  - intros i m hi Lm. apply in_seq in hi. destruct (nth_error xs i) as [xi|] eqn:Hi; [|apply nth_error_None in Hi; lia].
    destruct (ACT i xi m Hi Lm) as [ent [res [R1 [R2 [R3 [R4 _]]]]]]. rewrite R1. exists res. split; auto. split; auto.
    intros j hj. destruct (nth_error xs j) as [y|] eqn:Hj; [|apply nth_error_None in Hj; lia]. rewrite <- (R4 j y Hj).
    unfold ev_amp. rewrite ev_col_len. replace (N.of_nat j <? N.of_nat (length xs)) with true by (symmetry; apply N.ltb_lt; lia).
    rewrite ev_col_addr, Nat2N.id. reflexivity.
  - exists m. split; [exact Em|]. split.
    + split; auto. intros i j x y Hi Hj. rewrite Am.
      * now rewrite Hi, Hj.
      * apply in_seq. assert (i < length xs)%nat by (apply nth_error_Some; congruence). lia.
      * apply nth_error_Some; congruence.
    + intros x y ix ny. apply In_nth_error in ix. destruct ix as [i Hi]. destruct (ACT i x m0 Hi L0) as [_ [_ [_ [_ [_ [_ R]]]]]]. now apply R.
Qed.

(** The same for multisectors: each monomial conserves the number of fermions in
    each of the sets of indices. *)
Theorem C92_multisector : forall ss rk xs m0, lop_setup -> hs_is_sparse h = Some false -> (0 < total_bits (spaces h))%nat ->
  NoDup (flat_map sd_indices ss) ->
  (forall s i, In s ss -> In i (sd_indices s) -> In i (firstn 32 (modes (spaces h)))) ->
  (forall s, In s ss -> (sd_N s <= length (sd_indices s))%nat) ->
  (forall m c s, In (m, c) e -> In s ss -> charge (modes_of io s) m = 0%Z) ->
  ranking_algorithm rk -> multi_basis_states io h ss = SOk xs -> length m0 = (length xs * length xs)%nat ->
  exists m, multisector_matrix io so sq half rk h ss Lp o m0 = Some m /\
    matrix_of io so sq half (spaces h) e xs o m /\
    forall x y, In x xs -> ~ In y xs -> M y x = z.
Proof.
  intros ss rk xs m0 (Hio & LL & Fr & IM & C & E & HB) Sp hT NDs Hm hN CH Hrk Ex L0. pose proof (ll_ring _ _ _ LL) as L.
  destruct (C46_multisector io Hio h ss (fresh_reachable io h Fr) Sp NDs Hm hN hT) as [xs' [Ex' [Es [_ [ND [Ax K]]]]]]. rewrite Ex in Ex'. inversion Ex'; subst xs'. clear Ex'.
  destruct (K rk Hrk) as [w [Ew _]]. clear K. unfold multisector_matrix. rewrite Es, Ew, Nat2N.id.
  assert (ACT : forall i xi m, nth_error xs i = Some xi -> length m = (length xs * length xs)%nat ->
    exists ent res, multi_foreach so (eigen_sv so (ev_vector 0 (length xs))) w (basis_vec so (length xs) i) = SOk ent /\
      lop_apply_to so sq half (multi_sv so (eigen_sv so (ev_col 0 o (length xs) (length xs) i)) w) Lp ent m = Some res /\
      (length res = length m /\ forall k, ~ ev_has (ev_col 0 o (length xs) (length xs) i) k -> nth k res z = nth k m z) /\
      (forall k y, nth_error xs k = Some y -> ev_amp so (ev_col 0 o (length xs) (length xs) i) res (N.of_nat k) = M y xi) /\
      (forall y, ~ In y xs -> M y xi = z)).
  { intros i xi m Hi Lm. assert (hi : (i < length xs)%nat) by (apply nth_error_Some; congruence).
    assert (Vi : valid_state (spaces h) xi) by (apply nth_error_In in Hi; apply Ax in Hi; apply Hi).
    destruct (C65_multisector_action io so sq half (eigen_sv so (ev_vector 0 (length xs))) (fun v => length v = length xs) (ev_amp so (ev_vector 0 (length xs))) (fun _ => ev_len (ev_vector 0 (length xs)))
      (eigen_sv so (ev_col 0 o (length xs) (length xs) i)) (fun m' => length m' = length m /\ forall k, ~ ev_has (ev_col 0 o (length xs) (length xs) i) k -> nth k m' z = nth k m z) (ev_amp so (ev_col 0 o (length xs) (length xs) i)) (fun _ => ev_len (ev_col 0 o (length xs) (length xs) i))
      h e Lp bas (basis_vec so (length xs) i) m ss ss rk rk xs xs w w (unit_at xi)) as [ent [res [R1 [R2 [R3 [_ [R5 [_ R7]]]]]]]]; auto.
    - repeat (split; [assumption|]). split; [apply svs_laws, (eigen_strict so L), vector_fits|].
      split; [apply (frame_laws so L _ m); rewrite Lm; now apply col_fits|]. repeat (split; [assumption|]). split; [apply basis_vec_length|auto].
    - intros m' c j s s' im Hj Hj'. rewrite Hj in Hj'. inversion Hj'; subst s'. rewrite (CH m' c s im); [lia|]. eapply nth_error_In; eauto.
    - cbn. lia.
    - rewrite ev_col_len. lia.
    - now apply unit_embeds.
    - exists ent, res. split; auto. split; auto. split; auto. split.
      + intros k y Hy. rewrite (R5 k y Hy). now apply (unit_sum L (fun x => M y x)).
      + intros y ny. rewrite <- (R7 y ny). symmetry. now apply (unit_sum L (fun x => M y x)). }
  destruct (fill_cols_spec so o (length xs)
    (fun i m => match multi_foreach so (eigen_sv so (ev_vector 0 (length xs))) w (basis_vec so (length xs) i) with
       | SOk calls => lop_apply_to so sq half (multi_sv so (eigen_sv so (ev_col 0 o (length xs) (length xs) i)) w) Lp calls m | _ => None end)
    (fun j i => match nth_error xs i, nth_error xs j with Some x, Some y => M y x | _, _ => z end)
    (seq 0 (length xs)) (seq_NoDup _ _)) with (m0 := m0) as [m [Em [Lm [Am _]]]]; auto.
  - intros i hi. apply in_seq in hi. lia.
  - intros i m hi Lm. apply in_seq in hi. destruct (nth_error xs i) as [xi|] eqn:Hi; [|apply nth_error_None in Hi; lia].
    destruct (ACT i xi m Hi Lm) as [ent [res [R1 [R2 [R3 [R4 _]]]]]]. rewrite R1. exists res. split; auto. split; auto.
    intros j hj. destruct (nth_error xs j) as [y|] eqn:Hj; [|apply nth_error_None in Hj; lia]. rewrite <- (R4 j y Hj).
    unfold ev_amp. rewrite ev_col_len. replace (N.of_nat j <? N.of_nat (length xs)) with true by (symmetry; apply N.ltb_lt; lia).
    rewrite ev_col_addr, Nat2N.id. reflexivity.
  - exists m. split; [exact Em|]. split.
    + split; auto. intros i j x y Hi Hj. rewrite Am.
      * now rewrite Hi, Hj.
      * apply in_seq. assert (i < length xs)%nat by (apply nth_error_Some; congruence). lia.
      * apply nth_error_Some; congruence.
    + intros x y ix ny. apply In_nth_error in ix. destruct ix as [i Hi]. destruct (ACT i x m0 Hi L0) as [_ [_ [_ [_ [_ [_ R]]]]]]. now apply R.
Qed.

(** The same for all states of a (sparse) space with compressed views: xs are the
    basis states in increasing order *)
Lemma fold_fill (g : N -> option (list S) -> option (list S)) (f : nat -> list S -> option (list S)) :
  (forall k, g k None = None) -> forall xs i m, (forall j x m, nth_error xs j = Some x -> g x (Some m) = f (i + j)%nat m) ->
  fold_left (fun a x => g x a) xs (Some m) = fill_cols f (seq i (length xs)) m.
Proof.
  intros Gn. induction xs as [|x xs IH]; intros i m Gf; [reflexivity|]. cbn [fold_left length seq fill_cols].
  rewrite (Gf 0%nat x m eq_refl), Nat.add_0_r. destruct (f i m) as [m'|].
  - apply IH. intros j y m2 Hj. rewrite (Gf (Datatypes.S j) y m2 Hj). f_equal. lia.
  - clear - Gn. induction xs as [|x xs IH]; cbn; auto. now rewrite Gn.
Qed.
Theorem C92_compressed : forall xs m0, lop_setup -> 1 < hs_dim h < 2 ^ 31 ->
  StronglySorted N.lt xs -> (forall x, In x xs <-> valid_state (spaces h) x) -> length m0 = (length xs * length xs)%nat ->
  exists m, compressed_matrix io so sq half h Lp o m0 = Some m /\ matrix_of io so sq half (spaces h) e xs o m.
Proof.
  intros xs m0 (Hio & LL & Fr & IM & C & E & HB) hd St Ax L0. pose proof (ll_ring _ _ _ LL) as L. pose proof (fresh_reachable io h Fr) as Rh.
  destruct (C56_map_index io Hio h Rh) as [w [xs' [Ew [St' [Ld [ND [Ax' Nf]]]]]]].
  assert (xs' = xs) by (apply PropConcLoop.sorted_unique; auto; intros x; rewrite Ax, Ax'; tauto). subst xs'.
  destruct (C22_foreach io h Hio Rh (or_intror (proj2 hd))) as [st [Fs [Ss [As _]]]].
  assert (st = xs) by (apply PropConcLoop.sorted_unique; auto; intros x; rewrite Ax, As; tauto). subst st.
  unfold compressed_matrix. rewrite Ew, <- Ld, Nat2N.id, Fs.
  assert (ACT : forall i xi m, nth_error xs i = Some xi -> length m = (length xs * length xs)%nat ->
    exists ent res, comp_foreach so (eigen_sv so (ev_vector 0 (length xs))) w (basis_vec so (length xs) i) = Some ent /\
      lop_apply_to so sq half (comp_sv so (eigen_sv so (ev_col 0 o (length xs) (length xs) i)) w) Lp ent m = Some res /\
      (length res = length m /\ forall k, ~ ev_has (ev_col 0 o (length xs) (length xs) i) k -> nth k res z = nth k m z) /\
      (forall k y, nth_error xs k = Some y -> ev_amp so (ev_col 0 o (length xs) (length xs) i) res (N.of_nat k) = M y xi)).
  { intros i xi m Hi Lm. assert (hi : (i < length xs)%nat) by (apply nth_error_Some; congruence).
    assert (Vi : valid_state (spaces h) xi) by (apply Ax; eapply nth_error_In; eauto).
    destruct (C56_action I S _ _ io so sq half (eigen_sv so (ev_vector 0 (length xs))) (fun v => length v = length xs) (ev_amp so (ev_vector 0 (length xs))) (fun _ => ev_len (ev_vector 0 (length xs)))
      (eigen_sv so (ev_col 0 o (length xs) (length xs) i)) (fun m' => length m' = length m /\ forall k, ~ ev_has (ev_col 0 o (length xs) (length xs) i) k -> nth k m' z = nth k m z) (ev_amp so (ev_col 0 o (length xs) (length xs) i)) (fun _ => ev_len (ev_col 0 o (length xs) (length xs) i))
      h e Lp bas (basis_vec so (length xs) i) m) as [cv [ent [res [Ec [R1 [R2 [R3 [_ R5]]]]]]]]; auto.
    - apply svs_laws, (eigen_strict so L), vector_fits.
    - apply (frame_laws so L _ m). rewrite Lm. now apply col_fits.
    - apply basis_vec_length.
    - cbn. lia.
    - rewrite ev_col_len. lia.
    - rewrite Ew in Ec. inversion Ec; subst cv. exists ent, res. split; auto. split; auto. split; auto.
      intros k y Hy. assert (Vy : valid_state (spaces h) y) by (apply Ax; eapply nth_error_In; eauto).
      rewrite (R5 y (N.of_nat k) Vy (Nf k y Hy)). rewrite <- (unit_sum L (fun x => M y x) xi HB Vi). apply ssum_ext. intros x ix. f_equal.
      assert (Vx : valid_state (spaces h) x) by (now apply HB). apply Ax in Vx. apply In_nth_error in Vx. destruct Vx as [j Hj].
      rewrite (Nf j x Hj). symmetry. apply (unit_embeds L xs i xi ND Hi). exact Hj. }
  rewrite fold_fill with (i := 0%nat) (f := (fun i m => match comp_foreach so (eigen_sv so (ev_vector 0 (length xs))) w (basis_vec so (length xs) i) with
       | Some calls => lop_apply_to so sq half (comp_sv so (eigen_sv so (ev_col 0 o (length xs) (length xs) i)) w) Lp calls m | None => None end)).
  2:{ reflexivity. }
  2:{ intros j x m Hj. cbn [Nat.add]. rewrite (Nf j x Hj), Nat2N.id. reflexivity. }
  destruct (fill_cols_spec so o (length xs)
    (fun i m => match comp_foreach so (eigen_sv so (ev_vector 0 (length xs))) w (basis_vec so (length xs) i) with
       | Some calls => lop_apply_to so sq half (comp_sv so (eigen_sv so (ev_col 0 o (length xs) (length xs) i)) w) Lp calls m | None => None end)
    (fun j i => match nth_error xs i, nth_error xs j with Some x, Some y => M y x | _, _ => z end)
    (seq 0 (length xs)) (seq_NoDup _ _)) with (m0 := m0) as [m [Em [Lm [Am _]]]]; auto.
  - intros i hi. apply in_seq in hi. lia.
  - intros i m hi Lm. apply in_seq in hi. destruct (nth_error xs i) as [xi|] eqn:Hi; [|apply nth_error_None in Hi; lia].
    destruct (ACT i xi m Hi Lm) as [ent [res [R1 [R2 [R3 R4]]]]]. rewrite R1. exists res. split; auto. split; auto.
    intros j hj. destruct (nth_error xs j) as [y|] eqn:Hj; [|apply nth_error_None in Hj; lia]. rewrite <- (R4 j y Hj).
    unfold ev_amp. rewrite ev_col_len. replace (N.of_nat j <? N.of_nat (length xs)) with true by (symmetry; apply N.ltb_lt; lia).
    rewrite ev_col_addr, Nat2N.id. reflexivity.
  - exists m. split; [exact Em|]. split; auto. intros i j x y Hi Hj. rewrite Am.
      * now rewrite Hi, Hj.
      * apply in_seq. assert (i < length xs)%nat by (apply nth_error_Some; congruence). lia.
      * apply nth_error_Some; congruence.
Qed.

(** What the matrix is good for: if the operator does not leave the states xs, then
    the eigenvectors of the matrix are the eigenvectors of the operator that vanish
    outside of xs, with the same eigenvalues. *)
Theorem C92_eigenvectors : forall xs m v psi lam, scalar_laws so -> basis_of (spaces h) bas ->
  NoDup xs -> (forall x, In x xs -> valid_state (spaces h) x) ->
  (forall x y, In x xs -> valid_state (spaces h) y -> ~ In y xs -> M y x = z) ->
  matrix_of io so sq half (spaces h) e xs o m -> embeds so (fun k => nth (N.to_nat k) v z) xs psi ->
  (forall j, (j < length xs)%nat ->
     ssum so (fun i => s_mul so (nth (mat_pos o (length xs) (length xs) j (N.to_nat i)) m z) (nth (N.to_nat i) v z)) (map N.of_nat (seq 0 (length xs)))
     = s_mul so lam (nth j v z))
  <->
  (forall y, valid_state (spaces h) y -> ssum so (fun x => s_mul so (M y x) (psi x)) bas = s_mul so lam (psi y)).
Proof.
  intros xs m v psi lam L HB ND Vx Out [Lm Am] [Em Ez].
  assert (Part : forall y, ssum so (fun x => s_mul so (M y x) (psi x)) bas = ssum so (fun x => s_mul so (M y x) (psi x)) xs).
  { intros y. apply (ssum_part so L); auto; [apply HB|intros x i; apply HB; auto|]. intros x _ nx. rewrite (Ez x nx). apply (mul_0_r so L). }
  assert (Idx : forall (f : N -> S) (g : N -> S) l k, (forall i x, nth_error l i = Some x -> f x = g (N.of_nat (k + i))) ->
     ssum so f l = ssum so g (map N.of_nat (seq k (length l)))).
  { intros f g l. induction l as [|a l IH]; intros k H; [reflexivity|]. cbn [length seq map ssum]. f_equal.
    - rewrite (H 0%nat a eq_refl). f_equal. lia.
    - apply (IH (Datatypes.S k)). intros i x Hx. rewrite (H (Datatypes.S i) x Hx). f_equal. lia. }
  assert (Row : forall j y, nth_error xs j = Some y ->
     ssum so (fun i => s_mul so (nth (mat_pos o (length xs) (length xs) j (N.to_nat i)) m z) (nth (N.to_nat i) v z)) (map N.of_nat (seq 0 (length xs)))
     = ssum so (fun x => s_mul so (M y x) (psi x)) bas).
  { intros j y Hj. rewrite Part. symmetry. apply Idx. intros i x Hx. rewrite Nat.add_0_l, Nat2N.id. rewrite (Am i j x y Hx Hj), (Em i x Hx), Nat2N.id. reflexivity. }
  split.
  - intros H y Vy. destruct (in_dec N.eq_dec y xs) as [i|ni].
    + apply In_nth_error in i. destruct i as [j Hj]. rewrite <- (Row j y Hj). rewrite H by (apply nth_error_Some; congruence).
      rewrite (Em j y Hj), Nat2N.id. reflexivity.
    + rewrite Part, (Ez y ni), (mul_0_r so L). transitivity (ssum so (fun _ => z) xs); [|apply (ssum_0 so L)].
      apply ssum_ext. intros x ix. rewrite (Out x y ix Vy ni). apply (mul_0_l so L).
  - intros H j hj. destruct (nth_error xs j) as [y|] eqn:Hj; [|apply nth_error_None in Hj; lia].
    rewrite (Row j y Hj), H by (apply Vx; eapply nth_error_In; eauto). rewrite (Em j y Hj), Nat2N.id. reflexivity.
Qed.
End C92.
Print Assumptions C92_sector.
Print Assumptions C92_multisector.
Print Assumptions C92_compressed.
Print Assumptions C92_eigenvectors.

(** The matrix of an expression that equals its Hermitian conjugate is Hermitian, as
    Eigen's SelfAdjointEigenSolver (which reads only one triangle) requires.
    (Expressions without bosons, as in C33.) *)
Theorem C92_hermitian : forall I S (io : index_ops I) (so : scalar_ops S) sq half (h : hspace I) (B : list (gen I)) e xs o m,
  index_order io -> scalar_domain so -> lop_laws so sq half -> conj_laws so -> real_constants so sq half ->
  hs_fresh io h -> spin_consistent B -> Forall (known io (spaces h)) B -> Forall (fun g => algebra_id g <> (-2)%Z) B ->
  built io so B e -> e_conj (std_gen_ops io) so e = Ok e ->
  (forall x, In x xs -> valid_state (spaces h) x) -> matrix_of io so sq half (spaces h) e xs o m ->
  forall i j, (i < length xs)%nat -> (j < length xs)%nat ->
    nth (mat_pos o (length xs) (length xs) j i) m (s_zero so) = s_conj so (nth (mat_pos o (length xs) (length xs) i j) m (s_zero so)).
Proof.
  intros I S io so sq half h B e xs o m Hio D LL CL RC Fr SC KB NB Be Ec Vx [_ Am] i j hi hj.
  destruct (nth_error xs i) as [x|] eqn:Hi; [|apply nth_error_None in Hi; lia].
  destruct (nth_error xs j) as [y|] eqn:Hj; [|apply nth_error_None in Hj; lia].
  rewrite (Am i j x y Hi Hj), (Am j i y x Hj Hi).
  destruct (reachable_inv io Hio h (fresh_reachable io h Fr)) as [S0 [W _]].
  assert (HB : basis_of (spaces h) (basis_list (spaces h))).
  { split; [|intros q; now apply basis_list_In]. pose proof (basis_list_sorted _ W) as St. clear -St.
    induction St as [|q t St IH Fo]; constructor; auto. rewrite Forall_forall in Fo. intros k. apply Fo in k. lia. }
  apply (mel_conj io Hio so sq half LL D CL RC (spaces h) S0 W (basis_list (spaces h)) HB B SC KB NB e e y x Be Ec); apply HB, Vx; eapply nth_error_In; eauto.
Qed.
Print Assumptions C92_hermitian.

(** The hypotheses are met (see also C65_ex, C56_ex, C33_adjoint_ex) ... *)
Example C92_ex : exists Lp xs, index_order ioZ /\ lop_laws real_ops real_sq real_half /\ hs_fresh ioZ hsec /\ Forall int_mult (spaces hsec) /\
  canonical_expr ioZ real_ops e_hop /\ make_loperator ioZ e_hop hsec = LOk Lp /\ basis_of (spaces hsec) (basis_list (spaces hsec)) /\
  hs_is_sparse hsec = Some false /\ length (modes (spaces hsec)) = 3%nat /\ total_bits (spaces hsec) = 6%nat /\
  (forall m c, In (m, c) e_hop -> charge all_modes m = 0%Z) /\ sector_basis_states hsec 2 = SOk xs /\ length xs = 24%nat /\ 1 < hs_dim hsec < 2 ^ 31.
Proof.
  destruct C65_ex as (Lp & xs & w & psi & A1 & A2 & _ & A3 & A4 & A5 & A6 & A7 & A8 & A9 & A10 & A11 & A12 & _ & A13 & _).
  exists Lp, xs. do 10 (split; [assumption|]). split; [intros m c i; now rewrite (A11 m c i)|]. split; [exact A12|].
  split; [|split; reflexivity]. unfold dense_size in A13. rewrite repeat_length in A13. lia.
Qed.
(** ... and the loops computed: the hopping operator c+_0 c_1 + c+_1 c_0 and the
    one-fermion sector of two modes; the matrix contained other numbers *)
Example C92_computed :
  let e := [([GFermion true 0%Z; GFermion false 1%Z], 1%Z); ([GFermion true 1%Z; GFermion false 0%Z], 1%Z)] in
  let L := match make_loperator ioZ e h2 with LOk L => L | _ => [] end in
  sector_basis_states h2 1 = SOk [1; 2] /\
  (forall o, sector_matrix int_scalar_ops (fun _ => 0%Z) (fun _ => 0%Z) comb_ranking h2 1 L o [9; 8; 7; 6]%Z = Some [0; 1; 1; 0]%Z) /\
  multisector_matrix ioZ int_scalar_ops (fun _ => 0%Z) (fun _ => 0%Z) comb_ranking h2 [mk_sd [0; 1]%Z 1] L RowMajor [9; 8; 7; 6]%Z = Some [0; 1; 1; 0]%Z /\
  compressed_matrix ioZ int_scalar_ops (fun _ => 0%Z) (fun _ => 0%Z) h2 L ColMajor (repeat 9%Z 16) =
    Some [0; 0; 0; 0;  0; 0; 1; 0;  0; 1; 0; 0;  0; 0; 0; 0]%Z.
Proof. cbv zeta. split; [reflexivity|]. split; [intros []; reflexivity|]. split; reflexivity. Qed.
