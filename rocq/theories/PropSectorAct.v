(** C65: operators acting through views of N-fermion sectors and multisectors *)
From Coq Require Import NArith ZArith List Bool Sorted Permutation Lia Arith Reals Lra.
From Verif Require PropView.
From Verif Require Import BitsModel BitsSpec BitsProofs RankModel RankSpec ExprModel ExprSpec ExprOrder ExprEval ExprInst PropFactories
  HSModel HSSpec HSEnum HSProofs HSMain PropHS LOpModel LOpSpec LOpFermion LOpSite LOpActF LOpActB LOpActS LOpComm LOpApply LOpMatrix LOpMain LOpReal
  PropLOp2 PropLOp3 SectorModel SectorSpec SectorProofs SectorMain SectorMulti SectorSpace PropSector PropMulti ViewModel ViewProofs SectorAct.
Import ListNotations.
Close Scope R_scope.
Close Scope nat_scope.
Open Scope N_scope.
Open Scope list_scope.

Lemma nodup_app_inv {A} (a b : list A) : NoDup (a ++ b) -> NoDup a /\ NoDup b.
Proof.
  induction a as [|x a IH]; cbn; intros H; [split; [constructor|auto]|]. inversion H as [|? ? nx H']; subst. destruct (IH H') as [A1 A2].
  split; auto. constructor; auto. intros i. apply nx. apply in_or_app. auto.
Qed.
Section C65.
Context {I S V1 V2 : Type} (io : index_ops I) (so : scalar_ops S) (sq : N -> S) (half : Z -> S).
Context (sv1 : sv_ops V1 S) (ok1 : V1 -> Prop) (amp1 : V1 -> N -> S) (size1 : V1 -> N).
Context (sv2 : sv_ops V2 S) (ok2 : V2 -> Prop) (amp2 : V2 -> N -> S) (size2 : V2 -> N).
Context (h : hspace I) (e : list (list (gen I) * S)) (Lp : lop S) (bas : list N) (v : V1) (dst : V2).
(** the operator e|psi> computed on the whole space *)
Notation exact psi y := (ssum so (fun x => s_mul so (mel io so sq half (spaces h) e y x) (psi x)) bas).
Notation lop_setup := (index_order io /\ lop_laws so sq half /\ sv_laws so sv1 ok1 amp1 size1 /\ sv_laws so sv2 ok2 amp2 size2 /\
  hs_fresh io h /\ Forall int_mult (spaces h) /\ canonical_expr io so e /\ make_loperator io e h = LOk Lp /\
  basis_of (spaces h) bas /\ ok1 v /\ ok2 dst).

(** Let all monomials of an expression change the number of fermions by n' - n. The
    source vector v holds the amplitudes of a state psi of the n-fermion sector,
    in the order of n_fermion_sector_basis_states().  Then the operator, applied
    through a view of v as a vector of the n-fermion sector and a view of dst as
    a vector of the n'-fermion sector, writes the amplitudes of e|psi> in the
    order of n_fermion_sector_basis_states() to dst, and e|psi> has no other
    amplitudes.  The ranking algorithms of the two views do not matter. *)
Theorem C65_sector_action : forall n n' rk rk' xs ys w w' psi,
  lop_setup -> hs_is_sparse h = Some false ->
  (length (modes (spaces h)) <= 62)%nat -> (n <= length (modes (spaces h)))%nat -> (n' <= length (modes (spaces h)))%nat ->
  (0 < total_bits (spaces h))%nat ->
  (forall m c, In (m, c) e -> charge all_modes m = (Z.of_nat n' - Z.of_nat n)%Z) ->
  ranking_algorithm rk -> ranking_algorithm rk' ->
  sector_basis_states h n = SOk xs -> sector_basis_states h n' = SOk ys ->
  make_sector_view rk h n = SOk w -> make_sector_view rk' h n' = SOk w' ->
  N.of_nat (length xs) <= size1 v -> N.of_nat (length ys) <= size2 dst ->
  embeds so (amp1 v) xs psi ->
  exists ent res, sector_foreach so sv1 w v = SOk ent /\
    lop_apply_to so sq half (sector_sv so sv2 w') Lp ent dst = Some res /\ ok2 res /\ size2 res = size2 dst /\
    (forall k y, nth_error ys k = Some y -> amp2 res (N.of_nat k) = exact psi y) /\
    (forall k, N.of_nat (length ys) <= k -> amp2 res k = s_zero so) /\
    (forall y, ~ In y ys -> exact psi y = s_zero so).
Proof.
  intros n n' rk rk' xs ys w w' psi (Hio & LL & SV1 & SV2 & Fr & IM & [_ C] & E & HB & O1 & O2) Sp hM hn hn' hT CH Hrk Hrk' Ex Ey Ew Ew' Z1 Z2 Em.
  pose proof (reachable_inv io Hio h (fresh_reachable io h Fr)) as Hi. pose proof (fresh_algs io Hio h Fr) as HA.
  pose proof (ll_ring _ _ _ LL) as L. pose proof Hi as [S0 [W _]].
  assert (LI : lop_impl io so sq half (spaces h) e Lp).
  { apply (lop_make_impl io Hio so L sq half (ll_comm _ _ _ LL) (half_0 so sq half LL) h); auto. intros m c i. exact (proj1 (C m c i)). }
  destruct (C45_sector io Hio h n Fr Sp hM hn hT) as [xs' [Ex' [_ [_ [NDx [Ax K]]]]]]. rewrite Ex in Ex'. inversion Ex'; subst xs'. clear Ex'.
  destruct (K rk Hrk) as [w1 [Ew1 [_ Fe]]]. rewrite Ew in Ew1. inversion Ew1; subst w1. clear K Ew1.
  destruct (C45_sector io Hio h n' Fr Sp hM hn' hT) as [ys' [Ey' [_ [_ [NDy [Ay K]]]]]]. rewrite Ey in Ey'. inversion Ey'; subst ys'. clear Ey'.
  destruct (K rk' Hrk') as [w2 [Ew2 [[_ [_ Nf]] _]]]. rewrite Ew' in Ew2. inversion Ew2; subst w2. clear K Ew2.
  assert (Into : forall x m c k y, In x xs -> In (m, c) e -> mono_act io so sq half (spaces h) m x = Some (k, y) -> In y ys).
  { intros x m c k y ix im Ema. apply Ax in ix. destruct ix as [Vx Px]. apply Ay. split.
    - eapply mono_act_valid; eauto.
    - pose proof (mono_act_charge io Hio so L sq half (spaces h) S0 W (modes (spaces h)) all_modes (modes_nodup io Hio _ S0)) as Q.
      specialize (Q (fun i hi => conj (fun _ => hi) (fun _ => eq_refl)) m x k y Vx Ema). rewrite (CH m c im), Px in Q. lia. }
  assert (Vx : forall x, In x xs -> valid_state (spaces h) x) by (intros x i; apply Ax in i; exact (proj1 i)).
  destruct (numbered_action io so sq half L (amp1 v) sv2 ok2 amp2 size2 SV2 (spaces h) e Lp LI bas HB xs ys NDx Vx (sector_map_index w') Nf Into psi Em
     (sector_sv so sv2 w') (fun _ _ _ => eq_refl) (fun _ => eq_refl) dst O2 Z2) as [res [R1 [R2 [R3 [R4 R5]]]]].
  exists (nonzero_pairs so (amp1 v) xs 0), res. split.
  - apply Fe. intros k hk. apply (svl_get _ _ _ _ _ SV1); auto. lia.
  - repeat (split; [assumption|]). intros y ny.
    exact (numbered_outside io so sq half L (amp1 v) (spaces h) e bas xs ys Into psi Em y ny).
Qed.

(** The same for multisectors: ss and ss' consist of the same sets of modes, and
    all monomials change the number of fermions in each of these sets by the
    difference of the particle numbers. *)
Theorem C65_multisector_action : forall ss ss' rk rk' xs ys w w' psi,
  lop_setup -> hs_is_sparse h = Some false -> (0 < total_bits (spaces h))%nat ->
  NoDup (flat_map sd_indices ss) ->
  (forall s i, In s ss -> In i (sd_indices s) -> In i (firstn 32 (modes (spaces h)))) ->
  (forall s, In s ss -> (sd_N s <= length (sd_indices s))%nat) -> (forall s, In s ss' -> (sd_N s <= length (sd_indices s))%nat) ->
  map sd_indices ss' = map sd_indices ss ->
  (forall m c j s s', In (m, c) e -> nth_error ss j = Some s -> nth_error ss' j = Some s' ->
     charge (modes_of io s) m = (Z.of_nat (sd_N s') - Z.of_nat (sd_N s))%Z) ->
  ranking_algorithm rk -> ranking_algorithm rk' ->
  multi_basis_states io h ss = SOk xs -> multi_basis_states io h ss' = SOk ys ->
  make_multi_view io rk h ss = SOk w -> make_multi_view io rk' h ss' = SOk w' ->
  N.of_nat (length xs) <= size1 v -> N.of_nat (length ys) <= size2 dst ->
  embeds so (amp1 v) xs psi ->
  exists ent res, multi_foreach so sv1 w v = SOk ent /\
    lop_apply_to so sq half (multi_sv so sv2 w') Lp ent dst = Some res /\ ok2 res /\ size2 res = size2 dst /\
    (forall k y, nth_error ys k = Some y -> amp2 res (N.of_nat k) = exact psi y) /\
    (forall k, N.of_nat (length ys) <= k -> amp2 res k = s_zero so) /\
    (forall y, ~ In y ys -> exact psi y = s_zero so).
Proof.
  intros ss ss' rk rk' xs ys w w' psi (Hio & LL & SV1 & SV2 & Fr & IM & [_ C] & E & HB & O1 & O2) Sp hT ND Hm hN hN' Es CH Hrk Hrk' Ex Ey Ew Ew' Z1 Z2 Em.
  pose proof (fresh_reachable io h Fr) as Rh. pose proof (reachable_inv io Hio h Rh) as Hi. pose proof (fresh_algs io Hio h Fr) as HA.
  pose proof (ll_ring _ _ _ LL) as L. pose proof Hi as [S0 [W _]].
  assert (LI : lop_impl io so sq half (spaces h) e Lp).
  { apply (lop_make_impl io Hio so L sq half (ll_comm _ _ _ LL) (half_0 so sq half LL) h); auto. intros m c i. exact (proj1 (C m c i)). }
  assert (ND' : NoDup (flat_map sd_indices ss')) by (rewrite flat_map_concat_map, Es, <- flat_map_concat_map; exact ND).
  assert (Js : forall j s', nth_error ss' j = Some s' -> exists s, nth_error ss j = Some s /\ sd_indices s = sd_indices s').
  { intros j s' Hj. apply (map_nth_error sd_indices) in Hj. rewrite Es in Hj. rewrite nth_error_map in Hj.
    destruct (nth_error ss j) as [s|] eqn:Q; [|discriminate]. cbn in Hj. inversion Hj. eauto. }
  assert (Hm' : forall s i, In s ss' -> In i (sd_indices s) -> In i (firstn 32 (modes (spaces h)))).
  { intros s' i Hs Hin. apply In_nth_error in Hs. destruct Hs as [j Hj]. destruct (Js j s' Hj) as [s [Q1 Q2]]. rewrite <- Q2 in Hin.
    eapply Hm; eauto. eapply nth_error_In; eauto. }
  destruct (C46_multisector io Hio h ss Rh Sp ND Hm hN hT) as [xs' [Ex' [_ [_ [NDx [Ax K]]]]]]. rewrite Ex in Ex'. inversion Ex'; subst xs'. clear Ex'.
  destruct (K rk Hrk) as [w1 [Ew1 [_ Fe]]]. rewrite Ew in Ew1. inversion Ew1; subst w1. clear K Ew1.
  destruct (C46_multisector io Hio h ss' Rh Sp ND' Hm' hN' hT) as [ys' [Ey' [_ [_ [NDy [Ay K]]]]]]. rewrite Ey in Ey'. inversion Ey'; subst ys'. clear Ey'.
  destruct (K rk' Hrk') as [w2 [Ew2 [[_ [_ Nf]] _]]]. rewrite Ew' in Ew2. inversion Ew2; subst w2. clear K Ew2.
  assert (Into : forall x m c k y, In x xs -> In (m, c) e -> mono_act io so sq half (spaces h) m x = Some (k, y) -> In y ys).
  { intros x m c k y ix im Ema. apply Ax in ix. destruct ix as [Vx Px]. apply Ay. split.
    - eapply mono_act_valid; eauto.
    - intros s' Hs'. apply In_nth_error in Hs'. destruct Hs' as [j Hj]. destruct (Js j s' Hj) as [s [Q1 Q2]]. rewrite <- Q2.
      assert (is : In s ss) by (eapply nth_error_In; eauto).
      assert (NDs : NoDup (sd_indices s)).
      { clear - ND is. induction ss as [|a t IH]; [destruct is|]. cbn in ND. destruct is as [->|is].
        - now apply nodup_app_inv in ND.
        - apply IH; auto. now apply nodup_app_inv in ND. }
      pose proof (mono_act_charge io Hio so L sq half (spaces h) S0 W (sd_indices s) (modes_of io s) NDs) as Q.
      assert (Hsel : forall i, In i (modes (spaces h)) -> (modes_of io s i = true <-> In i (sd_indices s))).
      { intros i _. unfold modes_of. rewrite existsb_exists. split.
        - intros [i' [ii ee]]. apply (sto_eq _ _ _ Hio) in ee. now subst.
        - intros ii. exists i. split; auto. apply (i_eqb_refl io Hio). }
      specialize (Q Hsel m x k y Vx Ema). rewrite (CH m c j s s' im Q1 Hj), (Px s is) in Q. lia. }
  assert (Vx : forall x, In x xs -> valid_state (spaces h) x) by (intros x i; apply Ax in i; exact (proj1 i)).
  destruct (numbered_action io so sq half L (amp1 v) sv2 ok2 amp2 size2 SV2 (spaces h) e Lp LI bas HB xs ys NDx Vx (multi_map_index w') Nf Into psi Em
     (multi_sv so sv2 w') (fun _ _ _ => eq_refl) (fun _ => eq_refl) dst O2 Z2) as [res [R1 [R2 [R3 [R4 R5]]]]].
  exists (nonzero_pairs so (amp1 v) xs 0), res. split.
  - apply Fe. intros k hk. apply (svl_get _ _ _ _ _ SV1); auto. lia.
  - repeat (split; [assumption|]). intros y ny.
    exact (numbered_outside io so sq half L (amp1 v) (spaces h) e bas xs ys Into psi Em y ny).
Qed.
End C65.
Print Assumptions C65_sector_action.
Print Assumptions C65_multisector_action.

(** The hypothesis on the monomials is needed, and it is not checked: c_0, which
    removes a fermion, takes the state |1> (one fermion, in the mode 0) to the
    vacuum.  Through views of the 1-fermion sector the amplitude of the vacuum is
    written, silently, to the position 0 of the destination, that of the state
    |1>, although <1|c_0|1> = 0. *)
Definition e_ann0 : list (list (gen Z) * Z) := [([GFermion false 0%Z], 1%Z)].
Definition L_ann0 : lop Z := Eval vm_compute in match make_loperator ioZ e_ann0 h2 with LOk L => L | _ => [] end.
Theorem C65_not_conserving_refuted :
  hs_fresh ioZ h2 /\ make_loperator ioZ e_ann0 h2 = LOk L_ann0 /\ charge all_modes [GFermion false 0%Z] = (-1)%Z /\
  sector_basis_states h2 1 = SOk [1; 2] /\
  exists w, make_sector_view comb_ranking h2 1 = SOk w /\
    sector_foreach int_scalar_ops (dense_sv int_scalar_ops) w [1%Z; 0%Z] = SOk [(1, 1%Z)] /\
    lop_apply_to int_scalar_ops (fun _ => 0%Z) (fun _ => 0%Z) (sector_sv int_scalar_ops (dense_sv int_scalar_ops) w) L_ann0 [(1, 1%Z)] [0%Z; 0%Z] = Some [1%Z; 0%Z] /\
    mel ioZ int_scalar_ops (fun _ => 0%Z) (fun _ => 0%Z) (spaces h2) e_ann0 1 1 = 0%Z.
Proof.
  split; [exact (proj1 C45_copied_space_refuted)|]. split; [reflexivity|]. split; [reflexivity|]. split; [reflexivity|].
  eexists. split; [reflexivity|]. split; [vm_compute; reflexivity|]. split; vm_compute; reflexivity.
Qed.
Print Assumptions C65_not_conserving_refuted.

(** The hypotheses are met: real numbers, the space [hsec] of three fermions 1, 3,
    7, a boson with 4 states and a spin 1/2, the operator 2 c+_1 c_3 (which
    conserves the number of fermions) in the 2-fermion sector ... *)
Definition e_hop : list (list (gen Z) * R) := [([GFermion true 1%Z; GFermion false 3%Z], 2%R)].
Lemma hop_canonical : canonical_expr ioZ real_ops e_hop.
Proof.
  split; [repeat constructor|]. intros m c [Q|[]]. inversion Q; subst. split; [|cbn; lra].
  split; [|split].
  - repeat constructor; left; constructor.
  - intros [|a1 [|a2 a3]] ga gb post E C; cbn in E; inversion E; subst.
    + inversion C.
    + destruct a3; discriminate.
  - apply no_spin_power. repeat constructor; cbn; discriminate.
Qed.
Lemma hsec_fresh : hs_fresh ioZ hsec. Proof. exact (proj1 C45_ex). Qed.
Example C65_ex : exists Lp xs w psi,
  let v := repeat 1%R 24 in let ss := [mk_sd [1; 3]%Z 1%nat] in
  index_order ioZ /\ lop_laws real_ops real_sq real_half /\
  sv_laws real_ops (dense_sv real_ops) (fun _ => True) (dense_amp real_ops) dense_size /\
  hs_fresh ioZ hsec /\ Forall int_mult (spaces hsec) /\ canonical_expr ioZ real_ops e_hop /\ make_loperator ioZ e_hop hsec = LOk Lp /\
  basis_of (spaces hsec) (basis_list (spaces hsec)) /\ hs_is_sparse hsec = Some false /\
  length (modes (spaces hsec)) = 3%nat /\ total_bits (spaces hsec) = 6%nat /\
  (forall m c, In (m, c) e_hop -> charge all_modes m = (Z.of_nat 2 - Z.of_nat 2)%Z) /\
  sector_basis_states hsec 2 = SOk xs /\ make_sector_view comb_ranking hsec 2 = SOk w /\
  N.of_nat (length xs) = dense_size v /\ embeds real_ops (dense_amp real_ops v) xs psi /\
  (* ... and in the multisector with one fermion in the modes 1, 3 *)
  NoDup (flat_map sd_indices ss) /\ (forall s i, In s ss -> In i (sd_indices s) -> In i (firstn 32 (modes (spaces hsec)))) /\
  (forall m c s, In (m, c) e_hop -> In s ss -> charge (modes_of ioZ s) m = 0%Z) /\
  exists ys w', multi_basis_states ioZ hsec ss = SOk ys /\ make_multi_view ioZ comb_ranking hsec ss = SOk w' /\ length ys = 32%nat.
Proof.
  destruct lop_hypotheses_met as (A1 & A2 & _).
  assert (IM : Forall int_mult (spaces hsec)) by (repeat constructor; vm_compute; reflexivity).
  assert (W : Forall es_wf (spaces hsec)) by (repeat constructor; cbn; lia).
  assert (HL : exists L, make_loperator ioZ e_hop hsec = LOk L).
  { apply (C35_no_bosons Z ioZ _ hsec e_hop sto_Z hsec_fresh).
    - intros m c i. exact (proj1 (proj2 hop_canonical m c i)).
    - intros m c g [Q|[]] Hg. inversion Q; subst. destruct Hg as [<-|[<-|[]]].
      + exists (ESFermion 1%Z). split; [vm_compute; auto 10|reflexivity].
      + exists (ESFermion 3%Z). split; [vm_compute; auto 10|reflexivity]. }
  destruct HL as [L HL]. exists L.
  destruct C45_ex as (F & Sp & LM & TB & EM & EB).
  eexists. destruct (C45_sector ioZ sto_Z hsec 2 F Sp ltac:(rewrite LM; lia) ltac:(rewrite LM; lia) ltac:(rewrite TB; lia)) as [xs' [_ [_ [_ [_ [_ K]]]]]].
  destruct (K comb_ranking ra_combination) as [w [Ew _]]. exists w.
  match type of EB with _ = SOk ?l => set (xs := l) in * end.
  exists (fun x => if in_dec N.eq_dec x xs then 1%R else 0%R). cbv zeta.
  split; [exact A1|]. split; [exact A2|]. split; [apply dense_sv_laws; apply (ll_ring _ _ _ A2)|].
  split; [exact F|]. split; [exact IM|]. split; [exact hop_canonical|]. split; [exact HL|].
  split. { split; [|intros x; now apply basis_list_In]. pose proof (basis_list_sorted _ W) as St. clear -St.
    induction St as [|x t St IH Fo]; constructor; auto. rewrite Forall_forall in Fo. intros i. apply Fo in i. lia. }
  split; [exact Sp|]. split; [exact LM|]. split; [exact TB|]. split; [intros m c [Q|[]]; inversion Q; reflexivity|].
  split; [exact EB|]. split; [exact Ew|]. split; [reflexivity|]. split.
  { split.
    - intros k x Hx. destruct (in_dec N.eq_dec x xs) as [_|n]; [|exfalso; apply n; eapply nth_error_In; eauto].
      assert (hk : (k < 24)%nat).
      { enough (Q : (k < length xs)%nat) by exact Q. apply nth_error_Some. intros Q. unfold xs in Q. rewrite Hx in Q. discriminate. }
      unfold dense_amp. do 24 (destruct k as [|k]; [reflexivity|]). lia.
    - intros x n. destruct (in_dec N.eq_dec x xs); [contradiction|reflexivity]. }
  split; [repeat constructor; cbn; intuition discriminate|].
  split. { intros s i [<-|[]] Hi. rewrite EM. destruct Hi as [<-|[<-|[]]]; cbn; auto. }
  split. { intros m c s [Q|[]] [<-|[]]. inversion Q; subst. reflexivity. }
  eexists. eexists. split; [vm_compute; reflexivity|]. split; reflexivity.
Qed.
