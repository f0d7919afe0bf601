(** C70: element access through views *)
From Coq Require Import NArith ZArith List Bool Arith Sorted Lia.
From Verif Require Import BitsModel BitsSpec BitsProofs RankModel RankSpec ExprModel ExprSpec ExprOrder ExprInst HSModel HSSpec HSEnum HSProofs HSMain PropHS
  PropRank TrieModel LOpModel LOpSpec LOpApply PropLOp2 SectorModel SectorSpec SectorProofs SectorMain PropSector PropMulti ViewModel ViewProofs ViewComp PropComp WindowSpec.
Import ListNotations.
Open Scope N_scope.
Open Scope list_scope.

Section C70.
Context {I V S : Type} (io : index_ops I) (Hio : index_order io).
Context (so : scalar_ops S) (sv : sv_ops V S) (ok : V -> Prop) (amp : V -> N -> S) (size : V -> N).

(** the common form of the views *)
Lemma window_of (f : N -> option N) (view : sv_ops V S) xs v :
  sv_laws so sv ok amp size ->
  (forall i x, nth_error xs i = Some x -> f x = Some (N.of_nat i)) ->
  (forall u x, sv_get view u x = match f x with None => None | Some k => sv_get sv u k end) ->
  (forall u x a, sv_add view u x a = match f x with None => None | Some k => sv_add sv u k a end) ->
  (forall u, sv_zero view u = sv_zero sv u) ->
  ok v -> N.of_nat (length xs) <= size v -> window so view ok amp size xs v.
Proof.
  intros L Nf Hg Ha Hz O Z.
  assert (B : forall i x, nth_error xs i = Some x -> N.of_nat i < size v).
  { intros i x E. assert ((i < length xs)%nat) by (apply nth_error_Some; congruence). lia. }
  constructor.
  - intros i x E. rewrite Hg, (Nf i x E). apply (svl_get _ _ _ _ _ L); eauto.
  - intros i x a E. rewrite Ha, (Nf i x E). destruct (svl_add _ _ _ _ _ L v (N.of_nat i) a O (B i x E)) as [v' [A1 [A2 [A3 A4]]]].
    exists v'. repeat (split; [assumption|]). split.
    + now rewrite A4, N.eqb_refl.
    + intros k nk. rewrite A4. destruct (N.eqb_spec (N.of_nat i) k); congruence.
  - rewrite Hz. now apply (svl_zero _ _ _ _ _ L).
Qed.

Theorem C70_sector : forall (h : hspace I) n rk w xs v,
  sv_laws so sv ok amp size -> hs_fresh io h -> hs_is_sparse h = Some false ->
  (length (modes (spaces h)) <= 62)%nat -> (n <= length (modes (spaces h)))%nat -> (0 < total_bits (spaces h))%nat ->
  ranking_algorithm rk -> make_sector_view rk h n = SOk w -> sector_basis_states h n = SOk xs ->
  ok v -> N.of_nat (length xs) <= size v -> window so (sector_sv so sv w) ok amp size xs v.
Proof.
  intros h n rk w xs v L Fr Sp hM hn hT Hrk Ew Ex O Z.
  destruct (C45_sector io Hio h n Fr Sp hM hn hT) as [l [El [_ [_ [_ [_ K]]]]]]. rewrite Ex in El. inversion El; subst l.
  destruct (K rk Hrk) as [w' [Ew' [[_ [_ Nf]] _]]]. rewrite Ew in Ew'. inversion Ew'; subst w'.
  exact (window_of (sector_map_index w) (sector_sv so sv w) xs v L Nf (fun _ _ => eq_refl) (fun _ _ _ => eq_refl) (fun _ => eq_refl) O Z).
Qed.

Theorem C70_multisector : forall (h : hspace I) ss rk w xs v,
  sv_laws so sv ok amp size -> hs_reachable io h -> hs_is_sparse h = Some false ->
  NoDup (flat_map sd_indices ss) ->
  (forall s i, In s ss -> In i (sd_indices s) -> In i (firstn 32 (modes (spaces h)))) ->
  (forall s, In s ss -> (sd_N s <= length (sd_indices s))%nat) -> (0 < total_bits (spaces h))%nat ->
  ranking_algorithm rk -> make_multi_view io rk h ss = SOk w -> multi_basis_states io h ss = SOk xs ->
  ok v -> N.of_nat (length xs) <= size v -> window so (multi_sv so sv w) ok amp size xs v.
Proof.
  intros h ss rk w xs v L R Sp ND Hm hN hT Hrk Ew Ex O Z.
  destruct (C46_multisector io Hio h ss R Sp ND Hm hN hT) as [l [El [_ [_ [_ [_ K]]]]]]. rewrite Ex in El. inversion El; subst l.
  destruct (K rk Hrk) as [w' [Ew' [[_ [_ Nf]] _]]]. rewrite Ew in Ew'. inversion Ew'; subst w'.
  exact (window_of (multi_map_index w) (multi_sv so sv w) xs v L Nf (fun _ _ => eq_refl) (fun _ _ _ => eq_refl) (fun _ => eq_refl) O Z).
Qed.

(** compressed views: [xs] are the basis states in increasing order *)
Theorem C70_compressed : forall (h : hspace I) w xs v,
  sv_laws so sv ok amp size -> hs_reachable io h -> comp_view_make io h = Some w ->
  StronglySorted N.lt xs -> (forall x, In x xs <-> valid_state (spaces h) x) ->
  ok v -> hs_dim h <= size v -> window so (comp_sv so sv w) ok amp size xs v.
Proof.
  intros h w xs v L R Ew St Ex O Z.
  destruct (C56_map_index io Hio h R) as [w' [ys [Ew' [Sy [Ly [_ [Iy Nf]]]]]]]. rewrite Ew in Ew'. inversion Ew'; subst w'.
  assert (Q : xs = ys).
  { clear - St Sy Ex Iy. assert (A : forall x, In x xs <-> In x ys) by (intros x; rewrite Ex, Iy; reflexivity). clear Ex Iy. revert ys Sy A.
    induction St as [|x t St IH F]; intros [|y u] Sy A; auto.
    - exfalso. apply (A y). now left.
    - exfalso. apply (A x). now left.
    - inversion Sy as [|y' u' Su Fu]; subst. rewrite Forall_forall in F, Fu. assert (x = y).
      { destruct (proj1 (A x) (or_introl eq_refl)) as [e|i]; auto. destruct (proj2 (A y) (or_introl eq_refl)) as [e|j]; auto.
        specialize (F y j). specialize (Fu x i). lia. }
      subst y. f_equal. apply IH; auto. intros z. split; intros i.
      + destruct (proj1 (A z) (or_intror i)) as [e|j]; auto. subst z. specialize (F x i). lia.
      + destruct (proj2 (A z) (or_intror i)) as [e|j]; auto. subst z. specialize (Fu x i). lia. }
  subst ys. apply (window_of (comp_map_index w) (comp_sv so sv w) xs v L Nf (fun _ _ => eq_refl) (fun _ _ _ => eq_refl) (fun _ => eq_refl) O).
  now rewrite Ly.
Qed.

(** mapped_basis_view: the state x is shown as the element number m[x];
    std::out_of_range without a change of v if x is not in the map *)
Theorem C70_mapped : forall (m : imap) v x,
  sv_laws so sv ok amp size -> ok v -> (forall x k, im_at m x = Some k -> k < size v) ->
  (forall k, im_at m x = Some k ->
     mv_get sv m v x = Some (Some (amp v k)) /\
     forall a, exists v', mv_add sv m (Live v) x a = Some (Live v') /\ ok v' /\ size v' = size v /\
       amp v' k = s_add so (amp v k) a /\ forall k', k' <> k -> amp v' k' = amp v k') /\
  (im_at m x = None -> mv_get sv m v x = Some None /\ forall a, mv_add sv m (Live v) x a = Some (Thrown v)) /\
  exists v', sv_zero (mapped_sv so sv m) (Live v) = Live v' /\ ok v' /\ size v' = size v /\ forall k, amp v' k = s_zero so.
Proof.
  intros m v x L O B. unfold mv_get, mv_add. split; [|split].
  - intros k E. rewrite E. split; [now rewrite (svl_get _ _ _ _ _ L v k O (B x k E))|]. intros a.
    destruct (svl_add _ _ _ _ _ L v k a O (B x k E)) as [v' [A1 [A2 [A3 A4]]]]. exists v'. rewrite A1. split; [reflexivity|].
    split; [exact A2|]. split; [exact A3|]. split; [now rewrite A4, N.eqb_refl|]. intros k' nk. rewrite A4. destruct (N.eqb_spec k k'); congruence.
  - intros E. rewrite E. auto.
  - eexists. split; [reflexivity|]. now apply (svl_zero _ _ _ _ _ L).
Qed.
End C70.
Print Assumptions C70_sector.
Print Assumptions C70_multisector.
Print Assumptions C70_compressed.
Print Assumptions C70_mapped.

(** The hypotheses are met: the 2-fermion sector of [hsec] (24 states) over an
    integer vector with 24 elements; reading and writing the state 14 = xs[1]. *)
Example C70_ex : exists w xs,
  sv_laws int_scalar_ops (dense_sv int_scalar_ops) (fun _ => True) (dense_amp int_scalar_ops) dense_size /\
  hs_fresh ioZ hsec /\ hs_is_sparse hsec = Some false /\ length (modes (spaces hsec)) = 3%nat /\ total_bits (spaces hsec) = 6%nat /\
  make_sector_view comb_ranking hsec 2 = SOk w /\ sector_basis_states hsec 2 = SOk xs /\ length xs = 24%nat /\ nth_error xs 1 = Some 14 /\
  let v := map (fun k => (10 * Z.of_nat k)%Z) (seq 0 24) in
  sv_get (sector_sv int_scalar_ops (dense_sv int_scalar_ops) w) v 14 = Some 10%Z /\
  option_map (fun u => firstn 3 u) (sv_add (sector_sv int_scalar_ops (dense_sv int_scalar_ops) w) v 14 7%Z) = Some [0; 17; 20]%Z.
Proof.
  destruct C45_ex as (F & Sp & LM & TB & _ & EB). eexists. exists (flat_map (fun u => map (fun k => u + 8 * k) [0; 1; 2; 3; 4; 5; 6; 7]) [6; 5; 3]).
  split; [exact (svs_laws _ _ _ _ _ (C32_dense Z int_scalar_ops (sd_laws _ int_domain)))|].
  repeat (split; [assumption|]). split; [reflexivity|]. split; [exact EB|]. split; [reflexivity|]. split; [reflexivity|].
  split; vm_compute; reflexivity.
Qed.
