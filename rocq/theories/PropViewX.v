(** * C55 (continued): exactly when an operator throws through mapped views *)
From Coq Require Import NArith ZArith List Bool Sorted Permutation Lia Arith Reals.
From Verif Require Import BitsModel BitsSpec BitsProofs ExprModel ExprSpec ExprOrder ExprEval ExprInst PropFactories
  HSModel HSSpec HSEnum HSProofs HSMain PropHS LOpModel LOpSpec LOpFermion LOpSite LOpActF LOpActB LOpActS LOpComm LOpApply LOpMatrix LOpMain LOpReal
  PropLOp2 PropLOp3 ViewModel ViewSpec ViewProofs ViewMapper ViewExact PropView LOpFaithful2 PropFaithful.
Import ListNotations.
Close Scope R_scope.
Close Scope nat_scope.
Open Scope N_scope.
Open Scope list_scope.

Section C55.
Context {I S V1 V2 : Type} (io : index_ops I) (so : scalar_ops S) (sq : N -> S) (half : Z -> S).
Context (sv1 : sv_ops V1 S) (ok1 : V1 -> Prop) (amp1' : V1 -> N -> S) (size1 : V1 -> N).
Context (sv2 : sv_ops V2 S) (ok2 : V2 -> Prop) (amp2 : V2 -> N -> S) (size2 : V2 -> N).
Context (h : hspace I) (e : list (list (gen I) * S)) (Lp : lop S) (bas : list N) (ms md : imap) (v : V1) (dst : V2).
Notation src := (view_amp so amp1' ms v).
Notation matr := (mel io so sq half (spaces h) e).
Notation runs ent := (lop_apply_to so sq half (mapped_sv so sv2 md) Lp ent (Live dst)).

(** every state that a term of the operator gives with a non-zero amplitude belongs to the map of the destination *)
Definition nothing_leaves : Prop := forall x m c y,
  src x <> s_zero so -> In (m, c) e -> amp1 so (mono_act io so sq half (spaces h) m x) y <> s_zero so -> im_at md y <> None.

Theorem C55_exact :
  index_order io -> scalar_domain so -> lop_laws so sq half ->
  sv_laws so sv1 ok1 amp1' size1 -> sv_laws so sv2 ok2 amp2 size2 ->
  hs_fresh io h -> Forall int_mult (spaces h) -> canonical_expr io so e -> make_loperator io e h = LOk Lp ->
  basis_of (spaces h) bas -> view_setup ok1 size1 ok2 size2 h ms md v dst ->
  forall ent, mv_foreach so sv1 ms v ent ->
    ((exists w, runs ent = Some (Thrown w)) <-> ~ nothing_leaves) /\
    ((exists w, runs ent = Some (Live w)) <-> nothing_leaves) /\
    forall w, runs ent = Some (Live w) -> ok2 w /\ size2 w = size2 dst /\
      (forall y k, im_at md y = Some k -> amp2 w k = ssum so (fun x => s_mul so (matr y x) (src x)) bas) /\
      (forall k, ~ In k (map snd md) -> amp2 w k = s_zero so).
Proof.
  intros Hio D LL SV1 SV2 Fr IM [CE C] E HB VS ent Ee.
  pose proof VS as (N1 & N2 & N3 & B1 & B2 & O1 & O2).
  pose proof (reachable_inv io Hio h (fresh_reachable io h Fr)) as Hi. pose proof (fresh_algs io Hio h Fr) as HA.
  pose proof (ll_ring _ _ _ LL) as L.
  assert (LI : lop_impl io so sq half (spaces h) e Lp).
  { apply (lop_make_impl io Hio so L sq half (ll_comm _ _ _ LL) (half_0 so sq half LL) h); auto. intros m c i. exact (proj1 (C m c i)). }
  assert (LK : lop_keeps so sq half (spaces h) Lp).
  { apply (lop_make_keeps io Hio so D sq half LL h e); auto. intros m c i. exact (proj1 (C m c i)). }
  assert (MF1 : map_fits size1 ms v) by (intros x k i; apply (B1 x k i)).
  destruct (mv_foreach_spec so L sv1 ok1 amp1' size1 SV1 ms v O1 N1 MF1) as [_ Y].
  destruct (Y ent Ee) as [D1 [D2 D3]].
  destruct (svl_zero _ _ _ _ _ SV2 dst O2) as [Oz [Zz Az]].
  assert (MF2 : map_fits size2 md (sv_zero sv2 dst)) by (intros y k i; rewrite Zz; eauto).
  assert (FV : Forall (fun p => valid_state (spaces h) (fst p)) ent).
  { apply Forall_forall. intros [x a] i. destruct (D2 x a i) as [Ea [Na Ki]]. cbn [fst].
    apply in_map_iff in Ki. destruct Ki as [[x2 k] [<- j]]. apply (B1 _ _ j). }
  assert (GO : nothing_leaves -> exists w, runs ent = Some (Live w) /\ ok2 w /\ size2 w = size2 dst /\
      (forall y k, im_at md y = Some k -> amp2 w k = ssum so (fun x => s_mul so (matr y x) (src x)) bas) /\
      (forall k, ~ In k (map snd md) -> amp2 w k = s_zero so)).
  { intros NL.
    assert (FF : Forall (fun p => valid_state (spaces h) (fst p) /\ into_nz io so sq half (fun y => In y (map fst md)) (spaces h) e (fst p)) ent).
    { rewrite Forall_forall in *. intros [x a] i. split; [exact (FV _ i)|]. cbn [fst]. destruct (D2 x a i) as [Ea [Na Ki]].
      intros m c y im nz. subst a. pose proof (NL x m c y Na im nz) as Q. destruct (in_dec N.eq_dec y (map fst md)); auto.
      exfalso. apply Q. now apply im_at_None. }
    destruct (mapped_entries_nz io so D sq half LL sv2 ok2 amp2 size2 SV2 md N2 N3 (spaces h) e Lp ent (sv_zero sv2 dst) LI LK Oz MF2 FF)
      as [w [R [Ow [Zw [Fw Aw]]]]].
    exists w. split; [exact R|]. split; auto. split; [congruence|]. split.
    - intros y k Ek. assert (iy : In y (map fst md)) by (apply im_at_In in Ek; auto; now apply (in_map fst) in Ek).
      specialize (Aw y iy). unfold view_amp in Aw. rewrite Ek in Aw. rewrite Aw, Az, (sl_add_0 so L).
      apply (esum_basis so L _ src ent bas (proj1 HB) D1).
      + intros x a i. apply (D2 x a i).
      + exact D3.
      + intros x i. apply in_map_iff in i. destruct i as [[x' a] [<- i]]. cbn [fst]. apply HB.
        rewrite Forall_forall in FV. apply (FV _ i).
    - intros k nk. rewrite Fw by auto. apply Az. }
  assert (ANY : (exists w, runs ent = Some (Thrown w)) \/ (exists w, runs ent = Some (Live w) /\ nothing_leaves)).
  { destruct (entries_any io so sq half sv2 ok2 amp2 size2 SV2 md N2 N3 (spaces h) e Lp ent LI FV (sv_zero sv2 dst) Oz MF2) as [[w R]|[w [R K]]].
    - left. exists w. exact R.
    - right. exists w. split; [exact R|]. intros x m c y Sx im nz Q. apply im_at_None in Q. apply Q.
      specialize (D3 x Sx). apply in_map_iff in D3. destruct D3 as [[x' a] [E' i]]. cbn in E'. subst x'.
      exact (K x a m c y i im nz). }
  split; [|split].
  - split.
    + intros [w R] NL. destruct (GO NL) as (w' & R' & _). rewrite R in R'. discriminate R'.
    + intros NL. destruct ANY as [A|[w [_ A]]]; [exact A|elim (NL A)].
  - split.
    + intros [w R]. destruct ANY as [[w' R']|[w' [_ A]]]; [rewrite R in R'; discriminate R'|exact A].
    + intros NL. destruct (GO NL) as (w & R & _). exists w. exact R.
  - intros w R. assert (NL : nothing_leaves).
    { destruct ANY as [[w' R']|[w' [_ A]]]; [rewrite R in R'; discriminate R'|exact A]. }
    destruct (GO NL) as (w' & R' & K). rewrite R in R'. injection R' as <-. exact K.
Qed.
End C55.
Print Assumptions C55_exact.

(** The hypotheses are met, and the condition is finer than that of C55_action: c+_0 S_z takes |32>
    (spin projection 0) to 0|33>, which throws nothing with a map without |33>, and |64> to 1|65>. *)
Definition csz : list (list (gen Z) * R) := [([GFermion true 0%Z; GSpin 3 Zcomp 0%Z], s_one real_ops)].
Lemma csz_lop : exists L, lop_of ioZ real_ops hs_ex csz L.
Proof.
  assert (CM : canonical_mono ioZ [GFermion true 0%Z; GSpin 3 Zcomp 0%Z]).
  { split; [|split].
    - constructor; [repeat constructor|]. constructor; [right; constructor|constructor].
    - intros [|a1 [|a2 [|a3 t]]] ga gb post E C; cbn in E; inversion E; subst; inversion C.
    - intros (p & q & mu & c & j & n & _ & _ & h2 & E). destruct n as [|[|n]]; [lia|lia|]. cbn [repeat app] in E.
      destruct p as [|a1 [|a2 [|a3 t]]]; cbn in E; inversion E; subst; try discriminate. }
  assert (HL : exists L, make_loperator ioZ csz hs_ex = LOk L).
  { apply (C35_no_bosons Z ioZ _ hs_ex csz sto_Z hs_ex_fresh).
    - intros m c [Q|[]]. inversion Q; subst. exact CM.
    - intros m c g [Q|[]] Hg. inversion Q; subst. destruct hs_ex_facts as [Sp _]. destruct Hg as [<-|[<-|[]]].
      + exists (ESFermion 0%Z). rewrite Sp. split; [cbn; auto|reflexivity].
      + exists (ESSpin 3 0%Z). rewrite Sp. split; [cbn; auto 10|reflexivity]. }
  destruct HL as [L E]. exists L. split; [|exact E]. split; [repeat constructor|].
  intros m c [Q|[]]. inversion Q; subst. split; [exact CM|apply R1_neq_R0].
Qed.
Example C55_exact_ex : scalar_domain real_ops /\ exists L, lop_of ioZ real_ops hs_ex csz L /\
  mono_act ioZ real_ops real_sq real_half (spaces hs_ex) [GFermion true 0%Z; GSpin 3 Zcomp 0%Z] 32 <> None /\
  let setup ms := view_setup (fun _ : @dense R => True) dense_size (fun _ : @dense R => True) dense_size hs_ex ms [(32, 0)] [s_one real_ops] [5%R] in
  let quiet ms := nothing_leaves ioZ real_ops real_sq real_half (dense_amp real_ops) hs_ex csz ms [(32, 0)] [s_one real_ops] in
  setup [(32, 0)] /\ quiet [(32, 0)] /\ setup [(64, 0)] /\ ~ quiet [(64, 0)].
Proof.
  split; [exact real_domain|]. destruct csz_lop as [L HL]. exists L. split; [exact HL|].
  assert (M : forall x n, (x = 32 /\ n = 1 \/ x = 64 /\ n = 2) ->
    exists z, mono_act ioZ real_ops real_sq real_half (spaces hs_ex) [GFermion true 0%Z; GSpin 3 Zcomp 0%Z] x =
      Some (s_mul real_ops (s_mul real_ops (s_one real_ops) (real_half z)) (s_one real_ops), x + 1) /\ z = (2 * Z.of_N n - 2)%Z).
  { intros x n H. exists (2 * Z.of_N n - 2)%Z. split; [|reflexivity]. destruct H as [[-> ->]|[-> ->]]; vm_compute; reflexivity. }
  assert (ST : forall x, x = 32 \/ x = 64 -> valid_state (spaces hs_ex) x).
  { intros x H. destruct hs_ex_facts as [-> _].
    split; [destruct H as [->| ->]; reflexivity|].
    intros [|[|[|[|k]]]] e E'; cbn in E'; try (destruct k; discriminate); inversion E'; subst; destruct H as [->| ->]; vm_compute; reflexivity. }
  assert (SU : forall x, x = 32 \/ x = 64 -> view_setup (fun _ : @dense R => True) dense_size (fun _ : @dense R => True) dense_size hs_ex [(x, 0)] [(32, 0)] [s_one real_ops] [5%R]).
  { intros x H. split; [repeat constructor; intros []|]. split; [repeat constructor; intros []|]. split; [repeat constructor; intros []|].
    split; [|split; [|split]]; auto.
    - intros y k [E|[]]. inversion E; subst. split; [apply ST; exact H|reflexivity].
    - intros y k [E|[]]. inversion E; subst. reflexivity. }
  split; [|split; [apply SU; auto|split; [|split; [apply SU; auto|]]]].
  - destruct (M 32 1) as (z & E & _); [auto|]. rewrite E. discriminate.
  - intros x m c y nz [E|[]] A. injection E as <- <-. assert (x = 32) as ->.
    { unfold view_amp, im_at in nz. cbn [sp_find] in nz. destruct (N.eqb_spec x 32); auto. congruence. }
    destruct (M 32 1) as (z & E & Ez); [auto|]. rewrite E in A. exfalso. apply A. cbn [amp1]. subst z.
    change (2 * Z.of_N 1 - 2)%Z with 0%Z. destruct (_ =? _); [|reflexivity]. cbn. unfold real_half. rewrite Rmult_1_l, Rmult_1_r. cbn. field.
  - intros Q. destruct (M 64 2) as (z & E & Ez); [auto|].
    apply (Q 64 [GFermion true 0%Z; GSpin 3 Zcomp 0%Z] (s_one real_ops) 65).
    + cbn. apply R1_neq_R0.
    + left; reflexivity.
    + rewrite E. cbn [amp1]. change (64 + 1 =? 65) with true. cbv iota. subst z. change (2 * Z.of_N 2 - 2)%Z with 2%Z.
      cbn. unfold real_half. replace (1 * (IZR 2 / 2) * 1)%R with 1%R by (cbn; field). apply R1_neq_R0.
    + reflexivity.
Qed.
