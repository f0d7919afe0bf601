(** Actions never return a zero coefficient from a non-zero one; L(src_view, dst_view) throws exactly
    if a non-zero term leads out of the map *)
From Coq Require Import NArith ZArith List Bool Sorted Permutation Lia.
From Verif Require Import BitsModel BitsSpec BitsProofs ExprModel ExprSpec ExprOrder ExprEval
  HSModel HSSpec HSEnum HSProofs HSMain LOpModel LOpSpec LOpFermion LOpSite LOpActF LOpActB LOpActS LOpComm LOpApply
  LOpMatrix LOpFaithful2 ViewModel ViewSpec ViewProofs.
Import ListNotations.
Open Scope N_scope.

Section NZ.
Context {I S : Type} (io : index_ops I) (Hio : index_order io).
Context (so : scalar_ops S) (D : scalar_domain so) (sq : N -> S) (half : Z -> S) (LL : lop_laws so sq half).
Let L := sd_laws _ D.
Notation zero := (s_zero so).
Notation es := (espace I).
Notation gact := (gen_act io so sq half).
Notation mact := (mono_act io so sq half).
Notation impl := (implements io so sq half).

Lemma half_nonzero z : z <> 0%Z -> half z <> zero.
Proof.
  intros hz E. pose proof (zmul_half so sq half LL z) as Q. replace (2 * z)%Z with (z + z)%Z in Q by lia.
  rewrite (ll_half_add _ _ _ LL), E, (sl_add_0 so L) in Q.
  apply (sd_const _ D (VInt z) (zmul so z (s_one so))); [apply (sl_make_int _ L)| |exact Q].
  simpl. now apply Z.eqb_neq.
Qed.
Lemma spow_nz x n : x <> zero -> spow so x n <> zero.
Proof. intros h. induction n as [|n IH]; cbn [spow]; [exact (one_nz so D sq half LL)|apply (mul_nz so D); auto]. Qed.

(** generators other than S_z have non-zero matrix elements where they do not give zero *)
Definition not_z (g : gen I) : Prop := match g with GSpin _ Zcomp _ => False | _ => True end.
Lemma gact_nz l g x k y : StronglySorted (es_before io) l -> Forall es_wf l -> valid_state l x -> not_z g ->
  gact l g x = Some (k, y) -> k <> zero.
Proof.
  intros S0 W V NZ E. destruct (site_or io l g) as [[j [e H]]|H].
  2: { rewrite gen_act_unknown in E by auto. discriminate. }
  rewrite (gen_act_loc io Hio so sq half L l g j e x S0 H) in E.
  pose proof (valid_field l j e x V (proj1 H)) as hn.
  destruct (loc so sq half g e (bit_field x (offset l j) (es_nbits e))) as [[c n']|] eqn:EL; [|discriminate].
  inversion E; subst k y. apply (mul_nz so D).
  { unfold jwf. destruct (is_f g); [apply (sign_nz so D sq half LL)|apply (one_nz so D sq half LL)]. }
  set (n := bit_field x (offset l j) (es_nbits e)) in *. destruct g as [d i|d i|m c0 i]; cbn [loc] in EL.
  - destruct d; [destruct (n =? 0)|destruct (n =? 1)]; inversion EL; apply (one_nz so D sq half LL).
  - destruct d.
    + destruct (n + 1 <? es_dim e); inversion EL. apply (sq_nz so D sq half LL). lia.
    + destruct (N.eqb_spec n 0); inversion EL. apply (sq_nz so D sq half LL). lia.
  - pose proof (carries_dim io Hio (GSpin m c0 i) e m c0 i eq_refl (proj2 H)) as DE.
    destruct c0; [| |elim NZ].
    + destruct (N.ltb_spec (n + 1) (N.of_nat m)); inversion EL. apply (sq_nz so D sq half LL). apply N.mul_pos_pos; lia.
    + destruct (N.eqb_spec n 0); inversion EL. apply (sq_nz so D sq half LL). apply N.mul_pos_pos; lia.
Qed.
Lemma mact_nz l m : StronglySorted (es_before io) l -> Forall es_wf l -> Forall not_z m ->
  forall x k y, valid_state l x -> mact l m x = Some (k, y) -> k <> zero.
Proof.
  intros S0 W F. induction F as [|g m NZ F IH]; intros x k y V E; cbn [mono_act] in E.
  - inversion E; subst. apply (one_nz so D sq half LL).
  - unfold obind in E. destruct (mact l m x) as [[c1 y1]|] eqn:E1; [|discriminate].
    destruct (gact l g y1) as [[c2 y2]|] eqn:E2; [|discriminate]. inversion E; subst k y.
    assert (V1 : valid_state l y1) by (eapply mono_act_valid; eauto).
    apply (mul_nz so D); [exact (IH x c1 y1 V E1)|exact (gact_nz l g y1 c2 y2 S0 W V1 NZ E2)].
Qed.

(** f does not turn a non-zero coefficient into a zero one *)
Definition keeps_nz (l : list es) (f : N -> S -> ares S) : Prop :=
  forall x c c' y, valid_state l x -> c <> zero -> f x c = AVal c' y -> c' <> zero.
Lemma keeps_of_impl l f m : StronglySorted (es_before io) l -> Forall es_wf l -> Forall not_z m -> impl l f m -> keeps_nz l f.
Proof.
  intros S0 W F H x c c' y V hc E. destruct (H x c V) as [[k [z [E1 E2]]]|[E1 _]]; rewrite E in *; [|discriminate].
  inversion E2; subst. apply (mul_nz so D); auto. eapply mact_nz; eauto.
Qed.
Lemma keeps_seq l f1 f2 m1 : StronglySorted (es_before io) l -> Forall es_wf l -> impl l f1 m1 -> keeps_nz l f1 -> keeps_nz l f2 ->
  keeps_nz l (fun x c => match f1 x c with AVal c' i => f2 i c' | r => r end).
Proof.
  intros S0 W H K1 K2 x c c' y V hc E. destruct (f1 x c) as [|c1 i|] eqn:E1; try discriminate.
  destruct (H x c V) as [[k [z [M E2]]]|[E2 _]]; rewrite E1 in E2; [|discriminate]. inversion E2; subst.
  assert (Vz : valid_state l z) by (eapply mono_act_valid; eauto).
  apply (K2 z _ c' y Vz (K1 x c _ z V hc E1) E).
Qed.
Lemma keeps_groups {U} l (f : U -> N -> S -> ares S) grps us : StronglySorted (es_before io) l -> Forall es_wf l ->
  Forall2 (fun gp u => impl l (f u) (grp gp) /\ keeps_nz l (f u)) grps us -> keeps_nz l (run_updates f (rev us)).
Proof.
  intros S0 W. induction 1 as [|gp u grps us [H K] F IH]; cbn [rev].
  - intros x c c' y V hc E. inversion E; subst. exact hc.
  - assert (A : impl l (run_updates f (rev us)) (concat (map grp grps))).
    { apply (implements_groups io Hio so L sq half); auto. eapply Forall2_weaken; [|exact F]. intros a b [h _]. exact h. }
    assert (K' : keeps_nz l (run_updates f [u])).
    { intros x c c' y V hc E. cbn [run_updates] in E. destruct (f u x c) as [|c1 i|] eqn:E1; try discriminate.
      inversion E; subst. exact (K x c _ _ V hc E1). }
    pose proof (keeps_seq l _ _ _ S0 W A IH K') as Q.
    intros x c c' y V hc E. rewrite run_updates_app in E. exact (Q x c c' y V hc E).
Qed.

Lemma spin_update_keeps l size gp u : StronglySorted (es_before io) l -> Forall es_wf l -> Forall int_mult l -> (total_bits l <= 63)%nat ->
  su_ok io l size gp u -> keeps_nz l (spin_update_act so sq half (N.min size 128) u).
Proof.
  intros S0 W IM B O. pose proof (spin_update_correct io Hio so L sq half (half_0 so sq half LL) l size gp u S0 W IM B O) as H.
  destruct O as [mult [c0 [i [k [e [Eg [St [hp1 [hs Eu]]]]]]]]].
  assert (cz : c0 <> Zcomp \/ c0 = Zcomp) by (destruct c0; [left; discriminate|left; discriminate|right; reflexivity]).
  destruct cz as [cz|cz].
  - eapply keeps_of_impl; [exact S0|exact W| |exact H]. unfold grp. apply Forall_forall. intros g hg. apply repeat_spec in hg.
    subst g. rewrite Eg. destruct c0; cbn; auto.
  - subst c0 u. intros x c c' y V hc. unfold spin_update_act. cbn [su_s2 su_shift su_mask su_c su_power].
    set (n := N.land _ _). set (s2 := N.of_nat mult - 1).
    destruct (N.even s2 && (n =? s2 / 2)) eqn:Ev; [discriminate|]. intros E.
    assert (c' = s_mul so c (spow so (half (2 * Z.of_N n - Z.of_N s2)%Z) (N.to_nat (snd gp)))) as -> by (inversion E; reflexivity).
    apply (mul_nz so D); auto. apply spow_nz, half_nonzero. intros Q.
    assert (Q2 : s2 = 2 * n) by (clear - Q; clearbody n s2; lia). rewrite Q2 in Ev.
    assert (T : N.even (2 * n) = true) by (apply N.even_spec; exists n; reflexivity).
    rewrite T in Ev. replace (2 * n) with (n * 2) in Ev by lia. rewrite N.div_mul, N.eqb_refl in Ev by lia. discriminate.
Qed.
Lemma spin_keeps (h : hspace I) m a : hs_inv io h -> Forall int_mult (spaces h) -> spin_make io h m = LOk a ->
  keeps_nz (spaces h) (spin_act so sq half a).
Proof.
  intros Hi IM E. pose proof Hi as [S0 [W [P [_ [B63 _]]]]]. unfold spin_make in E.
  pose proof (spin_loop_spec io Hio sq half h m Hi 1 0 [] ltac:(lia) ltac:(auto)) as BL. cbv zeta in BL.
  destruct (spin_loop io h m 1 0 []) as [[ups size]|g| |]; try discriminate; cbn [lbind] in E; inversion E; subst a; clear E.
  destruct BL as [grps [us [-> [hs [_ F]]]]]. cbn [app]. unfold spin_act; cbn [sa_updates sa_sqrt].
  destruct us as [|u us].
  { intros x c c' y V hc E. cbn in E. inversion E; subst. exact hc. }
  remember (u :: us) as us' eqn:Eus.
  apply (keeps_groups (spaces h) _ grps us'); auto.
  eapply Forall2_weaken; [|exact F]. intros gp v Hb. unfold max_sqrt. subst us'. split.
  - now apply (spin_update_correct io Hio so L sq half (half_0 so sq half LL)).
  - now apply (spin_update_keeps (spaces h) size gp).
Qed.

Lemma alg_not_z i m : (i = -3 \/ i = -2)%Z -> alg_all i m -> Forall not_z m.
Proof.
  intros hi F. eapply Forall_impl; [|exact F]. intros g hg. cbn beta in hg. destruct g as [d j|d j|mm c j]; cbn in *; auto.
  destruct c; auto. lia.
Qed.
Lemma mono_keeps (h : hspace I) m a : hs_inv io h -> hs_algs_ok h -> Forall int_mult (spaces h) ->
  canonical_mono io m -> mono_make io h [-3; -2; -1]%Z m = LOk a -> keeps_nz (spaces h) (mono_run so sq half a).
Proof.
  intros Hi HA IM C E. pose proof Hi as [S0 [W [P [_ [B63 _]]]]].
  destruct (canonical_split io Hio m C) as [mf [mb [ms [-> [F1 [F2 [F3 Sf]]]]]]].
  pose proof (mono_make_split io) as MMS; rewrite MMS in E by assumption; clear MMS. unfold three_parts in E.
  destruct (fermion_make io h mf) as [f| | |] eqn:Ef; try discriminate. cbn [lbind] in E.
  destruct (boson_make io h mb) as [b| | |] eqn:Eb; try discriminate. cbn [lbind] in E.
  destruct (spin_make io h ms) as [s| | |] eqn:Es; try discriminate. cbn [lbind] in E. inversion E; subst a; clear E.
  pose proof (fermion_correct io Hio so L sq half h mf f Hi HA Sf Ef) as If.
  pose proof (boson_correct io Hio so L sq half h mb b Hi Eb) as Ib.
  pose proof (keeps_of_impl (spaces h) _ mf S0 W (alg_not_z _ _ (or_introl eq_refl) F1) If) as Kf.
  pose proof (keeps_of_impl (spaces h) _ mb S0 W (alg_not_z _ _ (or_intror eq_refl) F2) Ib) as Kb.
  pose proof (keeps_seq (spaces h) _ _ _ S0 W If Kf Kb) as K2.
  pose proof (implements_seq io Hio so L sq half (spaces h) _ _ _ _ S0 W If Ib) as I2.
  pose proof (keeps_seq (spaces h) _ _ _ S0 W I2 K2 (spin_keeps h ms s Hi IM Es)) as K3.
  intros x c c' y V hc E. apply (K3 x c c' y V hc).
  unfold mono_run in E. cbn [run_updates single_act] in E. destruct (fermion_act so f x c) as [|c1 i1|]; auto.
  destruct (boson_act so sq b i1 c1) as [|c2 i2|]; auto. destruct (spin_act so sq half s i2 c2); auto.
Qed.

(** the operator made from e *)
Definition lop_keeps (l : list es) (Lp : lop S) : Prop := Forall (fun ac => keeps_nz l (mono_run so sq half (fst ac))) Lp.
Lemma lop_make_keeps (h : hspace I) e Lp : hs_inv io h -> hs_algs_ok h -> Forall int_mult (spaces h) ->
  (forall m c, In (m, c) e -> canonical_mono io m) -> make_loperator io e h = LOk Lp -> lop_keeps (spaces h) Lp.
Proof.
  intros Hi HA IM. unfold make_loperator. revert Lp. induction e as [|[m c] e IH]; intros Lp C E; cbn [lop_make] in E.
  - inversion E; subst. constructor.
  - destruct (mono_make io h [-3; -2; -1]%Z m) as [acts| | |] eqn:Em; try discriminate. cbn [lbind] in E.
    destruct (lop_make io h [-3; -2; -1]%Z e) as [Lt| | |] eqn:El; try discriminate. cbn [lbind] in E. inversion E; subst.
    constructor; [cbn [fst]; eapply mono_keeps; eauto; eapply C; left; reflexivity|].
    apply IH; auto. intros m' c' i. eapply C; right; eauto.
Qed.
End NZ.

(** ** Acting on a vector that has amplitudes for the states in [P] only; the condition concerns
    non-zero terms only (cf. ViewProofs.into) *)
Section Restrict.
Context {I S V : Type} (io : index_ops I) (Hio : index_order io).
Context (so : scalar_ops S) (D : scalar_domain so) (sq : N -> S) (half : Z -> S) (LL : lop_laws so sq half).
Let L := sd_laws _ D.
Context (sv : sv_ops V S) (ok : V -> Prop) (amp : V -> N -> S) (P : N -> Prop) (frame : V -> V -> Prop).
Context (Fr : forall v, frame v v) (Ft : forall u v w, frame u v -> frame v w -> frame u w).
Context (Hadd : forall v n x, ok v -> P n -> exists v', sv_add sv v n x = Some v' /\ ok v' /\ frame v v' /\
  forall y, P y -> amp v' y = if N.eqb n y then s_add so (amp v y) x else amp v y).
Notation mel := (mel io so sq half).

Definition into_nz (l : list (espace I)) (e : list (list (gen I) * S)) (x : N) : Prop :=
  forall m c y, In (m, c) e -> amp1 so (mono_act io so sq half l m x) y <> s_zero so -> P y.

Lemma act_monos_nz l e Lp : lop_impl io so sq half l e Lp -> lop_keeps so sq half l Lp ->
  forall x a dst, valid_state l x -> into_nz l e x -> ok dst ->
  exists dst', act_monos so sq half sv Lp x a dst = Some dst' /\ ok dst' /\ frame dst dst' /\
    forall y, P y -> amp dst' y = s_add so (amp dst y) (s_mul so (mel l e y x) a).
Proof.
  induction 1 as [|[m c] [acts c'] e Lp [Hm Hc] F IH]; intros K x a dst V0 T O; cbn [act_monos].
  - exists dst. repeat split; auto. intros y _. cbn. now rewrite (mul_0_l so L), (sadd_0_r so L).
  - cbn [fst snd] in *. subst c'. inversion K as [|? ? K1 K2]; subst. cbn [fst] in K1.
    assert (T' : into_nz l e x) by (intros m' c' y i E; apply (T m' c' y); [right; exact i|exact E]).
    destruct (Hm x (s_one so) V0) as [[k [z [E1 E2]]]|[E1 E2]].
    + pose proof (K1 x (s_one so) _ z V0 (one_nz so D sq half LL) E2) as kn. rewrite (sl_mul_1_l so L) in kn.
      rewrite E2. rewrite (sl_mul_1_l so L).
      assert (Dz : P z). { apply (T m c z); [left; reflexivity|]. rewrite E1. cbn. now rewrite N.eqb_refl. }
      destruct (Hadd dst z (s_mul so (s_mul so c k) a) O Dz) as [d1 [-> [O1 [Z1 A1]]]].
      destruct (IH K2 x a d1 V0 T' O1) as [d2 [-> [O2 [Z2 A2]]]].
      exists d2. repeat split; auto; [exact (Ft _ _ _ Z1 Z2)|]. intros y Dy. rewrite A2, A1 by auto. cbn [LOpSpec.mel]. rewrite E1. cbn [amp1].
      rewrite (sl_dist_r so L), (sl_add_assoc so L). f_equal.
      destruct (N.eqb_spec z y); auto. rewrite (mul_0_r so L), (mul_0_l so L), (sadd_0_r so L). reflexivity.
    + rewrite E1. destruct (IH K2 x a dst V0 T' O) as [d2 [-> [O2 [Z2 A2]]]].
      exists d2. repeat split; auto. intros y Dy. rewrite A2 by auto. cbn [LOpSpec.mel]. rewrite (E2 y).
      now rewrite (mul_0_r so L), (sl_add_0 so L).
Qed.
Lemma act_entries_nz l e Lp : lop_impl io so sq half l e Lp -> lop_keeps so sq half l Lp ->
  forall ent dst, Forall (fun p => valid_state l (fst p) /\ into_nz l e (fst p)) ent -> ok dst ->
  exists dst', act_entries so sq half sv Lp ent dst = Some dst' /\ ok dst' /\ frame dst dst' /\
    forall y, P y -> amp dst' y = s_add so (amp dst y) (esum so (mel l e y) ent).
Proof.
  intros HL K. induction ent as [|[x a] ent IH]; intros dst F O; cbn [act_entries].
  - exists dst. repeat split; auto. intros y _. cbn. now rewrite (sadd_0_r so L).
  - inversion F as [|? ? [Vx Tx] F']; subst. cbn [fst] in Vx, Tx.
    destruct (act_monos_nz l e Lp HL K x a dst Vx Tx O) as [d1 [-> [O1 [Z1 A1]]]].
    destruct (IH d1 F' O1) as [d2 [-> [O2 [Z2 A2]]]].
    exists d2. repeat split; auto; [exact (Ft _ _ _ Z1 Z2)|]. intros y Dy. rewrite A2, A1 by auto. cbn [esum]. now rewrite (sl_add_assoc so L).
Qed.
End Restrict.

Section MappedDest.
Context {I S V : Type} (io : index_ops I) (Hio : index_order io).
Context (so : scalar_ops S) (D : scalar_domain so) (sq : N -> S) (half : Z -> S) (LL : lop_laws so sq half).
Let L := sd_laws _ D.
Context (sv : sv_ops V S) (ok : V -> Prop) (amp : V -> N -> S) (size : V -> N) (SV : sv_laws so sv ok amp size).
Context (m : imap) (ND : NoDup (map fst m)) (NV : NoDup (map snd m)).
Lemma mapped_entries_nz l e Lp ent v : lop_impl io so sq half l e Lp -> lop_keeps so sq half l Lp -> ok v -> map_fits size m v ->
  Forall (fun p => valid_state l (fst p) /\ into_nz io so sq half (fun y => In y (map fst m)) l e (fst p)) ent ->
  exists w, act_entries so sq half (mapped_sv so sv m) Lp ent (Live v) = Some (Live w) /\ ok w /\ size w = size v /\
    (forall k, ~ In k (map snd m) -> amp w k = amp v k) /\
    forall y, In y (map fst m) -> view_amp so amp m w y = s_add so (view_amp so amp m v y) (esum so (mel io so sq half l e y) ent).
Proof.
  intros LI K O B F.
  destruct (act_entries_nz io so D sq half LL (mapped_sv so sv m) (live_ok ok size m) (fun s => view_amp so amp m (vs_vec s))
      (fun y => In y (map fst m)) (mframe amp size m)) with (l := l) (e := e) (Lp := Lp) (ent := ent) (dst := Live v)
    as [w [E [[w' [-> [Ow _]]] [[F1 F2] A]]]]; auto.
  - intros s. split; auto.
  - intros s1 s2 s3 [A1 A2] [B1 B2]. split; [congruence|]. intros k nk. rewrite B2, A2; auto.
  - intros s n x [v0 [-> [O0 B0]]] i. destruct (mv_add_live so sv ok amp size SV m ND NV v0 n x O0 B0 i) as [v' [E [O' [B' [Fm A]]]]].
    exists (Live v'). split; auto. split; [exists v'; auto|]. split; auto.
  - exists v. auto.
  - exists w'. cbn [vs_vec] in *. repeat split; auto.
Qed.
End MappedDest.
