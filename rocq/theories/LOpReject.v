(** Exactly when the construction of a linear operator throws. *)
From Coq Require Import NArith ZArith List Bool Sorted Permutation Lia.
From Verif Require Import BitsModel BitsSpec BitsProofs ExprModel ExprSpec ExprOrder HSModel HSSpec HSEnum
  HSProofs HSMain PropHS LOpModel LOpSpec LOpFermion LOpSite LOpActF LOpActB LOpActS LOpComm LOpThrow.
Import ListNotations.
Open Scope N_scope.
Open Scope list_scope.

(** Specification.  A monomial is identically zero on the space because of a
    block of p equal boson generators, p being at least the dimension of the
    truncated boson. *)
Definition vanishing_block {I} (io : index_ops I) (l : list (espace I)) (a : list (gen I)) : Prop :=
  exists a1 d i p a2 e, a = a1 ++ repeat (GBoson d i) p ++ a2 /\ In e l /\ carries io (GBoson d i) e = true /\
    es_dim e <= N.of_nat p.
(** a generator of the monomial the space does not know, and, if it is a boson,
    that is not preceded by such a block *)
Definition rejected {I} (io : index_ops I) (l : list (espace I)) (m : list (gen I)) (g : gen I) : Prop :=
  exists a r, m = a ++ g :: r /\ ~ known io l g /\
    (algebra_id g = (-2)%Z -> ~ vanishing_block io l a).

Section Reject.
Context {I : Type} (io : index_ops I) (Hio : index_order io).
Notation es := (espace I).

Lemma app_split {A} (a b c d : list A) : a ++ b = c ++ d ->
  (exists x, c = a ++ x /\ b = x ++ d) \/ (exists x, a = c ++ x /\ d = x ++ b).
Proof.
  revert c. induction a as [|h t IH]; intros [|h' t']; cbn; intros E.
  - left. now exists [].
  - left. exists (h' :: t'). auto.
  - right. exists (h :: t). cbn. auto.
  - inversion E; subst. destruct (IH _ H1) as [[x [-> ->]]|[x [-> ->]]]; [left|right]; exists x; auto.
Qed.
Lemma repeat_app_inv {A} (g : A) p a b : repeat g p = a ++ b -> a = repeat g (length a) /\ b = repeat g (length b) /\ (length a + length b)%nat = p.
Proof.
  intros E. assert (F : Forall (eq g) (a ++ b)) by (rewrite <- E; apply Forall_forall; intros x hx; apply repeat_spec in hx; auto).
  apply Forall_app in F. destruct F as [Fa Fb]. split; [|split].
  - clear - Fa. induction Fa; cbn; [auto|congruence].
  - clear - Fb. induction Fb; cbn; [auto|congruence].
  - rewrite <- app_length, <- E, repeat_length. auto.
Qed.

Lemma last_hd g (t : list (gen I)) : last_of_run io g t = true -> forall t', t <> g :: t'.
Proof.
  intros H t' ->. cbn in H. rewrite (proj2 (gen_eqb_eq io Hio g g) eq_refl) in H. discriminate.
Qed.

(** a block of [g] that is too short, in front of a list not starting with [g]
    and containing no block *)
Lemma block_glue (l : list es) d i k e q a : StronglySorted (es_before io) l -> site io l (GBoson d i) k e -> N.of_nat q < es_dim e -> Forall es_wf l ->
  (forall a', a <> GBoson d i :: a') ->
  ~ vanishing_block io l a -> ~ vanishing_block io l (repeat (GBoson d i) q ++ a).
Proof.
  intros S0 St hq W hd nv (a1 & d' & i' & p & a2 & e' & E & He & C & hp).
  assert (hp1 : (0 < p)%nat).
  { rewrite Forall_forall in W. pose proof (wf_dim _ (W e' He)). lia. }
  destruct (app_split _ _ _ _ E) as [[x [-> E2]]|[x [E1 E2]]].
  - apply nv. exists x, d', i', p, a2, e'. auto.
  - (* the block starts within the repetition *)
    apply repeat_app_inv in E1. destruct E1 as [_ [Ex El]].
    destruct (app_split _ _ _ _ E2) as [[y [Ey E3]]|[y [Ey E3]]].
    + (* it ends within the repetition *)
      rewrite Ey in Ex. symmetry in Ex. apply repeat_app_inv in Ex. destruct Ex as [Er [_ El2]]. rewrite repeat_length in Er.
      destruct p as [|p]; [lia|]. cbn in Er. injection Er as -> -> _.
      assert (e' = e).
      { destruct (In_nth_error _ _ He) as [k' Ek]. eapply (site_unique io Hio l (GBoson d i) k' e' k e); eauto. now split. }
      subst e'. rewrite repeat_length in El2. rewrite Ey, app_length, repeat_length in El. lia.
    + destruct y as [|y0 y].
      * rewrite app_nil_r in Ey.
        rewrite <- Ey in Ex, El. destruct p as [|p]; [lia|]. cbn in Ex. injection Ex as -> -> _.
        assert (e' = e).
        { destruct (In_nth_error _ _ He) as [k' Ek]. eapply (site_unique io Hio l (GBoson d i) k' e' k e); eauto. now split. }
        subst e'. cbn [repeat length] in El. rewrite repeat_length in El. lia.
      * apply repeat_app_inv in Ey. destruct Ey as [Ey1 [Ey2 Ey3]]. cbn [length repeat] in Ey2. inversion Ey2; subst y0.
        destruct x as [|x0 x].
        -- cbn [app] in E2. cbn [length] in Ey3. apply nv. exists [], d', i', p, a2, e'. split; [|auto].
           cbn [app]. destruct p as [|p]; [lia|]. rewrite E3. cbn [repeat app]. f_equal. cbn [length] in Ey3. inversion Ey3. rewrite H1 at 1. reflexivity.
        -- cbn [length repeat] in Ex, Ey1. eapply hd. rewrite E3. cbn [app]. f_equal. congruence.
Qed.

Lemma no_block_nil (l : list es) : Forall es_wf l -> ~ vanishing_block io l [].
Proof.
  intros W (a1 & d' & i' & p & a2 & e' & E & He & C & hp).
  assert (hp1 : (0 < p)%nat) by (rewrite Forall_forall in W; pose proof (wf_dim _ (W e' He)); lia).
  destruct a1; [|discriminate]. destruct p; [lia|discriminate].
Qed.
Lemma no_block_unknown (l : list es) g q : Forall es_wf l -> ~ known io l g -> ~ vanishing_block io l (repeat g q).
Proof.
  intros W nk (a1 & d' & i' & p & a2 & e' & E & He & C & hp).
  assert (hp1 : (0 < p)%nat) by (rewrite Forall_forall in W; pose proof (wf_dim _ (W e' He)); lia).
  assert (HI : In (GBoson d' i') (repeat g q)) by (rewrite E, !in_app_iff; right; left; destruct p; [lia|now left]).
  apply repeat_spec in HI. subst g. apply nk. exists e'. auto.
Qed.

Lemma boson_loop_reject (h : hspace I) m : hs_inv io h -> alg_all (-2) m -> forall power size ups g, 1 <= power ->
  boson_loop io h m power size ups = LUnknown g ->
  exists a r, pre power m ++ m = a ++ g :: r /\ ~ known io (spaces h) g /\ ~ vanishing_block io (spaces h) a.
Proof.
  intros Hi. pose proof Hi as [S0 [W _]].
  induction m as [|g0 t IH]; intros FA power size ups g hp E; cbn [boson_loop] in E; [discriminate|].
  inversion FA as [|? ? F0 Ft]; subst. destruct g0 as [d i|d i|mm c i]; try (cbn in F0; discriminate).
  destruct (last_of_run io (GBoson d i) t) eqn:LR.
  - rewrite (pre_last io (fun _ => 0) (fun _ => 0) _ _ _ hp LR).
    pose proof (site_model io Hio h (GBoson d i) Hi) as SM. cbn [gslot] in SM.
    destruct (find_site io (spaces h) 0 (GBoson d i)) as [[o e]|] eqn:FS.
    + destruct SM as [E1 [E2 [k [St Eo]]]]. rewrite E1, E2 in E.
      assert (we : es_wf e) by (rewrite Forall_forall in W; apply W; eapply nth_error_In; apply St).
      assert (SB : sub64 (es_dim e) 1 = es_dim e - 1).
      { pose proof (wf_dim _ we). apply sub64_ge; [|lia]. unfold u64. apply (N.le_lt_trans _ (2 ^ N.of_nat 63)); [|reflexivity].
        apply dim_bits; auto.
        pose proof (offset_S _ _ _ (proj1 St)). pose proof (offset_total (spaces h) (Datatypes.S k)). destruct Hi as [_ [_ [_ [_ [B63 _]]]]]. lia. }
      rewrite SB in E.
      destruct (N.ltb_spec (es_dim e - 1) power) as [hv|hv]; [discriminate|].
      apply IH in E; auto; [|lia]. rewrite pre_1 in E. cbn [app] in E. destruct E as [a [r [Et [nk nv]]]].
      exists (repeat (GBoson d i) (N.to_nat power) ++ a), r. split; [rewrite Et; now rewrite <- app_assoc|]. split; auto.
      eapply block_glue; eauto.
      * pose proof (wf_dim _ we). lia.
      * intros a' ->. cbn [app] in Et. eapply last_hd; eauto.
    + destruct SM as [E1 _]. rewrite E1 in E. inversion E; subst.
      assert (nk : ~ known io (spaces h) (GBoson d i)).
      { intros [e [he C]]. pose proof (find_site_gen io (spaces h) (GBoson d i) 0) as F. rewrite FS in F. rewrite (F _ he) in C. discriminate. }
      exists (repeat (GBoson d i) (N.to_nat power - 1)), t. split; [|split; [exact nk|]].
      * replace (N.to_nat power) with ((N.to_nat power - 1) + 1)%nat at 1 by lia. rewrite repeat_app, <- app_assoc. reflexivity.
      * apply no_block_unknown; auto.
  - rewrite (pre_more io Hio (fun _ => 0) (fun _ => 0) _ _ _ hp LR). apply IH in E; auto. lia.
Qed.

Lemma boson_make_reject (h : hspace I) m : hs_inv io h -> alg_all (-2) m ->
  match boson_make io h m with
  | LOk _ => forall a g r, m = a ++ g :: r -> ~ known io (spaces h) g -> vanishing_block io (spaces h) a
  | LUnknown g => exists a r, m = a ++ g :: r /\ ~ known io (spaces h) g /\ ~ vanishing_block io (spaces h) a
  | _ => False
  end.
Proof.
  intros Hi FA. pose proof (boson_make_spec io Hio h m Hi FA) as Q.
  destruct (boson_make io h m) as [b|g| |] eqn:E; auto.
  - intros a g r -> nk. destruct Q as [Q|[a1 [g1 [p [rest [E1 [Q1 [e [Q2 [Q3 Q4]]]]]]]]]].
    + exfalso. apply nk. rewrite Forall_forall in Q. apply Q. rewrite in_app_iff; right; now left.
    + assert (kg1 : known io (spaces h) g1) by (exists e; auto).
      destruct (app_split _ _ _ _ E1) as [[x [-> E2]]|[x [-> E2]]].
      * exfalso. destruct x as [|x0 x].
        -- cbn [app] in E2. destruct (N.to_nat p) as [|n] eqn:Ep.
           ++ destruct Hi as [_ [W _]]. rewrite Forall_forall in W. pose proof (wf_dim _ (W e Q2)). lia.
           ++ cbn in E2. inversion E2; subst. auto.
        -- cbn in E2. inversion E2; subst. rewrite Forall_forall in Q1. apply nk, Q1. rewrite in_app_iff; right; now left.
      * assert (VB : forall y, x = repeat g1 (N.to_nat p) ++ y -> vanishing_block io (spaces h) (a1 ++ x)).
        { intros y ->. assert (Hb : exists d i, g1 = GBoson d i).
          { destruct (N.to_nat p) as [|n] eqn:Ep; [destruct Hi as [_ [W _]]; rewrite Forall_forall in W; pose proof (wf_dim _ (W e Q2)); lia|].
            unfold alg_all in FA. rewrite Forall_forall in FA. specialize (FA g1). rewrite !in_app_iff in FA. cbn [repeat] in FA.
            assert (A : algebra_id g1 = (-2)%Z) by (apply FA; left; right; left; now left).
            destruct g1; cbn in A; try discriminate; eauto. }
          destruct Hb as [d [i ->]]. exists a1, d, i, (N.to_nat p), y, e. repeat split; auto. lia. }
        destruct (app_split _ _ _ _ E2) as [[y [Ey E3]]|[y [Ey E3]]]; [now apply (VB y)|].
        destruct y as [|y0 y].
        -- apply (VB []). rewrite Ey, !app_nil_r. reflexivity.
        -- exfalso. cbn in E3. inversion E3; subst. apply nk. assert (y0 = g1).
           { apply (repeat_spec (N.to_nat p)). rewrite Ey, in_app_iff. right; now left. }
           subst; auto.
  - unfold boson_make in E. destruct (boson_loop io h m 1 0 []) as [[[ups size] v]|g'| |] eqn:EL; cbn [lbind] in E; try discriminate.
    inversion E; subst. apply boson_loop_reject in EL; auto; [|lia]. now rewrite pre_1 in EL.
Qed.

(** blocks of bosons in f ++ b, with no boson in f *)
Lemma block_skip (l : list es) f b : Forall es_wf l -> Forall (fun g => algebra_id g <> (-2)%Z) f ->
  (vanishing_block io l (f ++ b) <-> vanishing_block io l b).
Proof.
  intros W F. split.
  - intros (a1 & d' & i' & p & a2 & e' & E & He & C & hp).
    assert (hp1 : (0 < p)%nat) by (rewrite Forall_forall in W; pose proof (wf_dim _ (W e' He)); lia).
    destruct (app_split _ _ _ _ E) as [[x [-> E2]]|[x [-> E2]]].
    + exists x, d', i', p, a2, e'. auto.
    + apply Forall_app in F. destruct F as [_ F]. destruct p as [|p]; [lia|]. destruct x as [|x0 x].
      * cbn [app] in E2. exists [], d', i', (Datatypes.S p), a2, e'. auto.
      * cbn in E2. inversion E2; subst. inversion F; subst. cbn in *. congruence.
  - intros (a1 & d' & i' & p & a2 & e' & -> & R). exists (f ++ a1), d', i', p, a2, e'. rewrite <- !app_assoc. auto.
Qed.

Lemma mono_make_reject (h : hspace I) m : hs_inv io h -> hs_algs_ok h -> canonical_mono io m ->
  match mono_make io h [-3; -2; -1]%Z m with
  | LOk _ => forall g, ~ rejected io (spaces h) m g
  | LUnknown g => rejected io (spaces h) m g
  | _ => False
  end.
Proof.
  intros Hi HA C. destruct (canonical_split io Hio m C) as [mf [mb [ms [-> [F1 [F2 [F3 Sf]]]]]]].
  rewrite (mono_make_split io h mf mb ms F1 F2 F3). unfold three_parts.
  assert (W : Forall es_wf (spaces h)) by apply Hi.
  pose proof (fermion_make_spec io Hio h mf Hi HA F1) as Qf.
  unfold alg_all in F1, F2, F3.
  assert (NF : Forall (fun g => algebra_id g <> (-2)%Z) mf) by (eapply Forall_impl; [|exact F1]; cbn; intros; lia).
  assert (NS : Forall (fun g => algebra_id g <> (-2)%Z) ms) by (eapply Forall_impl; [|exact F3]; cbn; intros; lia).
  destruct (fermion_make io h mf) as [f|g| |]; cbn [lbind]; auto.
  2: { destruct Qf as [hi nk]. destruct (in_split _ _ hi) as [a [r E]]. exists a, (r ++ mb ++ ms).
       split; [rewrite E, <- app_assoc; reflexivity|]. split; auto. intros A. exfalso. rewrite Forall_forall in NF. now apply (NF g). }
  pose proof (boson_make_reject h mb Hi F2) as Qb.
  destruct (boson_make io h mb) as [b|g| |]; cbn [lbind]; auto.
  2: { destruct Qb as [a [r [E [nk nv]]]]. exists (mf ++ a), (r ++ ms).
       split; [rewrite E, <- !app_assoc; reflexivity|]. split; auto. intros _. now rewrite block_skip. }
  pose proof (spin_make_spec io Hio h ms Hi F3) as Qs.
  destruct (spin_make io h ms) as [s|g| |]; cbn [lbind]; auto.
  2: { destruct Qs as [hi nk]. destruct (in_split _ _ hi) as [a [r E]]. exists (mf ++ mb ++ a), r.
       split; [rewrite E, <- !app_assoc; reflexivity|]. split; auto. intros A. exfalso. rewrite Forall_forall in NS. now apply (NS g). }
  intros g (a & r & E & nk & nv). destruct (app_split _ _ _ _ E) as [[x [-> E2]]|[x [-> E2]]].
  - destruct (app_split _ _ _ _ E2) as [[y [-> E3]]|[y [-> E3]]].
    + apply nk. rewrite Forall_forall in Qs. apply Qs. rewrite E3, in_app_iff. right; now left.
    + destruct y as [|y0 y].
      * cbn [app] in E3. apply nk. rewrite Forall_forall in Qs. apply Qs. rewrite <- E3. now left.
      * cbn in E3. inversion E3; subst. apply nv.
        -- rewrite Forall_forall in F2. apply F2. rewrite in_app_iff; right; now left.
        -- rewrite block_skip by auto. eapply Qb; eauto.
  - destruct x as [|x0 x].
    + cbn [app] in E2. destruct mb as [|b0 mb].
      * cbn [app] in E2. apply nk. rewrite Forall_forall in Qs. apply Qs. rewrite <- E2. now left.
      * cbn in E2. inversion E2; subst. apply nv; [inversion F2; auto|]. rewrite app_nil_r in NF.
        apply (block_skip (spaces h) a []) in NF; auto. rewrite app_nil_r in NF. apply NF. eapply (Qb []); eauto. reflexivity.
    + cbn in E2. inversion E2; subst. apply nk. rewrite Forall_forall in Qf. apply Qf. rewrite in_app_iff; right; now left.
Qed.

Lemma lop_make_reject {C} (h : hspace I) (e : list (list (gen I) * C)) : hs_inv io h -> hs_algs_ok h ->
  (forall m c, In (m, c) e -> canonical_mono io m) ->
  match make_loperator io e h with
  | LOk _ => forall m c g, In (m, c) e -> ~ rejected io (spaces h) m g
  | LUnknown g => exists m c, In (m, c) e /\ rejected io (spaces h) m g
  | _ => False
  end.
Proof.
  intros Hi HA. unfold make_loperator. induction e as [|[m c] e IH]; intros Cn; cbn [lop_make]; [intros m c g []|].
  pose proof (mono_make_reject h m Hi HA (Cn m c (or_introl eq_refl))) as Q.
  destruct (mono_make io h [-3; -2; -1]%Z m) as [a|g| |] eqn:Em; cbn [lbind]; auto.
  - specialize (IH (fun m c i => Cn m c (or_intror i))).
    destruct (lop_make io h [-3; -2; -1]%Z e) as [l|g| |]; cbn [lbind]; auto.
    + intros m' c' g' [E|i]; [inversion E; subst; eauto|eauto].
    + destruct IH as [m' [c' [i Q']]]. exists m', c'. cbn; auto.
  - exists m, c. cbn; auto.
Qed.
End Reject.
