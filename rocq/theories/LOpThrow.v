(** When the construction of a linear operator throws. *)
From Coq Require Import NArith ZArith List Bool Sorted Permutation Lia.
From Verif Require Import BitsModel BitsSpec BitsProofs ExprModel ExprSpec ExprOrder HSModel HSSpec HSEnum
  HSProofs HSMain PropHS LOpModel LOpSpec LOpFermion LOpSite LOpActF LOpActB LOpActS LOpComm.
Import ListNotations.
Open Scope N_scope.
Open Scope list_scope.

Section Throw.
Context {I : Type} (io : index_ops I) (Hio : index_order io).
Notation es := (espace I).

Lemma forall2_all {A B} (P : A -> B -> Prop) (Q : A -> Prop) a b : (forall x y, P x y -> Q x) -> Forall2 P a b -> Forall Q a.
Proof. intros H. induction 1; constructor; eauto. Qed.
Lemma site_known (l : list es) g k e : site io l g k e -> known io l g.
Proof. intros [E C]. exists e. split; auto. eapply nth_error_In; eauto. Qed.

Lemma fermion_make_spec (h : hspace I) m : hs_inv io h -> hs_algs_ok h -> alg_all (-3) m ->
  match fermion_make io h m with
  | LOk _ => Forall (known io (spaces h)) m
  | LUnknown g => In g m /\ ~ known io (spaces h) g
  | _ => False
  end.
Proof.
  intros Hi HA FA. pose proof Hi as [S0 [W [P [_ [B63 _]]]]].
  destruct m as [|g0 m0]; [cbn; constructor|].
  remember (g0 :: m0) as m eqn:Em. unfold fermion_make. rewrite Em. rewrite <- Em.
  pose proof (fermion_loop_spec io Hio (fun _ => 0) (fun _ => 0) h m Hi [] [] 0 0 [] [] ltac:(intros i; apply N.bits_0) ltac:(intros i; apply N.bits_0) eq_refl eq_refl) as FL.
  destruct (fermion_loop io h m [] [] 0 0) as [[[[cs' an'] cm'] am']|g| |]; cbn [lbind]; auto.
  - destruct FL as [pm [F2 _]].
    assert (FK : Forall (known io (spaces h)) m).
    { eapply forall2_all; [|exact F2]. intros g dp H. destruct (fsite_site io Hio _ _ _ H) as [k [i [St _]]]. eapply site_known; eauto. }
    unfold hs_algebra_bit_range. rewrite (HA (-3)%Z).
    destruct (seg (-3) (spaces h) 0) as [[lo hi]|] eqn:Es; auto.
    exfalso. rewrite Em in F2. inversion F2 as [|? ? ? ? H]; subst. destruct H as [i [k [E1 [E2 E3]]]].
    apply (proj1 (seg_none (-3) (spaces h) 0) Es); exists (ESFermion i); split; [exact (nth_error_In _ _ E2)|reflexivity].
  - destruct FL as [i [C|C]]; auto. exfalso. unfold alg_all in FA. rewrite Forall_forall in FA. specialize (FA g i). destruct g; cbn in *; discriminate.
Qed.

(** the bosons of a monomial after which the constructor stops: the run of
    equal generators reaches the dimension of its space *)
Definition boson_overflow (l : list es) (a : list (gen I)) (g : gen I) (p : N) : Prop :=
  Forall (known io l) a /\ exists e, In e l /\ carries io g e = true /\ es_dim e <= p.

Lemma boson_make_spec (h : hspace I) m : hs_inv io h -> alg_all (-2) m ->
  match boson_make io h m with
  | LOk _ => Forall (known io (spaces h)) m \/
      exists a g p rest, m = a ++ repeat g (N.to_nat p) ++ rest /\ boson_overflow (spaces h) a g p
  | LUnknown g => In g m /\ ~ known io (spaces h) g
  | _ => False
  end.
Proof.
  intros Hi FA. unfold boson_make.
  pose proof (boson_loop_spec io Hio (fun _ => 0) (fun _ => 0) h m Hi 1 0 [] ltac:(lia) ltac:(auto)) as BL. cbv zeta in BL.
  rewrite pre_1 in BL. cbn [app] in BL.
  destruct (boson_loop io h m 1 0 []) as [[[ups size] [|]]|g| |]; cbn [lbind]; auto.
  - right. destruct BL as [a [d [i [p [k [e [rest [E [St [hp [h1 F]]]]]]]]]]]. exists a, (GBoson d i), p, rest. split; auto. split.
    + eapply Forall_impl; [|exact F]. cbn. tauto.
    + exists e. split; [eapply nth_error_In; apply St|]. split; [apply St|]. lia.
  - left. destruct BL as [grps [us [_ [_ [E F]]]]]. rewrite E. clear E. induction F as [|gp u grps us H F IH]; cbn [map concat]; [constructor|].
    apply Forall_app. split; auto. destruct H as [d [i [k [e [Eg [St _]]]]]]. unfold grp. rewrite Forall_forall. intros x hx.
    apply repeat_spec in hx. subst x. eapply site_known; eauto.
  - destruct BL as [i [C|C]]; auto. exfalso. unfold alg_all in FA. rewrite Forall_forall in FA. specialize (FA g i). destruct g; cbn in *; discriminate.
Qed.

Lemma spin_make_spec (h : hspace I) m : hs_inv io h -> alg_all (-1) m ->
  match spin_make io h m with
  | LOk _ => Forall (known io (spaces h)) m
  | LUnknown g => In g m /\ ~ known io (spaces h) g
  | _ => False
  end.
Proof.
  intros Hi FA. unfold spin_make.
  pose proof (spin_loop_spec io Hio (fun _ => 0) (fun _ => 0) h m Hi 1 0 [] ltac:(lia) ltac:(auto)) as BL. cbv zeta in BL.
  rewrite pre_1 in BL. cbn [app] in BL.
  destruct (spin_loop io h m 1 0 []) as [[ups size]|g| |]; cbn [lbind]; auto.
  - destruct BL as [grps [us [_ [_ [E F]]]]]. rewrite E. clear E. induction F as [|gp u grps us H F IH]; cbn [map concat]; [constructor|].
    apply Forall_app. split; auto. destruct H as [mu [c [i [k [e [Eg [St _]]]]]]]. unfold grp. rewrite Forall_forall. intros x hx.
    apply repeat_spec in hx. subst x. eapply site_known; eauto.
  - destruct BL as [i [C|C]]; auto. exfalso. unfold alg_all in FA. rewrite Forall_forall in FA. specialize (FA g i). destruct g; cbn in *; discriminate.
Qed.

Theorem mono_make_spec (h : hspace I) m : hs_inv io h -> hs_algs_ok h -> canonical_mono io m ->
  match mono_make io h [-3; -2; -1]%Z m with
  | LOk _ => Forall (known io (spaces h)) m \/
      (exists a g p rest, m = a ++ repeat g (N.to_nat p) ++ rest /\ boson_overflow (spaces h) a g p /\ is_b g = true /\
       Forall (fun g => is_b g = true \/ known io (spaces h) g) rest)
  | LUnknown g => In g m /\ ~ known io (spaces h) g
  | _ => False
  end.
Proof.
  intros Hi HA C. destruct (canonical_split io Hio m C) as [mf [mb [ms [-> [F1 [F2 [F3 Sf]]]]]]].
  rewrite (mono_make_split io h mf mb ms F1 F2 F3). unfold three_parts.
  pose proof (fermion_make_spec h mf Hi HA F1) as Qf.
  destruct (fermion_make io h mf) as [f|g| |]; cbn [lbind]; auto; [|rewrite in_app_iff; tauto].
  pose proof (boson_make_spec h mb Hi F2) as Qb.
  destruct (boson_make io h mb) as [b|g| |]; cbn [lbind]; auto; [|rewrite !in_app_iff; tauto].
  pose proof (spin_make_spec h ms Hi F3) as Qs.
  destruct (spin_make io h ms) as [s|g| |]; cbn [lbind]; auto; [|rewrite !in_app_iff; tauto].
  destruct Qb as [Qb|[a [g [p [rest [E [Q1 [e [Q2 [Q3 Q4]]]]]]]]]].
  - left. rewrite !Forall_app. auto.
  - right. exists (mf ++ a), g, p, (rest ++ ms). subst mb.
    assert (hp : (N.to_nat p <> 0)%nat).
    { destruct Hi as [_ [W _]]. rewrite Forall_forall in W. specialize (W e Q2). pose proof (wf_dim e W). lia. }
    split; [now rewrite <- !app_assoc|]. split; [split|split].
    + rewrite Forall_app. auto.
    + exists e. auto.
    + unfold alg_all in F2. rewrite !Forall_app in F2. destruct F2 as [_ [F2 _]].
      destruct (N.to_nat p) as [|n]; [lia|]. cbn [repeat] in F2. inversion F2; subst. destruct g; cbn in *; auto; discriminate.
    + rewrite Forall_app. split.
      * unfold alg_all in F2. rewrite !Forall_app in F2. destruct F2 as [_ [_ F2]]. eapply Forall_impl; [|exact F2].
        intros x hx. left. destruct x; cbn in *; auto; discriminate.
      * eapply Forall_impl; [|exact Qs]. auto.
Qed.

Theorem lop_make_spec {C} (h : hspace I) (e : list (list (gen I) * C)) : hs_inv io h -> hs_algs_ok h ->
  (forall m c, In (m, c) e -> canonical_mono io m) ->
  match make_loperator io e h with
  | LOk _ => forall m c, In (m, c) e -> exists a, mono_make io h [-3; -2; -1]%Z m = LOk a
  | LUnknown g => exists m c, In (m, c) e /\ In g m /\ ~ known io (spaces h) g
  | _ => False
  end.
Proof.
  intros Hi HA. unfold make_loperator. induction e as [|[m c] e IH]; intros Cn; cbn [lop_make]; [intros m c []|].
  pose proof (mono_make_spec h m Hi HA (Cn m c (or_introl eq_refl))) as Q.
  destruct (mono_make io h [-3; -2; -1]%Z m) as [a|g| |] eqn:Em; cbn [lbind]; auto.
  - specialize (IH (fun m c i => Cn m c (or_intror i))).
    destruct (lop_make io h [-3; -2; -1]%Z e) as [l|g| |]; cbn [lbind]; auto.
    + intros m' c' [E|i]; [inversion E; subst; eauto|eauto].
    + destruct IH as [m' [c' [i Q']]]. exists m', c'. cbn; auto.
  - exists m, c. cbn; auto.
Qed.
End Throw.
