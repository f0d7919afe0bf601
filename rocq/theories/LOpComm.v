(** Generators of different degrees of freedom commute; the action of a whole
    monomial. *)
From Coq Require Import NArith ZArith List Bool Sorted Permutation Lia.
From Verif Require Import BitsModel BitsSpec BitsProofs ExprModel ExprSpec ExprOrder HSModel HSSpec HSEnum
  HSProofs HSMain PropHS LOpModel LOpSpec LOpFermion LOpSite LOpActF LOpActB LOpActS.
Import ListNotations.
Open Scope N_scope.
Open Scope list_scope.

Section Comm.
Context {I S : Type} (io : index_ops I) (Hio : index_order io).
Context (so : scalar_ops S) (L : scalar_laws so) (sq : N -> S) (half : Z -> S).
Context (MC : forall x y, s_mul so x y = s_mul so y x).
Notation es := (espace I).
Notation gact := (gen_act io so sq half).
Notation mact := (mono_act io so sq half).
Notation bnd := (obind so).
Context (l : list es) (S0 : StronglySorted (es_before io) l) (W : Forall es_wf l).

Lemma obind_None_r o : bnd o (fun _ => None) = None.
Proof. destruct o as [[c y]|]; reflexivity. Qed.
Lemma smul_swap a b c d : s_mul so (s_mul so a b) (s_mul so c d) = s_mul so (s_mul so c d) (s_mul so a b).
Proof. apply MC. Qed.

Lemma site_wf g k e : site io l g k e -> es_wf e.
Proof. intros [E _]. rewrite Forall_forall in W. apply W. eapply nth_error_In; eauto. Qed.
Lemma loc_bits g k e x c n' : site io l g k e -> valid_state l x ->
  loc so sq half g e (bit_field x (offset l k) (es_nbits e)) = Some (c, n') -> n' <N es_nbits e.
Proof.
  intros H V E. eapply N.lt_le_trans; [|apply dim_le, (site_wf g k e H)].
  eapply (loc_dim io Hio so sq half); [apply H| |exact E]. apply (valid_field l k e x V (proj1 H)).
Qed.
(** the Jordan-Wigner factor of g is not changed by an update of another site,
    unless both are fermions *)
Lemma jwf_other g k e g' k' e' x v : site io l g k e -> site io l g' k' e' -> k <> k' ->
  is_f g = false \/ is_f g' = false -> v <N es_nbits e' ->
  jwf so g (offset l k) (set_field x (offset l k') (es_nbits e') v) = jwf so g (offset l k) x.
Proof.
  intros H H' ne NF hv. unfold jwf. destruct (is_f g) eqn:F; auto. destruct NF as [C|F']; [discriminate|].
  f_equal. apply par_ext. intros i hi. rewrite set_field_bits by auto.
  pose proof (fermion_first io Hio l g k e g' k' e' S0 H H' F F') as FF.
  destruct (Nat.ltb_spec i (offset l k')); auto. lia.
Qed.

Lemma gen_commute g g' x : valid_state l x ->
  (forall k e k' e', site io l g k e -> site io l g' k' e' -> k <> k') ->
  is_f g = false \/ is_f g' = false ->
  bnd (gact l g x) (gact l g') = bnd (gact l g' x) (gact l g).
Proof.
  intros V D NF.
  destruct (site_or io l g) as [[k [e H]]|U].
  2: { rewrite (gen_act_unknown io so sq half l g x U). cbn [obind]. symmetry.
       destruct (gact l g' x) as [[c y]|]; cbn [obind]; auto. now rewrite (gen_act_unknown io so sq half l g y U). }
  destruct (site_or io l g') as [[k' [e' H']]|U].
  2: { rewrite (gen_act_unknown io so sq half l g' x U). cbn [obind].
       destruct (gact l g x) as [[c y]|]; cbn [obind]; auto. now rewrite (gen_act_unknown io so sq half l g' y U). }
  specialize (D k e k' e' H H').
  pose proof (sites_disjoint l k e k' e' (proj1 H) (proj1 H') D) as DJ.
  rewrite (gen_act_loc io Hio so sq half L l g k e x S0 H), (gen_act_loc io Hio so sq half L l g' k' e' x S0 H').
  destruct (loc so sq half g e (bit_field x (offset l k) (es_nbits e))) as [[c n]|] eqn:E1;
  destruct (loc so sq half g' e' (bit_field x (offset l k') (es_nbits e'))) as [[c' n']|] eqn:E2; cbn [obind]; auto.
  - pose proof (loc_bits g k e x c n H V E1) as b1. pose proof (loc_bits g' k' e' x c' n' H' V E2) as b2.
    rewrite (gen_act_loc io Hio so sq half L l g' k' e' _ S0 H'), (gen_act_loc io Hio so sq half L l g k e _ S0 H).
    rewrite !bit_field_set_other by (auto; lia). rewrite E1, E2.
    rewrite (jwf_other g k e g' k' e') by auto.
    rewrite (jwf_other g' k' e' g k e) by (auto; tauto).
    f_equal. f_equal; [apply MC|]. apply set_field_comm; auto.
  - pose proof (loc_bits g k e x c n H V E1) as b1.
    rewrite (gen_act_loc io Hio so sq half L l g' k' e' _ S0 H'), bit_field_set_other by (auto; lia). now rewrite E2.
  - pose proof (loc_bits g' k' e' x c' n' H' V E2) as b2.
    rewrite (gen_act_loc io Hio so sq half L l g k e _ S0 H), bit_field_set_other by (auto; lia). now rewrite E1.
Qed.

(** g and g' act on different degrees of freedom, and one is not fermionic *)
Definition indep (g g' : gen I) : Prop :=
  (forall k e k' e', site io l g k e -> site io l g' k' e' -> k <> k') /\ (is_f g = false \/ is_f g' = false).

Lemma obind_ext_valid o f g : (forall c y, o = Some (c, y) -> f y = g y) -> bnd o f = bnd o g.
Proof. intros H. destruct o as [[c y]|]; cbn [obind]; auto. now rewrite (H c y eq_refl). Qed.

Lemma gen_mono_commute g m x : valid_state l x -> Forall (indep g) m ->
  bnd (gact l g x) (mact l m) = bnd (mact l m x) (gact l g).
Proof.
  intros V F. revert x V. induction F as [|h m Hh F IH]; intros x V; cbn [mono_act].
  - destruct (gact l g x) as [[c y]|] eqn:E; cbn [obind]; rewrite ?E; auto.
    now rewrite (sl_mul_1_l so L), (sl_mul_1_r so L).
  - (* bnd (g x) (h . m) = bnd (bnd (m x) h) g *)
    rewrite (obind_assoc so L).
    transitivity (bnd (bnd (gact l g x) (mact l m)) (gact l h)).
    { symmetry. rewrite (obind_assoc so L). reflexivity. }
    rewrite IH by auto. rewrite !(obind_assoc so L). apply obind_ext_valid. intros c y E.
    assert (Vy : valid_state l y) by (eapply mono_act_valid; eauto).
    symmetry. destruct Hh as [D NF]. symmetry. now apply gen_commute.
Qed.
Lemma mono_commute a b x : valid_state l x -> Forall (fun g => Forall (indep g) b) a ->
  mact l (a ++ b) x = mact l (b ++ a) x.
Proof.
  intros V F. rewrite !(mact_app io so L). revert x V. induction F as [|g a Hg F IH]; intros x V; cbn [mono_act].
  - destruct (mact l b x) as [[c y]|] eqn:E; cbn [obind]; rewrite ?E; auto.
    now rewrite (sl_mul_1_l so L), (sl_mul_1_r so L).
  - transitivity (bnd (bnd (mact l b x) (mact l a)) (gact l g)).
    { symmetry. rewrite (obind_assoc so L). reflexivity. }
    rewrite IH by auto. rewrite !(obind_assoc so L). apply obind_ext_valid. intros c y E.
    assert (Vy : valid_state l y) by (eapply mono_act_valid; eauto).
    symmetry. now apply gen_mono_commute.
Qed.

Lemma indep_algebras g g' : algebra_id g <> algebra_id g' -> indep g g'.
Proof.
  intros ne. split.
  - intros k e k' e' [E C] [E' C'] ->. rewrite E in E'. inversion E'; subst e'.
    destruct g, g', e; cbn in *; try discriminate; congruence.
  - destruct g, g'; cbn in *; auto. congruence.
Qed.
Lemma indep_lists a b : (forall g g', In g a -> In g' b -> algebra_id g <> algebra_id g') ->
  Forall (fun g => Forall (indep g) b) a.
Proof.
  intros H. rewrite Forall_forall. intros g hg. rewrite Forall_forall. intros g' hg'. apply indep_algebras. auto.
Qed.
End Comm.

(** ** Whole monomials *)
Section Mono.
Context {I S : Type} (io : index_ops I) (Hio : index_order io).

(** a canonical monomial is a strictly ordered fermionic part, a bosonic part
    and a spin part *)
Definition alg_all (id : Z) (m : list (gen I)) : Prop := Forall (fun g => algebra_id g = id) m.
Lemma split_id id (m : list (gen I)) : StronglySorted (gen_before_eq io) m -> Forall (fun g => (id <= algebra_id g)%Z) m ->
  exists a b, m = a ++ b /\ alg_all id a /\ Forall (fun g => (id < algebra_id g)%Z) b.
Proof.
  intros St. induction St as [|g m St IH F]; intros G.
  - exists [], []. repeat split; constructor.
  - inversion G as [|? ? h G']; subst. destruct (Z.eq_dec (algebra_id g) id) as [e|ne].
    + destruct (IH G') as [a [b [-> [h1 h2]]]]. exists (g :: a), b. repeat split; auto. constructor; auto.
    + exists [], (g :: m). split; auto. split; [constructor|]. constructor; [lia|].
      rewrite Forall_forall in F |- *. intros g' hg'. destruct (F g' hg') as [<-|B]; [lia|].
      inversion B; subst; cbn in *; lia.
Qed.
Lemma sorted_app_inv {A} (R : A -> A -> Prop) a b : StronglySorted R (a ++ b) -> StronglySorted R a /\ StronglySorted R b.
Proof.
  induction a as [|x a IH]; cbn; intros H; [split; auto; constructor|].
  inversion H as [|? ? h1 h2]; subst. apply IH in h1. apply Forall_app in h2. split; [constructor|]; tauto.
Qed.
Lemma canonical_split m : canonical_mono io m -> exists mf mb ms, m = mf ++ mb ++ ms /\
  alg_all (-3) mf /\ alg_all (-2) mb /\ alg_all (-1) ms /\ StronglySorted (gen_before io) mf.
Proof.
  intros [St [Col _]].
  destruct (split_id (-3) m St) as [mf [r [-> [F1 F2]]]].
  { rewrite Forall_forall. intros g _. destruct g; cbn; lia. }
  destruct (sorted_app_inv _ _ _ St) as [Sf Sr].
  destruct (split_id (-2) r Sr) as [mb [ms [-> [F3 F4]]]].
  { rewrite Forall_forall in *. intros g hg. specialize (F2 g hg). destruct g; cbn in *; lia. }
  exists mf, mb, ms. repeat split; auto.
  - unfold alg_all. rewrite Forall_forall in *. intros g hg. specialize (F4 g hg). destruct g; cbn in *; lia.
  - clear -Sf F1 Col Hio. 
    assert (Col' : forall pre g h post, mf = pre ++ g :: h :: post -> ~ collapsible g h).
    { intros pre g h post -> C. apply (Col pre g h (post ++ mb ++ ms)); auto. rewrite <- app_assoc. reflexivity. }
    clear Col. induction Sf as [|g m Sf IH F]; constructor.
    + apply IH; [inversion F1; auto|]. intros pre h h' post -> C. apply (Col' (g :: pre) h h' post); auto.
    + inversion F1; subst. rewrite Forall_forall in F |- *. intros h hh. destruct (F h hh) as [<-|B]; auto. exfalso.
      destruct m as [|h' m]; [contradiction|].
      assert (h' = g).
      { destruct (F h' (or_introl eq_refl)) as [E|B1]; [auto|].
        destruct hh as [->|hh]; auto. inversion Sf as [|? ? _ F']; subst. rewrite Forall_forall in F'.
        destruct (F' g hh) as [E|B2]; [auto|]. exfalso. apply (gen_before_irrefl io Hio g).
        eapply (gen_before_trans io Hio); eauto. }
      subst h'. apply (Col' [] g g m eq_refl). destruct g; cbn in *; try discriminate. constructor.
Qed.

Lemma subrange_spec id a b : alg_all id a -> Forall (fun g => (id < algebra_id g)%Z) b ->
  algebra_subrange (I := I) id (a ++ b) = LOk (a, b).
Proof.
  intros F1 F2. induction F1 as [|g a h F1 IH]; cbn [app algebra_subrange].
  - destruct b as [|g b]; cbn [algebra_subrange]; auto. inversion F2; subst.
    destruct (Z.ltb_spec (algebra_id g) id); [lia|]. destruct (Z.eqb_spec (algebra_id g) id); [lia|]. reflexivity.
  - rewrite h, Z.ltb_irrefl, Z.eqb_refl, IH. reflexivity.
Qed.

Definition three_parts (h : hspace I) (mf mb ms : list (gen I)) : lres I (list action) :=
  lbind (fermion_make io h mf) (fun f => lbind (boson_make io h mb) (fun b => lbind (spin_make io h ms) (fun s =>
    LOk [ActF f; ActB b; ActS s]))).
Lemma mono_make_split (h : hspace I) mf mb ms : alg_all (-3) mf -> alg_all (-2) mb -> alg_all (-1) ms ->
  mono_make io h [-3; -2; -1]%Z (mf ++ mb ++ ms) = three_parts h mf mb ms.
Proof.
  intros F1 F2 F3. unfold three_parts. cbn [mono_make].
  rewrite (subrange_spec (-3)); auto.
  2: { apply Forall_app. unfold alg_all in *. rewrite !Forall_forall in *. split; intros g hg; [rewrite (F2 g hg)|rewrite (F3 g hg)]; lia. }
  cbn [lbind]. unfold single_make at 1. cbn [Z.eqb Pos.eqb].
  rewrite (subrange_spec (-2)); auto.
  2: { unfold alg_all in *. rewrite !Forall_forall in *. intros g hg; rewrite (F3 g hg); lia. }
  cbn [lbind]. unfold single_make. cbn [Z.eqb Pos.eqb].
  destruct (fermion_make io h mf); cbn [lbind]; auto.
  destruct (boson_make io h mb); cbn [lbind]; auto.
  destruct (spin_make io h ms); cbn [lbind]; auto.
Qed.

Context (so : scalar_ops S) (L : scalar_laws so) (sq : N -> S) (half : Z -> S).
Context (MC : forall x y, s_mul so x y = s_mul so y x).
Context (H0 : half 0%Z = s_zero so).
Notation impl := (implements io so sq half).

Theorem mono_correct (h : hspace I) m a : hs_inv io h -> hs_algs_ok h -> Forall int_mult (spaces h) ->
  canonical_mono io m -> mono_make io h [-3; -2; -1]%Z m = LOk a ->
  impl (spaces h) (mono_run so sq half a) m.
Proof.
  intros Hi HA IM C E. pose proof Hi as [S0 [W [P [_ [B63 _]]]]].
  destruct (canonical_split m C) as [mf [mb [ms [-> [F1 [F2 [F3 Sf]]]]]]].
  rewrite (mono_make_split h mf mb ms F1 F2 F3) in E. unfold three_parts in E.
  destruct (fermion_make io h mf) as [f| | |] eqn:Ef; try discriminate. cbn [lbind] in E.
  destruct (boson_make io h mb) as [b| | |] eqn:Eb; try discriminate. cbn [lbind] in E.
  destruct (spin_make io h ms) as [s| | |] eqn:Es; try discriminate. cbn [lbind] in E. inversion E; subst a; clear E.
  pose proof (fermion_correct io Hio so L sq half h mf f Hi HA Sf Ef) as If.
  pose proof (boson_correct io Hio so L sq half h mb b Hi Eb) as Ib.
  pose proof (spin_correct io Hio so L sq half H0 h ms s Hi IM Es) as Is.
  pose proof (implements_seq io Hio so L sq half (spaces h) _ _ _ _ S0 W If Ib) as I2.
  pose proof (implements_seq io Hio so L sq half (spaces h) _ _ _ _ S0 W I2 Is) as I3.
  assert (EQ : forall x, valid_state (spaces h) x ->
    mono_act io so sq half (spaces h) (mf ++ mb ++ ms) x = mono_act io so sq half (spaces h) (ms ++ mb ++ mf) x).
  { intros x V. unfold alg_all in *. rewrite Forall_forall in F1, F2, F3.
    rewrite (mono_commute io Hio so L sq half MC (spaces h) S0 W mf (mb ++ ms) x V).
    2: { apply indep_lists. intros g g' hg hg'. rewrite (F1 g hg). apply in_app_or in hg'. destruct hg' as [hg'|hg']; [rewrite (F2 g' hg')|rewrite (F3 g' hg')]; lia. }
    rewrite <- app_assoc.
    rewrite (mono_commute io Hio so L sq half MC (spaces h) S0 W mb (ms ++ mf) x V).
    2: { apply indep_lists. intros g g' hg hg'. rewrite (F2 g hg). apply in_app_or in hg'. destruct hg' as [hg'|hg']; [rewrite (F3 g' hg')|rewrite (F1 g' hg')]; lia. }
    rewrite <- app_assoc. rewrite !(mact_app io so L sq half (spaces h) ms). f_equal.
    apply (mono_commute io Hio so L sq half MC (spaces h) S0 W mf mb x V).
    apply indep_lists. intros g g' hg hg'. rewrite (F1 g hg), (F2 g' hg'). lia. }
  intros x c V. specialize (I3 x c V). rewrite (EQ x V).
  assert (R : mono_run so sq half [ActF f; ActB b; ActS s] x c =
    match (match fermion_act so f x c with AVal c' i => boson_act so sq b i c' | r => r end) with
    | AVal c' i => spin_act so sq half s i c' | r => r end).
  { unfold mono_run. cbn [run_updates single_act]. destruct (fermion_act so f x c); auto.
    destruct (boson_act so sq b i c0); auto. destruct (spin_act so sq half s i0 c1); auto. }
  rewrite R. exact I3.
Qed.
End Mono.
