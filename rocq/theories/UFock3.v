(** Matrix elements of products and of Hermitian conjugates with bosons (for C84). *)
From Coq Require Import NArith ZArith List Bool Sorted Lia Setoid Morphisms.
From Verif Require Import BitsModel BitsSpec BitsProofs ExprModel ExprSpec ExprOrder ExprMap ExprEval ExprStd ExprCanon ExprMain ExprConj PropConj
  HSModel HSSpec HSEnum HSProofs HSMain PropHS LOpModel LOpSpec LOpFermion LOpSite LOpActF LOpActB LOpActS LOpComm LOpApply
  LOpMatrix LOpThrow LOpReject LOpMain LOpFaithful MonModel MonProofs PropAdjoint UFock UFock2.
Import ListNotations.
Close Scope nat_scope.
Open Scope N_scope.
Open Scope list_scope.

Section Link.
Context {I S : Type} (io : index_ops I) (Hio : index_order io).
Context (so : scalar_ops S) (sq : N -> S) (half : Z -> S) (LL : lop_laws so sq half).
Let L : scalar_laws so := ll_ring _ _ _ LL.
Let MC : forall x y, s_mul so x y = s_mul so y x := ll_comm _ _ _ LL.
Notation es := (espace I).
Notation gact := (gen_act io so sq half).
Notation mact := (mono_act io so sq half).
Notation "x +s y" := (s_add so x y) (at level 50, left associativity).
Notation "x *s y" := (s_mul so x y) (at level 40, left associativity).
Context (l : list es) (S0 : StronglySorted (es_before io) l) (W : Forall es_wf l).
Context (bas : list N) (HB : basis_of l bas).
Notation uok := (uok l).
Notation ug := (ug io so sq half l).
Notation umono := (umono io so sq half l).
Notation uexpr := (uexpr io so sq half l).
Notation iota := (iota l).
Notation delta := (delta so l).
Notation urho := (urho io Hio so sq half LL l S0 W).
Notation fr := (fring so (ll_ring _ _ _ LL) uok).
Notation inj := (lin_scalar so (ll_ring _ _ _ LL) (ll_comm _ _ _ LL) uok).
Notation papp := (@UFock.papp S so ust).
Notation go := (std_gen_ops io).

(** how many bosons of [e] a monomial creates and annihilates *)
Definition crea (e : es) (m : list (gen I)) : nat := length (filter (fun g => creator g && carries io g e) m).
Definition anni (e : es) (m : list (gen I)) : nat := length (filter (fun g => annihilator g && carries io g e) m).
Lemma fld_step g x c y k e : valid_state l x -> gact l g x = Some (c, y) -> nth_error l k = Some e -> isb e = true ->
  fld l y k e + N.of_nat (anni e [g]) = fld l x k e + N.of_nat (crea e [g]).
Proof.
  intros V E Ek ib. destruct (site_or io l g) as [[k' [e' H]]|U].
  2: { rewrite (gen_act_unknown io so sq half l g x U) in E. discriminate. }
  rewrite (gen_act_loc io Hio so sq half L l g k' e' x S0 H) in E.
  destruct (loc so sq half g e' (bit_field x (offset l k') (es_nbits e'))) as [[c' n']|] eqn:E1; [|discriminate].
  injection E as <- <-. pose proof (loc_bits io Hio so sq half l W g k' e' x c' n' H V E1) as hb.
  rewrite (fsetl so sq half LL l k' e' x n' k e) by (auto; apply H).
  destruct (Nat.eqb_spec k k') as [->|ne].
  - destruct H as [E' C]. rewrite Ek in E'. injection E' as <-.
    destruct e as [i'|b i'|m' i']; try discriminate. destruct g as [d i|d i|m cc i]; try discriminate.
    unfold anni, crea. unfold fld. cbn [loc es_dim] in E1. generalize dependent (bit_field x (offset l k') (es_nbits (ESBoson b i'))). intros n E1.
    cbn [filter creator annihilator]. destruct d; cbn [andb]; rewrite ?C; cbn [length].
    + destruct (N.ltb_spec (n + 1) b); inversion E1. lia.
    + destruct (N.eqb_spec n 0); inversion E1. lia.
  - assert (C : carries io g e = false).
    { destruct (carries io g e) eqn:C; auto. exfalso. apply ne.
      exact (proj1 (site_unique io Hio l g k e k' e' S0 (conj Ek C) H)). }
    unfold anni, crea. cbn [filter]. rewrite C, !andb_false_r. reflexivity.
Qed.

Lemma crea_cons e g m : crea e (g :: m) = (crea e [g] + crea e m)%nat.
Proof. unfold crea. cbn [filter]. destruct (creator g && carries io g e); reflexivity. Qed.
Lemma anni_cons e g m : anni e (g :: m) = (anni e [g] + anni e m)%nat.
Proof. unfold anni. cbn [filter]. destruct (annihilator g && carries io g e); reflexivity. Qed.
Lemma fld_count m x k e : valid_state l x -> nth_error l k = Some e -> isb e = true -> forall c y, mact l m x = Some (c, y) ->
  fld l y k e + N.of_nat (anni e m) = fld l x k e + N.of_nat (crea e m).
Proof.
  intros V Ek ib. induction m as [|g m IH]; intros c y E.
  - cbn [mono_act] in E. injection E as <- <-. reflexivity.
  - cbn [mono_act] in E. destruct (mact l m x) as [[c1 y1]|] eqn:M; cbn [LOpSpec.obind] in E; [|discriminate].
    destruct (gact l g y1) as [[c2 y2]|] eqn:G; [|discriminate]. injection E as _ <-.
    pose proof (mact_valid io Hio so sq half LL l S0 W m x c1 y1 V M) as V1.
    pose proof (fld_step g y1 c2 y2 k e V1 G Ek ib) as A. pose proof (IH c1 y1 eq_refl) as B.
    rewrite crea_cons, anni_cons. clear - A B. lia.
Qed.
(** the room that [m] needs above [x] *)
Definition room (m : list (gen I)) (x : N) : Prop :=
  forall k e, nth_error l k = Some e -> isb e = true ->
    fld l x k e + N.of_nat (crea e m) < es_dim e + N.of_nat (anni e m).
Lemma room_safe m x : canonical_mono io m -> valid_state l x -> room m x -> safe io so sq half l m x.
Proof.
  intros [Sm _] V. destruct (canonical_split io m Sm) as [a [b [-> [Ha Hb]]]]. clear Sm.
  induction Ha as [|g a na Ha IH]; cbn [app]; intros R.
  - now apply (safe_down io so sq half).
  - cbn [safe]. split.
    + apply IH. intros k e Ek ib. specialize (R k e Ek ib). rewrite crea_cons, anni_cons in R.
      assert (Z : anni e [g] = 0%nat) by (unfold anni; cbn [filter]; now rewrite na).
      rewrite Z in R. clear - R. lia.
    + intros c y M. destruct g as [d i|[|] i|mm cc i]; cbn [fits]; auto. intros k e [Ek C].
      assert (ib : isb e = true) by (destruct e; cbn in C |- *; congruence).
      specialize (R k e Ek ib). rewrite crea_cons, anni_cons in R.
      assert (Z : anni e [GBoson true i] = 0%nat) by reflexivity.
      assert (O : crea e [GBoson true i] = 1%nat) by (unfold crea; cbn [filter creator andb]; now rewrite C).
      pose proof (fld_count (a ++ b) x k e V Ek ib c y M) as F. rewrite Z, O in R. clear - R F. lia.
Qed.

Context (D : scalar_domain so) (B : list (gen I)) (SC : spin_consistent B) (KB : Forall (known io l) B).
Lemma known_spin m c c' i : known io l (GSpin m c i) -> known io l (GSpin m c' i).
Proof. intros [e [i0 C]]. exists e. split; [exact i0|]. destruct e; exact C. Qed.
Lemma adm_kn g : admissible B g -> known io l g.
Proof.
  rewrite Forall_forall in KB.
  destruct g as [d i|d i|m c i]; cbn [admissible]; intros [x hx]; specialize (KB _ hx);
  (destruct KB as [e [ie ce]]; exists e; (split; [exact ie|]); destruct e; cbn in *; auto; discriminate).
Qed.
Lemma usound : alg_sound go so fr inj urho (admissible B).
Proof.
  apply (alg_sound_iff go so fr inj urho (adm (known io l) B)).
  - intros g. unfold adm. split; [tauto|auto using adm_kn].
  - apply (std_sound_on io Hio so L fr inj urho (fring_is_ring so L uok) (lin_scalars so L MC uok urho) (known io l) known_spin
      (urelations io Hio so sq half LL l S0 W bas HB) B SC).
Qed.
Lemma bas_valid x : In x bas -> valid_state l x.
Proof. apply HB. Qed.
Lemma amp1_sum o (f : N -> S) : (forall c z, o = Some (c, z) -> In z bas) ->
  ssum so (fun z => f z *s amp1 so o z) bas = match o with None => s_zero so | Some (c, z) => c *s f z end.
Proof.
  intros H. destruct o as [[c z0]|]; cbn [amp1].
  - rewrite (ssum_single so L bas z0).
    + rewrite N.eqb_refl. apply MC.
    + apply HB.
    + now apply (H c).
    + intros z _ ne. destruct (N.eqb_spec z0 z); [congruence|]. apply (mul_0_r so L).
  - transitivity (ssum so (fun _ => s_zero so) bas); [|apply (ssum_0 so L)]. apply ssum_ext. intros z _. apply (mul_0_r so L).
Qed.
Theorem mel_mul_below a b p y x : built io so B a -> built io so B b -> e_mul go so a b = Ok p -> In y bas -> In x bas ->
  (forall m c, In (m, c) b -> room m x) ->
  mel io so sq half l p y x = ssum so (fun z => mel io so sq half l a y z *s mel io so sq half l b z x) bas.
Proof.
  intros Ba Bb E iy ix R. pose proof (bas_valid y iy) as Vy. pose proof (bas_valid x ix) as Vx.
  pose proof (fun e => built_canonical io Hio so D B SC e) as CN.
  assert (Bp : built io so B p) by (eapply b_mul; [exact Ba|exact Bb|exact E]).
  rewrite (mel_uexpr io Hio so sq half LL l S0 W p y x (CN p Bp) Vy Vx).
  rewrite <- (eval_uexpr io Hio so sq half LL l S0 W p (delta y) (iota x)) by (now apply (iota_ok l W)).
  pose proof (e_mul_sound go (std_order io Hio) so L fr (fring_is_ring so L uok) inj urho (lin_scalars so L MC uok urho)
    (admissible B) usound a b p (built_Pe io Hio so D B SC a Ba) (built_Pe io Hio so D B SC b Bb) E) as V.
  etransitivity; [apply (V (delta y) (iota x)); now apply (iota_ok l W)|]. clear V.
  cbn [fring op_ring rmul lin_ring linmul lf].
  rewrite (eval_uexpr io Hio so sq half LL l S0 W b) by (now apply (iota_ok l W)).
  pose proof (CN b Bb) as Cb. clear Bp Bb E.
  induction b as [|[m c] b IH].
  - cbn [UFock2.uexpr mel]. transitivity (ssum so (fun _ => s_zero so) bas); [symmetry; apply (ssum_0 so L)|]. apply ssum_ext. intros z _. symmetry. apply (mul_0_r so L).
  - cbn [UFock2.uexpr mel].
    rewrite (ssum_ext so _ (fun z => c *s (mel io so sq half l a y z *s amp1 so (mact l m x) z) +s mel io so sq half l a y z *s mel io so sq half l b z x)).
    2: { intros z _. cbv beta. rewrite (sl_dist_l so L), !(sl_mul_assoc so L). f_equal. f_equal. apply MC. }
    rewrite (ssum_add so L), (ssum_mul_l so L). f_equal.
    2: { apply IH.
         - intros m' c' i. apply (R m' c'). now right.
         - intros m' c' i. apply (Cb m' c'). now right. }
    f_equal.
    assert (cm : canonical_mono io m) by (apply (Cb m c); now left).
    rewrite (umono_safe io Hio so sq half LL l S0 W m x Vx).
    2: { apply room_safe; auto. apply (R m c). now left. }
    rewrite amp1_sum.
    2: { intros k z M. apply HB. exact (mact_valid io Hio so sq half LL l S0 W m x k z Vx M). }
    destruct (mact l m x) as [[k z]|] eqn:M; cbn [up UFock.papp]; auto. f_equal.
    pose proof (mact_valid io Hio so sq half LL l S0 W m x k z Vx M) as Vz.
    rewrite (eval_uexpr io Hio so sq half LL l S0 W a) by (now apply (iota_ok l W)). symmetry.
    apply (mel_uexpr io Hio so sq half LL l S0 W a y z (CN a Ba) Vy Vz).
Qed.

(** *** Hermitian conjugates *)
Context (CL : conj_laws so) (RC : real_constants so sq half).
Lemma ug_back g p c q : uok p -> ug g p = Some (c, q) -> ug (gen_conj_gen g) q = Some (c, p) /\ s_conj so c = c.
Proof.
  intros [V Ln] E. destruct p as [x ns]. cbn [fst snd] in *.
  destruct g as [d i|d i|m cc i].
  1, 3: cbn [UFock.ug fst snd] in E; destruct (gact l _ x) as [[c' z]|] eqn:G; [|discriminate]; injection E as <- <-;
    destruct (gact_back io Hio so sq half LL D CL RC l S0 W _ x c' z V G) as [G' R]; split; [|exact R];
    cbn [gen_conj_gen UFock.ug fst snd] in *; (try destruct cc); cbn [conj_comp] in *; now rewrite G'.
  cbn [UFock.ug fst snd gen_conj_gen] in *. rewrite (pos_dag io l (negb d) d i).
  destruct (pos io l (GBoson d i)) as [k|] eqn:P; [|discriminate]. pose proof (pos_lt io l _ k P) as hk.
  destruct d; cbn [negb].
  - injection E as <- <-. cbn [fst snd]. rewrite nth_setl by lia. destruct (N.eqb_spec (nth k ns 0 + 1) 0); [lia|].
    rewrite setl_setl. replace (nth k ns 0 + 1 - 1) with (nth k ns 0) by lia. rewrite setl_nth by lia. split; [reflexivity|apply RC].
  - destruct (N.eqb_spec (nth k ns 0) 0); [discriminate|]. injection E as <- <-. cbn [fst snd]. rewrite nth_setl by lia.
    rewrite setl_setl. replace (nth k ns 0 - 1 + 1) with (nth k ns 0) by lia. rewrite setl_nth by lia. split; [reflexivity|apply RC].
Qed.
Definition dag (m : list (gen I)) : list (gen I) := map gen_conj_gen (rev m).
Lemma umono_back m : forall p c q, uok p -> umono m p = Some (c, q) -> umono (dag m) q = Some (c, p) /\ s_conj so c = c.
Proof.
  induction m as [|g m IH]; intros p c q hp E; cbn [UFock2.umono] in E.
  - injection E as <- <-. split; [reflexivity|apply (sconj_1 so D CL)].
  - destruct (umono m p) as [[c1 q1]|] eqn:M; [|discriminate]. destruct (ug g q1) as [[k r]|] eqn:G; [|discriminate].
    injection E as <- <-. destruct (IH p c1 q1 hp M) as [M' r1].
    pose proof (umono_ok io Hio so sq half LL l S0 W m p c1 q1 hp M) as hq.
    destruct (ug_back g q1 k r hq G) as [G' r2]. split.
    + unfold dag. cbn [rev]. rewrite map_app, (umono_app io so sq half LL). cbn [map UFock2.umono]. rewrite G'.
      fold (dag m). rewrite M', (sl_mul_1_l so L). f_equal. f_equal. apply MC.
    + rewrite (cl_mul _ CL), r1, r2. apply MC.
Qed.
Lemma dag_dag m : dag (dag m) = m.
Proof.
  unfold dag. rewrite <- map_rev, rev_involutive, map_map. rewrite <- (map_id m) at 2. apply map_ext. intros g. apply gen_conj_invol.
Qed.
Lemma papp_dag m x y : valid_state l x -> valid_state l y ->
  papp (umono (dag m) (iota x)) (delta y) = s_conj so (papp (umono m (iota y)) (delta x)).
Proof.
  intros Vx Vy. pose proof (iota_ok l W x Vx) as ox. pose proof (iota_ok l W y Vy) as oy. unfold UFock.papp, UFock2.delta.
  destruct (umono m (iota y)) as [[c q]|] eqn:E.
  - destruct (umono_back m _ c q oy E) as [E1 r].
    destruct (ust_dec q (iota x)) as [->|ne].
    + rewrite E1, !(sl_mul_1_r so L), r. destruct (ust_dec (iota y) (iota y)); [apply (sl_mul_1_r so L)|congruence].
    + rewrite (mul_0_r so L), (sconj_0 so D CL). destruct (umono (dag m) (iota x)) as [[c' q']|] eqn:F; auto.
      destruct (ust_dec q' (iota y)) as [->|]; [|apply (mul_0_r so L)]. exfalso.
      destruct (umono_back _ _ c' _ ox F) as [F1 _]. rewrite dag_dag, E in F1. congruence.
  - rewrite (sconj_0 so D CL). destruct (umono (dag m) (iota x)) as [[c' q']|] eqn:F; auto.
    destruct (ust_dec q' (iota y)) as [->|]; [|apply (mul_0_r so L)]. exfalso.
    destruct (umono_back _ _ c' _ ox F) as [F1 _]. rewrite dag_dag, E in F1. congruence.
Qed.
Theorem mel_conj_any e r y x : built io so B e -> e_conj go so e = Ok r -> In y bas -> In x bas ->
  mel io so sq half l r y x = s_conj so (mel io so sq half l e x y).
Proof.
  intros Be E iy ix. pose proof (bas_valid y iy) as Vy. pose proof (bas_valid x ix) as Vx.
  pose proof (fun e => built_canonical io Hio so D B SC e) as CN.
  assert (Br : built io so B r) by (eapply b_conj; [exact Be|exact E]).
  rewrite (mel_uexpr io Hio so sq half LL l S0 W r y x (CN r Br) Vy Vx).
  rewrite (mel_uexpr io Hio so sq half LL l S0 W e x y (CN e Be) Vx Vy).
  pose proof (iota_ok l W x Vx) as ox.
  rewrite <- (eval_uexpr io Hio so sq half LL l S0 W r (delta y) (iota x)) by exact ox.
  pose proof (ev_conj io Hio so D CL fr inj urho (fring_is_ring so L uok) (lin_scalars so L MC uok urho) B SC (known io l)
    adm_kn known_spin (urelations io Hio so sq half LL l S0 W bas HB) e r Be E) as V.
  etransitivity; [exact (V (delta y) (iota x) ox)|]. clear V E Br Be.
  induction e as [|[m c] e IH].
  - cbn. symmetry. apply (sconj_0 so D CL).
  - cbn [eval_expr UFock2.uexpr]. rewrite (cl_add _ CL), (cl_mul _ CL), <- IH.
    cbn [fring op_ring radd rmul lin_ring linadd linmul lf]. f_equal.
    pose proof (emo_rev fr urho (fring_is_ring so L uok) m (delta y) (iota x) ox) as Q.
    unfold injc. cbn [lin_scalar lf]. rewrite MC. f_equal. etransitivity; [exact Q|].
    rewrite (eval_umono io Hio so sq half LL l S0 W). 2: exact ox. apply papp_dag; auto.
Qed.
End Link.
