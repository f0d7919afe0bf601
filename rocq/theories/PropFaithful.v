(** C72: linear operators represent expressions faithfully *)
From Coq Require Import NArith ZArith List Bool Sorted Permutation Lia Reals.
From Verif Require Import BitsModel BitsSpec BitsProofs ExprModel ExprSpec ExprOrder ExprMap ExprEval ExprStd ExprCanon ExprMain ExprThrow ExprInst ExprConj PropExpr PropFactories PropConj FockSpec PropUnique
  HSModel HSSpec HSEnum HSProofs HSMain PropHS LOpModel LOpSpec LOpFermion LOpSite LOpActF LOpActB LOpActS LOpComm LOpApply
  LOpMatrix LOpThrow LOpMain LOpReject LOpReal LOpFaithSpec LOpFaithful LOpFaithful2 PropLOp PropLOp2 PropLOp3 PropAdjoint.
Import ListNotations.
Close Scope R_scope.
Close Scope nat_scope.
Open Scope N_scope.
Open Scope list_scope.

Section Faithful.
Context {I S V : Type} (io : index_ops I) (Hio : index_order io).
Context (so : scalar_ops S) (D : scalar_domain so) (sq : N -> S) (half : Z -> S) (LL : lop_laws so sq half).
Let L : scalar_laws so := ll_ring _ _ _ LL.
Context (sv : sv_ops V S) (ok : V -> Prop) (amp : V -> N -> S) (size : V -> N).
Context (SS : sv_strict so sv ok amp size).
Let SV := svs_laws _ _ _ _ _ SS.
Notation mel := (mel io so sq half).
Notation run := (lop_run so sq half sv).
Context (h : hspace I) (Hi : hs_inv io h) (HA : hs_algs_ok h) (IM : Forall int_mult (spaces h)).
Notation l := (spaces h).
Notation vec := (state_of so ok amp size l).
Notation go := (std_gen_ops io).
Context (bas : list N) (HB : basis_of l bas).

Lemma same_mel a b : faithful_expr io so l a -> faithful_expr io so l b ->
  (forall x y, In x bas -> In y bas -> mel l a y x = mel l b y x) -> a = b.
Proof.
  intros [Ca Fa] [Cb Fb] H. pose proof (std_order io Hio) as Hgo.
  assert (Ga : forall m, In m (map fst a) -> adm io l m).
  { intros m i. apply in_map_iff in i. destruct i as [[m' c] [<- i]]. destruct (Fa m' c i) as [f1 [f2 f3]].
    split; [|split; [|split]]; auto. apply (proj2 Ca m' c i). }
  assert (Gb : forall m, In m (map fst b) -> adm io l m).
  { intros m i. apply in_map_iff in i. destruct i as [[m' c] [<- i]]. destruct (Fb m' c i) as [f1 [f2 f3]].
    split; [|split; [|split]]; auto. apply (proj2 Cb m' c i). }
  pose proof Ca as Ca'. pose proof Cb as Cb'. apply (canonical_wf io Hio) in Ca', Cb'. destruct Ca' as [sa na], Cb' as [sb nb].
  set (d := e_sub go so a b).
  assert (Ed : d = e_add_assign go so a (neg_map so b)) by (apply (sub_assign_add go so L)).
  assert (sd : msorted go d) by (rewrite Ed; now apply fold_ins_sorted).
  assert (nd : nonzero so d) by (rewrite Ed; apply (fold_ins_nonzero go so L); auto; now apply (neg_nonzero so L)).
  assert (E : d = []).
  { apply (mel_independent io Hio so D sq half LL l (proj1 Hi) (proj1 (proj2 Hi))).
    - unfold msorted in sd. revert sd. generalize (map fst d) as ks. clear -Hgo. intros ks sd. induction sd as [|m t St IH F]; constructor; auto.
      intros i. rewrite Forall_forall in F. apply F in i. unfold klt in i.
      now rewrite (sto_irrefl _ _ _ (mono_sto _ Hgo)) in i.
    - intros m c i. split; [|exact (nd m c i)]. rewrite Ed in i. apply (add_assign_In go Hgo so) in i. rewrite neg_map_keys in i. destruct i; auto.
    - intros x y Vx Vy. apply HB in Vx, Vy. unfold d. rewrite (mel_sub io Hio so sq half LL h Hi bas HB a b y x Vy Vx).
      rewrite (H x y Vx Vy). apply (s_sub_diag so L). }
  apply (coef_ext go Hgo so L); auto. intros m.
  assert (Z : coef go so d m = s_zero so) by (rewrite E; apply coef_nil).
  unfold d, e_sub in Z. rewrite (coef_sub_assign go Hgo so L) in Z by auto.
  rewrite (sl_sub so L) in Z. apply (s_add_cancel so L (s_neg so (coef go so b m))).
  rewrite (sl_add_comm so L), Z, (s_neg_l so L). reflexivity.
Qed.

(** basis vectors *)
Lemma basis_vector v0 x : vec v0 -> valid_state l x -> exists v, vec v /\ forall y, amp v y = if x =? y then s_one so else s_zero so.
Proof.
  intros [O [Sz _]] Vx. destruct (svl_zero _ _ _ _ _ SV v0 O) as [Oz [Ez Az]].
  assert (hx : x < size (sv_zero sv v0)) by (rewrite Ez; destruct Vx; lia).
  destruct (svl_add _ _ _ _ _ SV (sv_zero sv v0) x (s_one so) Oz hx) as [v [_ [Ov [Ev Av]]]].
  assert (A : forall y, amp v y = if x =? y then s_one so else s_zero so).
  { intros y. rewrite Av, !Az. destruct (x =? y); auto. apply (sl_add_0 so L). }
  exists v. split; auto. split; auto. split; [lia|]. intros y ny. rewrite A in ny. destruct (N.eqb_spec x y); congruence.
Qed.
Lemma run_basis e Lp v w x : canonical_monos io e -> make_loperator io e h = LOk Lp -> vec v ->
  valid_state l x -> (forall y, amp v y = if x =? y then s_one so else s_zero so) -> run Lp v w ->
  forall y, amp w y = mel l e y x.
Proof.
  intros C E Vv Vx Av R y. destruct (run_spec io Hio so sq half LL sv ok amp size SS h Hi HA IM bas HB e Lp v w C E Vv R) as [_ [_ Aw]].
  rewrite Aw, (ssum_single so L bas x); [|apply HB|now apply HB|].
  - now rewrite Av, N.eqb_refl, (sl_mul_1_r so L).
  - intros z _ ne. rewrite Av. destruct (N.eqb_spec x z); [congruence|]. apply (mul_0_r so L).
Qed.
Lemma run_ex e Lp v : canonical_monos io e -> make_loperator io e h = LOk Lp -> vec v -> exists w, run Lp v w.
Proof.
  intros C E Vv. destruct (run_exists io Hio so sq half LL sv ok amp size SS h Hi HA IM bas HB e Lp v C E Vv) as [[ent Ee] R].
  destruct (R ent Ee) as [w Ew]. exists w, ent. auto.
Qed.
End Faithful.

(** Two expressions are equal if and only if their linear operators act in the
    same way on all vectors.  [v0] is any vector of the space. *)
Theorem C72_faithful : forall I (io : index_ops I) S V (so : scalar_ops S) sq half
  (sv : sv_ops V S) ok amp size (h : hspace I) a b v0,
  index_order io -> scalar_domain so -> lop_laws so sq half -> sv_strict so sv ok amp size ->
  hs_fresh io h -> Forall int_mult (spaces h) ->
  faithful_expr io so (spaces h) a -> faithful_expr io so (spaces h) b ->
  state_of so ok amp size (spaces h) v0 ->
  exists A B, make_loperator io a h = LOk A /\ make_loperator io b h = LOk B /\
  ((forall v wa wb, state_of so ok amp size (spaces h) v ->
      lop_run so sq half sv A v wa -> lop_run so sq half sv B v wb -> forall y, amp wa y = amp wb y) <-> a = b).
Proof.
  intros I io S V so sq half sv ok amp size h a b v0 Hio D LL SS Fr IM Fa Fb V0.
  pose proof (reachable_inv io Hio h (fresh_reachable io h Fr)) as Hi. pose proof (fresh_algs io Hio h Fr) as HA.
  destruct (basis_exists io h Hi) as [bas HB].
  assert (CM : forall e, faithful_expr io so (spaces h) e -> canonical_monos io e) by (intros e [C _] m c i; apply (proj2 C m c i)).
  assert (MK : forall e, faithful_expr io so (spaces h) e -> exists Lp, make_loperator io e h = LOk Lp).
  { intros e F. apply (make_known io Hio h Hi HA); [now apply CM|]. intros m c i. apply (proj2 F m c i). }
  destruct (MK a Fa) as [A EA]. destruct (MK b Fb) as [B EB]. exists A, B. split; auto. split; auto. split.
  - intros H. apply (same_mel io Hio so D sq half LL h Hi bas HB a b Fa Fb). intros x y ix iy.
    apply HB in ix. destruct (basis_vector so sq half LL sv ok amp size SS h v0 x V0 ix) as [v [Vv Av]].
    destruct (run_ex io Hio so sq half LL sv ok amp size SS h Hi HA IM bas HB a A v (CM a Fa) EA Vv) as [wa Ra].
    destruct (run_ex io Hio so sq half LL sv ok amp size SS h Hi HA IM bas HB b B v (CM b Fb) EB Vv) as [wb Rb].
    rewrite <- (run_basis io Hio so sq half LL sv ok amp size SS h Hi HA IM bas HB a A v wa x (CM a Fa) EA Vv ix Av Ra).
    rewrite <- (run_basis io Hio so sq half LL sv ok amp size SS h Hi HA IM bas HB b B v wb x (CM b Fb) EB Vv ix Av Rb).
    now apply (H v wa wb).
  - intros <- v wa wb Vv Ra Rb y. rewrite EA in EB. injection EB as <-.
    destruct (run_spec io Hio so sq half LL sv ok amp size SS h Hi HA IM bas HB a A v wa (CM a Fa) EA Vv Ra) as [_ [_ Q1]].
    destruct (run_spec io Hio so sq half LL sv ok amp size SS h Hi HA IM bas HB a A v wb (CM a Fa) EA Vv Rb) as [_ [_ Q2]].
    now rewrite Q1, Q2.
Qed.
Print Assumptions C72_faithful.

(** *** Expressions of fermions and spins 1/2 *)
Section NoBosons.
Context {I S : Type} (io : index_ops I) (Hio : index_order io) (so : scalar_ops S) (D : scalar_domain so).
Context (h : hspace I) (B : list (gen I)).
Context (HS : Forall spin_half B) (KB : Forall (known io (spaces h)) B) (NB : Forall (fun g => algebra_id g <> (-2)%Z) B).
Lemma half_simple : Forall simple B.
Proof. eapply Forall_impl; [|exact HS]. intros g. destruct g; auto. Qed.
Lemma built_faithful e : hs_inv io h -> Forall es_wf (spaces h) -> built io so B e -> faithful_expr io so (spaces h) e.
Proof.
  intros Hi W Be. pose proof (simple_consistent B half_simple) as SC. split; [exact (C03_canonical_form I io S so B e Hio D SC Be)|].
  intros m c i. split; [exact (built_known io Hio so h D B SC KB e Be m c i)|].
  pose proof (built_on io Hio so D B half_simple e Be m c i) as Kn. split.
  - eapply Forall_impl; [|exact Kn]. intros g [_ sg]. destruct g; auto.
  - intros d j Hj dag. assert (Z : boson_power io dag j m = 0%nat).
    { unfold boson_power. clear -Kn NB. induction Kn as [|g m [kg _] Kn IH]; cbn [filter]; auto.
      destruct g as [|d' j'|]; auto. exfalso. apply in_map_iff in kg. destruct kg as [g' [E i]].
      rewrite Forall_forall in NB. apply (NB g' i). destruct g' as [| |mu c0 k]; cbn in *; try discriminate; auto. }
    rewrite Z. rewrite Forall_forall in W. specialize (W _ Hj). cbn in W. exact W.
Qed.
End NoBosons.

(** Two operators commute if and only if the commutator of the expressions is
    the zero expression. *)
Theorem C72_commutator : forall I (io : index_ops I) S V (so : scalar_ops S) sq half
  (sv : sv_ops V S) ok amp size (h : hspace I) (B : list (gen I)) a b p q v0,
  index_order io -> scalar_domain so -> lop_laws so sq half -> sv_strict so sv ok amp size ->
  hs_fresh io h -> Forall int_mult (spaces h) ->
  Forall spin_half B -> Forall (known io (spaces h)) B -> Forall (fun g => algebra_id g <> (-2)%Z) B ->
  built io so B a -> built io so B b ->
  e_mul (std_gen_ops io) so a b = Ok p -> e_mul (std_gen_ops io) so b a = Ok q ->
  state_of so ok amp size (spaces h) v0 ->
  let run := lop_run so sq half sv in
  exists La Lb, make_loperator io a h = LOk La /\ make_loperator io b h = LOk Lb /\
  ((forall v w u w' u', state_of so ok amp size (spaces h) v ->
      run Lb v w -> run La w u -> run La v w' -> run Lb w' u' -> forall y, amp u y = amp u' y)
   <-> e_sub (std_gen_ops io) so p q = []).
Proof.
  intros I io S V so sq half sv ok amp size h B a b p q v0 Hio D LL SS Fr IM HS KB NB Ba Bb Ep Eq V0 run. subst run.
  pose proof (reachable_inv io Hio h (fresh_reachable io h Fr)) as Hi. pose proof (fresh_algs io Hio h Fr) as HA.
  pose proof (ll_ring _ _ _ LL) as L. destruct (basis_exists io h Hi) as [bas HB].
  pose proof (simple_consistent B (half_simple B HS)) as SC.
  assert (Bp : built io so B p) by (eapply b_mul; [exact Ba|exact Bb|exact Ep]).
  assert (Bq : built io so B q) by (eapply b_mul; [exact Bb|exact Ba|exact Eq]).
  pose proof (fun e => built_make io Hio so h Hi HA D B SC KB e) as MK. pose proof (fun e => built_canonical io Hio so D B SC e) as CN.
  destruct (MK a Ba) as [La Ea]. destruct (MK b Bb) as [Lb Eb]. exists La, Lb. split; auto. split; auto.
  assert (NBs : Forall (fun g => is_b g = false) B).
  { eapply Forall_impl; [|exact NB]. intros g hg. destruct g; cbn in *; auto. congruence. }
  assert (FE : forall e, built io so B e -> faithful_expr io so (spaces h) e).
  { intros e Be. apply (built_faithful io Hio so D h B HS KB NB e Hi); auto. apply Hi. }
  assert (SUB : e_sub (std_gen_ops io) so p q = [] <-> p = q).
  { pose proof (C03_canonical_form I io S so B p Hio D SC Bp) as Cp. pose proof (C03_canonical_form I io S so B q Hio D SC Bq) as Cq.
    split.
    - intros E. pose proof (std_order io Hio) as Hgo. apply (canonical_wf io Hio) in Cp, Cq. destruct Cp as [p1 p2], Cq as [q1 q2].
      apply (coef_ext (std_gen_ops io) Hgo so L); auto. intros m.
      assert (Z : coef (std_gen_ops io) so (e_sub (std_gen_ops io) so p q) m = s_zero so) by (rewrite E; apply coef_nil).
      unfold e_sub in Z. rewrite (coef_sub_assign _ Hgo so L) in Z by auto.
      rewrite (sl_sub so L) in Z. apply (s_add_cancel so L (s_neg so (coef (std_gen_ops io) so q m))).
      rewrite (sl_add_comm so L), Z, (s_neg_l so L). reflexivity.
    - intros <-. apply (C04_group_laws I io S so p p p Hio L Cp Cp Cp). }
  rewrite SUB. pose proof (mel_mul io Hio so sq half LL h Hi bas HB D B SC KB) as MM.
  split.
  - intros H. apply (same_mel io Hio so D sq half LL h Hi bas HB p q (FE p Bp) (FE q Bq)). intros x y ix iy.
    assert (Vx : valid_state (spaces h) x) by now apply HB.
    destruct (basis_vector so sq half LL sv ok amp size SS h v0 x V0 Vx) as [v [Vv Av]].
    destruct (run_ex io Hio so sq half LL sv ok amp size SS h Hi HA IM bas HB b Lb v (CN b Bb) Eb Vv) as [w R1].
    destruct (run_spec io Hio so sq half LL sv ok amp size SS h Hi HA IM bas HB b Lb v w (CN b Bb) Eb Vv R1) as [Vw _].
    destruct (run_ex io Hio so sq half LL sv ok amp size SS h Hi HA IM bas HB a La w (CN a Ba) Ea Vw) as [u R2].
    destruct (run_ex io Hio so sq half LL sv ok amp size SS h Hi HA IM bas HB a La v (CN a Ba) Ea Vv) as [w' R3].
    destruct (run_spec io Hio so sq half LL sv ok amp size SS h Hi HA IM bas HB a La v w' (CN a Ba) Ea Vv R3) as [Vw' _].
    destruct (run_ex io Hio so sq half LL sv ok amp size SS h Hi HA IM bas HB b Lb w' (CN b Bb) Eb Vw') as [u' R4].
    pose proof (H v w u w' u' Vv R1 R2 R3 R4 y) as Hy.
    destruct (run_two io Hio so sq half LL sv ok amp size SS h Hi HA IM bas HB a b La Lb v w u (CN a Ba) (CN b Bb) Ea Eb Vv R1 R2) as [_ Au].
    destruct (run_two io Hio so sq half LL sv ok amp size SS h Hi HA IM bas HB b a Lb La v w' u' (CN b Bb) (CN a Ba) Eb Ea Vv R3 R4) as [_ Au'].
    rewrite Au, Au' in Hy.
    assert (SI : forall f, ssum so (fun z => s_mul so (f z) (amp v z)) bas = f x).
    { intros f. rewrite (ssum_single so L bas x); [|apply HB|auto|].
      - now rewrite Av, N.eqb_refl, (sl_mul_1_r so L).
      - intros z _ ne. rewrite Av. destruct (N.eqb_spec x z); [congruence|]. apply (mul_0_r so L). }
    rewrite !SI in Hy. rewrite (MM a b p y x), (MM b a q y x) by auto. exact Hy.
  - intros E v w u w' u' Vv R1 R2 R3 R4 y.
    destruct (run_two io Hio so sq half LL sv ok amp size SS h Hi HA IM bas HB a b La Lb v w u (CN a Ba) (CN b Bb) Ea Eb Vv R1 R2) as [Vu Au].
    destruct (run_two io Hio so sq half LL sv ok amp size SS h Hi HA IM bas HB b a Lb La v w' u' (CN b Bb) (CN a Ba) Eb Ea Vv R3 R4) as [Vu' Au'].
    destruct (in_bas_dec bas y) as [iy|ny].
    + rewrite Au, Au'. apply ssum_ext. intros x ix. f_equal.
      rewrite <- (MM a b p y x), <- (MM b a q y x) by auto. now rewrite E.
    + rewrite (vec_zero so sq half LL ok amp size h bas HB u y Vu ny), (vec_zero so sq half LL ok amp size h bas HB u' y Vu' ny). reflexivity.
Qed.
Print Assumptions C72_commutator.

(** The operator of e is self-adjoint if and only if conj(e) == e. *)
Theorem C72_hermitian : forall I (io : index_ops I) S V (so : scalar_ops S) sq half
  (sv : sv_ops V S) ok amp size (h : hspace I) (B : list (gen I)) a a' v0 bas,
  index_order io -> scalar_domain so -> lop_laws so sq half -> conj_laws so -> real_constants so sq half ->
  sv_strict so sv ok amp size -> hs_fresh io h -> Forall int_mult (spaces h) ->
  Forall spin_half B -> Forall (known io (spaces h)) B -> Forall (fun g => algebra_id g <> (-2)%Z) B ->
  built io so B a -> e_conj (std_gen_ops io) so a = Ok a' ->
  state_of so ok amp size (spaces h) v0 -> basis_of (spaces h) bas ->
  let run := lop_run so sq half sv in
  let dot p q := ssum so (fun x => s_mul so (s_conj so (amp p x)) (amp q x)) bas in
  exists A, make_loperator io a h = LOk A /\
  ((forall v w Av Aw, state_of so ok amp size (spaces h) v -> state_of so ok amp size (spaces h) w ->
      run A v Av -> run A w Aw -> dot Aw v = dot w Av) <-> a' = a).
Proof.
  intros I io S V so sq half sv ok amp size h B a a' v0 bas Hio D LL CL RC SS Fr IM HS KB NB Ba E V0 HB run dot. subst run dot. cbv beta.
  pose proof (reachable_inv io Hio h (fresh_reachable io h Fr)) as Hi. pose proof (fresh_algs io Hio h Fr) as HA.
  pose proof (ll_ring _ _ _ LL) as L. pose proof (simple_consistent B (half_simple B HS)) as SC.
  assert (Ba' : built io so B a') by (eapply b_conj; [exact Ba|exact E]).
  pose proof (fun e => built_make io Hio so h Hi HA D B SC KB e) as MK. pose proof (fun e => built_canonical io Hio so D B SC e) as CN.
  destruct (MK a Ba) as [A Ea]. exists A. split; auto.
  assert (FE : forall e, built io so B e -> faithful_expr io so (spaces h) e).
  { intros e Be. apply (built_faithful io Hio so D h B HS KB NB e Hi); auto. apply Hi. }
  split.
  - intros H. apply (same_mel io Hio so D sq half LL h Hi bas HB a' a (FE a' Ba') (FE a Ba)). intros x y ix iy.
    rewrite (mel_conj io Hio so sq half LL D CL RC (spaces h) (proj1 Hi) (proj1 (proj2 Hi)) bas HB B SC KB NB a a' y x Ba E iy ix).
    assert (Vx : valid_state (spaces h) x) by now apply HB. assert (Vy : valid_state (spaces h) y) by now apply HB.
    destruct (basis_vector so sq half LL sv ok amp size SS h v0 x V0 Vx) as [v [Vv Av]].
    destruct (basis_vector so sq half LL sv ok amp size SS h v0 y V0 Vy) as [w [Vw Aw]].
    destruct (run_ex io Hio so sq half LL sv ok amp size SS h Hi HA IM bas HB a A v (CN a Ba) Ea Vv) as [wv Rv].
    destruct (run_ex io Hio so sq half LL sv ok amp size SS h Hi HA IM bas HB a A w (CN a Ba) Ea Vw) as [ww Rw].
    pose proof (H v w wv ww Vv Vw Rv Rw) as Q.
    pose proof (run_basis io Hio so sq half LL sv ok amp size SS h Hi HA IM bas HB a A v wv x (CN a Ba) Ea Vv Vx Av Rv) as Mv.
    pose proof (run_basis io Hio so sq half LL sv ok amp size SS h Hi HA IM bas HB a A w ww y (CN a Ba) Ea Vw Vy Aw Rw) as Mw.
    rewrite (ssum_single so L bas x) in Q; [|apply HB|auto|].
    2: { intros z _ ne. rewrite Av. destruct (N.eqb_spec x z); [congruence|]. apply (mul_0_r so L). }
    rewrite (ssum_single so L bas y) in Q; [|apply HB|auto|].
    2: { intros z _ ne. rewrite Aw. destruct (N.eqb_spec y z); [congruence|]. rewrite (sconj_0 so D CL). apply (mul_0_l so L). }
    rewrite Av, Aw, !N.eqb_refl, (sl_mul_1_r so L), (sconj_1 so D CL), (sl_mul_1_l so L), Mv, Mw in Q. exact Q.
  - intros EQ v w Av Aw Vv Vw Rv Rw. subst a'.
    destruct (C33_adjoint I io S V so sq half sv ok amp size h B a a Hio D LL CL RC SS Fr IM SC KB NB Ba E) as [A1 [A2 [E1 [E2 Q]]]].
    rewrite Ea in E1, E2. injection E1 as <-. injection E2 as <-. exact (Q bas v w Av Aw HB Vv Vw Rv Rw).
Qed.
Print Assumptions C72_hermitian.

(** *** The conditions are needed *)
Lemma sum_zero {S} (so : scalar_ops S) (L : scalar_laws so) (f : N -> S) b : (forall x, In x b -> f x = s_zero so) -> ssum so f b = s_zero so.
Proof. intros H. induction b as [|x b IH]; cbn; auto. rewrite H, IH by (intros; try apply H; cbn; auto). apply (sl_add_0 so L). Qed.

(** (a+_i)^d is not the zero expression, but its operator is zero when the space
    of boson i has dimension d. *)
Theorem C72_truncation_needed : forall I (io : index_ops I) S V (so : scalar_ops S) sq half
  (sv : sv_ops V S) ok amp size (h : hspace I) d i,
  index_order io -> scalar_domain so -> lop_laws so sq half -> sv_strict so sv ok amp size ->
  hs_fresh io h -> Forall int_mult (spaces h) -> In (ESBoson d i) (spaces h) ->
  let e := [(repeat (GBoson true i) (N.to_nat d), s_one so)] in
  canonical_expr io so e /\
  exists A, make_loperator io e h = LOk A /\
  forall v w, state_of so ok amp size (spaces h) v -> lop_run so sq half sv A v w -> forall y, amp w y = s_zero so.
Proof.
  intros I io S V so sq half sv ok amp size h d i Hio D LL SS Fr IM Hd e.
  pose proof (reachable_inv io Hio h (fresh_reachable io h Fr)) as Hi. pose proof (fresh_algs io Hio h Fr) as HA.
  pose proof (ll_ring _ _ _ LL) as L. pose proof (ll_comm _ _ _ LL) as MC. destruct (basis_exists io h Hi) as [bas HB]. pose proof Hi as [S0 [W _]].
  assert (RG : forall (g g' : gen I) n, In g' (repeat g n) -> g' = g) by (intros g g' n; apply repeat_spec).
  assert (CE : canonical_mono io (repeat (GBoson true i) (N.to_nat d))).
  { split; [|split].
    - generalize (N.to_nat d) as n. induction n as [|n IH]; cbn; constructor; auto. rewrite Forall_forall. intros g hg. left. symmetry. eapply RG; eauto.
    - intros pre g h0 post E C. assert (Ig : In g (repeat (GBoson true i) (N.to_nat d))) by (rewrite E; apply in_app_iff; right; now left).
      apply RG in Ig. subst g. inversion C.
    - intros [pre [post [mu [c [j [n [_ [_ [hn E]]]]]]]]].
      assert (Ig : In (GSpin mu c j) (repeat (GBoson true i) (N.to_nat d))).
      { rewrite E. apply in_app_iff. right. apply in_app_iff. left. destruct n; [lia|]. now left. }
      apply RG in Ig. discriminate. }
  assert (KN : Forall (known io (spaces h)) (repeat (GBoson true i) (N.to_nat d))).
  { rewrite Forall_forall. intros g hg. apply RG in hg. subst g. exists (ESBoson d i). split; auto. cbn. now apply (sto_eq _ _ _ Hio). }
  split.
  - split; [repeat constructor|]. intros m c [E|[]]. injection E as <- <-. split; auto. exact (one_nz so D sq half LL).
  - assert (CM : canonical_monos io e) by (intros m c [E|[]]; injection E as <- <-; exact CE).
    destruct (make_known io Hio h Hi HA e CM) as [A EA]; [intros m c [E|[]]; injection E as <- <-; exact KN|].
    exists A. split; auto. intros v w Vv R y.
    destruct (run_spec io Hio so sq half LL sv ok amp size SS h Hi HA IM bas HB e A v w CM EA Vv R) as [Vw [_ Aw]].
    destruct (in_bas_dec bas y) as [iy|ny]; [|now apply (vec_zero so sq half LL ok amp size h bas HB)].
    rewrite Aw. apply (sum_zero so L). intros x ix. unfold e. cbn [mel].
    assert (Z : amp1 so (mono_act io so sq half (spaces h) (repeat (GBoson true i) (N.to_nat d)) x) y = s_zero so).
    { assert (Vx : valid_state (spaces h) x) by now apply HB. assert (Vy : valid_state (spaces h) y) by now apply HB.
      rewrite (factorise io Hio so L MC sq half (spaces h) S0 W _ x y KN Vx Vy (fun k => match nth_error (spaces h) k with
        | Some e0 => lel so sq half e0 (part io e0 (repeat (GBoson true i) (N.to_nat d))) (fld (spaces h) x k e0) (fld (spaces h) y k e0) | None => s_one so end)).
      2: { intros k e0 E0. now rewrite E0. }
      apply In_nth_error in Hd. destruct Hd as [k Ek].
      rewrite (prod_zero so L (length (spaces h)) _ k); [apply (mul_0_r so L)|apply nth_error_Some; congruence|].
      rewrite Ek. unfold lel.
      assert (PT : part io (ESBoson d i) (repeat (GBoson true i) (N.to_nat d)) = bmono i (N.to_nat d) 0).
      { unfold bmono, part. cbn [repeat]. rewrite app_nil_r. generalize (N.to_nat d) as n. induction n as [|n IH]; cbn [repeat filter carries]; auto.
        rewrite (proj2 (sto_eq _ _ _ Hio i i) eq_refl). now f_equal. }
      rewrite PT. assert (hx : fld (spaces h) x k (ESBoson d i) < d) by exact (valid_field (spaces h) k (ESBoson d i) x Vx Ek).
      destruct (lrun_boson so D sq half LL d i (N.to_nat d) 0 _ hx) as [c [_ ->]]. rewrite N2Nat.id.
      destruct (N.ltb_spec (fld (spaces h) x k (ESBoson d i) - N.of_nat 0 + d) d); [lia|]. now rewrite andb_false_r. }
    rewrite Z, (mul_0_r so L), (sl_add_0 so L). apply (mul_0_l so L).
Qed.
Print Assumptions C72_truncation_needed.

(** For spin 1, S_z^3 and S_z are different expressions of the same operator. *)
Theorem C72_spin_one_refuted : forall I (io : index_ops I) S V (so : scalar_ops S) sq half
  (sv : sv_ops V S) ok amp size (h : hspace I) i,
  index_order io -> scalar_domain so -> lop_laws so sq half -> sv_strict so sv ok amp size ->
  hs_fresh io h -> Forall int_mult (spaces h) -> In (ESSpin 3 i) (spaces h) ->
  let z := GSpin 3 Zcomp i in
  let a := [([z; z; z], s_one so)] in let b := [([z], s_one so)] in
  canonical_expr io so a /\ canonical_expr io so b /\ a <> b /\
  exists A B, make_loperator io a h = LOk A /\ make_loperator io b h = LOk B /\
  forall v wa wb, state_of so ok amp size (spaces h) v ->
    lop_run so sq half sv A v wa -> lop_run so sq half sv B v wb -> forall y, amp wa y = amp wb y.
Proof.
  intros I io S V so sq half sv ok amp size h i Hio D LL SS Fr IM Hd z a b.
  pose proof (reachable_inv io Hio h (fresh_reachable io h Fr)) as Hi. pose proof (fresh_algs io Hio h Fr) as HA.
  pose proof (ll_ring _ _ _ LL) as L. destruct (basis_exists io h Hi) as [bas HB]. pose proof Hi as [S0 [W _]].
  assert (CM : forall n, canonical_mono io (repeat z n)).
  { intros n. assert (RG : forall g, In g (repeat z n) -> g = z) by (intros g; apply repeat_spec). split; [|split].
    - clear RG. induction n as [|n IH]; cbn; constructor; auto. rewrite Forall_forall. intros g hg. left. symmetry. eapply repeat_spec; eauto.
    - intros pre g h0 post E C. assert (Ig : In g (repeat z n)) by (rewrite E; apply in_app_iff; right; now left).
      apply RG in Ig. subst g. inversion C.
    - intros [pre [post [mu [c [j [k [nz [_ [hn E]]]]]]]]].
      assert (Ig : In (GSpin mu c j) (repeat z n)).
      { rewrite E. apply in_app_iff. right. apply in_app_iff. left. destruct k; [lia|]. now left. }
      apply RG in Ig. injection Ig as -> -> ->. congruence. }
  assert (KN : known io (spaces h) z) by (exists (ESSpin 3 i); split; auto; cbn; now apply (sto_eq _ _ _ Hio)).
  pose proof (one_nz so D sq half LL) as O1.
  assert (CA : canonical_expr io so a).
  { split; [repeat constructor|]. intros m c [E|[]]. injection E as <- <-. split; auto. exact (CM 3%nat). }
  assert (CB : canonical_expr io so b).
  { split; [repeat constructor|]. intros m c [E|[]]. injection E as <- <-. split; auto. exact (CM 1%nat). }
  split; auto. split; auto. split; [discriminate|].
  assert (MA : canonical_monos io a) by (intros m c j; apply (proj2 CA m c j)).
  assert (MB : canonical_monos io b) by (intros m c j; apply (proj2 CB m c j)).
  destruct (make_known io Hio h Hi HA a MA) as [A EA]; [intros m c [E|[]]; injection E as <- <-; repeat constructor; exact KN|].
  destruct (make_known io Hio h Hi HA b MB) as [B EB]; [intros m c [E|[]]; injection E as <- <-; repeat constructor; exact KN|].
  exists A, B. split; auto. split; auto. intros v wa wb Vv Ra Rb y.
  destruct (run_spec io Hio so sq half LL sv ok amp size SS h Hi HA IM bas HB a A v wa MA EA Vv Ra) as [_ [_ ->]].
  destruct (run_spec io Hio so sq half LL sv ok amp size SS h Hi HA IM bas HB b B v wb MB EB Vv Rb) as [_ [_ ->]].
  apply ssum_ext. intros x ix. apply HB in ix. f_equal. unfold a, b. cbn [mel mono_act]. f_equal. f_equal.
  apply In_nth_error in Hd. destruct Hd as [k Ek].
  assert (ST : site io (spaces h) z k (ESSpin 3 i)) by (split; auto; cbn; now apply (sto_eq _ _ _ Hio)).
  assert (GA : exists c, gen_act io so sq half (spaces h) z x = Some (c, x) /\ s_mul so c (s_mul so c c) = c).
  { rewrite (gen_act_loc io Hio so sq half L (spaces h) z k (ESSpin 3 i) x S0 ST).
    pose proof (valid_field (spaces h) k (ESSpin 3 i) x ix Ek) as hv. cbn [es_dim] in hv. change (N.of_nat 3) with 3 in hv.
    pose proof (set_field_same x (offset (spaces h) k) (es_nbits (ESSpin 3 i))) as SF.
    set (n := bit_field x (offset (spaces h) k) (es_nbits (ESSpin 3 i))) in *. unfold loc, z. cbv beta iota. rewrite SF. unfold jwf. cbn [LOpSite.is_f].
    eexists. split; [reflexivity|]. rewrite (sl_mul_1_l so L). clearbody n. clear SF.
    assert (n = 0 \/ n = 1 \/ n = 2) as [-> |[-> | ->]] by lia.
    - change (2 * Z.of_N 0 - (Z.of_nat 3 - 1))%Z with (- (2))%Z. rewrite (half_neg so sq half LL), (ll_half_2 _ _ _ LL).
      rewrite (s_mul_neg_l so L), (s_mul_neg_r so L), (s_mul_neg_l so L), !(sl_mul_1_l so L). now rewrite (s_neg_neg so L).
    - change (2 * Z.of_N 1 - (Z.of_nat 3 - 1))%Z with 0%Z. rewrite (half_0 so sq half LL). apply (mul_0_l so L).
    - change (2 * Z.of_N 2 - (Z.of_nat 3 - 1))%Z with 2%Z. rewrite (ll_half_2 _ _ _ LL). now rewrite !(sl_mul_1_l so L). }
  destruct GA as [c [G1 G2]]. cbn [obind]. rewrite !G1. cbn [obind]. rewrite !G1. cbn [obind]. rewrite !G1. cbn [amp1]. destruct (x =? y); auto.
  rewrite !(sl_mul_1_l so L). rewrite <- (sl_mul_assoc so L). exact G2.
Qed.
Print Assumptions C72_spin_one_refuted.

(** ** Non-vacuity: complex amplitudes, two fermions, a boson of dimension 5 and a spin 1/2 *)
Definition hs_fa : hspace Z := Eval vm_compute in
  fst (hs_of_args ioZ [ESSpin 2 0%Z; ESFermion 1%Z; ESBoson 5 0%Z; ESFermion 0%Z]).
Example hs_fa_spaces : spaces hs_fa = [ESFermion 0%Z; ESFermion 1%Z; ESBoson 5 0%Z; ESSpin 2 0%Z].
Proof. reflexivity. Qed.
Definition fa_mono : list (gen Z) := [GFermion true 0%Z; GFermion false 1%Z; GBoson true 0%Z; GBoson true 0%Z; GBoson false 0%Z; GSpin 2 Plus 0%Z].
Definition fa_B : list (gen Z) := [GFermion true 0%Z; GFermion false 1%Z; GSpin 2 Plus 0%Z].

Example C72_faithful_ex :
  index_order ioZ /\ scalar_domain cplx_ops /\ lop_laws cplx_ops cplx_sq cplx_half /\ conj_laws cplx_ops /\
  real_constants cplx_ops cplx_sq cplx_half /\
  sv_strict cplx_ops (sparse_sv cplx_ops) (sparse_nz cplx_ops) (sparse_amp cplx_ops) sp_size /\
  hs_fresh ioZ hs_fa /\ Forall int_mult (spaces hs_fa) /\
  faithful_expr ioZ cplx_ops (spaces hs_fa) [(fa_mono, s_one cplx_ops)] /\
  state_of cplx_ops (sparse_nz cplx_ops) (sparse_amp cplx_ops) sp_size (spaces hs_fa) (mk_sparse (2 ^ 6) []) /\
  (* the hypotheses of C72_commutator and C72_hermitian *)
  Forall spin_half fa_B /\ Forall (known ioZ (spaces hs_fa)) fa_B /\ Forall (fun g => algebra_id g <> (-2)%Z) fa_B /\
  exists a a' p q, e_mono (std_gen_ops ioZ) cplx_ops (0, 1)%R fa_B = Ok a /\ built ioZ cplx_ops fa_B a /\
    e_conj (std_gen_ops ioZ) cplx_ops a = Ok a' /\ built ioZ cplx_ops fa_B a' /\
    e_mul (std_gen_ops ioZ) cplx_ops a a' = Ok p /\ e_mul (std_gen_ops ioZ) cplx_ops a' a = Ok q.
Proof.
  pose proof cplx_domain as D. pose proof cplx_laws as L.
  assert (K4 : known ioZ (spaces hs_fa) (GFermion true 0%Z) /\ known ioZ (spaces hs_fa) (GFermion false 1%Z) /\
    (forall d, known ioZ (spaces hs_fa) (GBoson d 0%Z)) /\ known ioZ (spaces hs_fa) (GSpin 2 Plus 0%Z)).
  { rewrite hs_fa_spaces. repeat split.
    - exists (ESFermion 0%Z). split; [cbn; auto|reflexivity].
    - exists (ESFermion 1%Z). split; [cbn; auto|reflexivity].
    - intros d. exists (ESBoson 5 0%Z). split; [cbn; auto|reflexivity].
    - exists (ESSpin 2 0%Z). split; [cbn; auto|reflexivity]. }
  destruct K4 as [k1 [k2 [k3 k4]]].
  split; [exact sto_Z|]. split; [exact D|]. split; [exact cplx_lop|]. split; [exact cplx_conj|].
  split; [constructor; intros; unfold cplx_sq, cplx_half; cbn; f_equal; apply Ropp_0|]. split; [now apply C32_sparse|].
  split.
  { apply hf_vector with (l := [ESSpin 2 0%Z; ESFermion 1%Z; ESBoson 5 0%Z; ESFermion 0%Z]);
      [repeat constructor; cbn; lia|vm_compute; reflexivity]. }
  split; [rewrite hs_fa_spaces; repeat constructor; reflexivity|]. split.
  { split.
    - split; [repeat constructor|]. intros m c [E|[]]. injection E as <- <-. split; [|exact (one_nz cplx_ops D cplx_sq cplx_half cplx_lop)]. split; [|split].
      + unfold fa_mono. repeat constructor; try (left; reflexivity); right; constructor.
      + intros [|a1 [|a2 [|a3 [|a4 [|a5 [|a6 a7]]]]]] ga gb post0 E C; cbn in E; inversion E; subst; try (inversion C; fail). destruct a7; discriminate.
      + intros (p & q & mu & c & i & n & _ & _ & h2 & E). unfold fa_mono in E.
        destruct n as [|[|n]]; [lia|lia|]. cbn [repeat app] in E.
        destruct p as [|a1 [|a2 [|a3 [|a4 [|a5 [|a6 a7]]]]]]; cbn in E; inversion E; subst; try (destruct a7; discriminate).
    - intros m c [E|[]]. injection E as <- <-. split; [unfold fa_mono; repeat constructor; auto|]. split; [unfold fa_mono; repeat constructor; cbn; auto|].
      rewrite hs_fa_spaces. intros d i [E|[E|[E|[E|[]]]]] dag; inversion E; subst. destruct dag; vm_compute; reflexivity. }
  split.
  { split; [repeat constructor; intros ? []|]. split; [rewrite hs_fa_spaces; vm_compute; discriminate|]. intros x hx. exfalso. apply hx. reflexivity. }
  split; [repeat constructor|]. split; [repeat constructor; auto|]. split; [repeat constructor; discriminate|].
  assert (SC : spin_consistent fa_B).
  { apply simple_consistent. repeat constructor. }
  assert (MK : forall p q, q <> 0%Z -> s_make cplx_ops (VRat p q) <> None) by (intros p q hq; cbn [s_make cplx_ops real_ops option_map]; destruct (Z.eqb_spec q 0); [contradiction|]; intros h; inversion h).
  pose proof (std_make_frac ioZ cplx_ops L MK) as AM.
  assert (TP : forall e : list (list (gen Z) * (R * R)), Pe (fun _ => True) e) by (intros e m c _; apply Forall_forall; auto).
  destruct (e_mono_total (std_gen_ops ioZ) cplx_ops (fun _ => True) AM (0, 1)%R fa_B) as [a Ea]; [repeat constructor|].
  assert (Ba : built ioZ cplx_ops fa_B a) by (eapply b_mono; [apply incl_refl|exact Ea]).
  destruct (C12_never_throws Z ioZ _ cplx_ops fa_B a sto_Z D SC Ba (or_introl MK)) as [a' E'].
  destruct (e_mul_total (std_gen_ops ioZ) cplx_ops (fun _ => True) AM a a' (TP a) (TP a')) as [p Ep].
  destruct (e_mul_total (std_gen_ops ioZ) cplx_ops (fun _ => True) AM a' a (TP a') (TP a)) as [q Eq].
  exists a, a', p, q. repeat split; auto. eapply b_conj; [exact Ba|exact E'].
Qed.
