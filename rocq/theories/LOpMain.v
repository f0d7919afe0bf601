(** Linear operators of whole expressions acting on state vectors. *)
From Coq Require Import NArith ZArith List Bool Sorted Permutation Lia.
From Verif Require Import BitsModel BitsSpec BitsProofs ExprModel ExprSpec ExprOrder ExprEval ExprStd ExprCanon ExprMain ExprThrow
  HSModel HSSpec HSEnum HSProofs HSMain PropHS LOpModel LOpSpec LOpFermion LOpSite LOpActF LOpActB LOpActS LOpComm LOpApply
  LOpMatrix LOpThrow.
Import ListNotations.
Open Scope N_scope.
Open Scope list_scope.

Section Main.
Context {I S V : Type} (io : index_ops I) (Hio : index_order io).
Context (so : scalar_ops S) (sq : N -> S) (half : Z -> S) (LL : lop_laws so sq half).
Let L : scalar_laws so := ll_ring _ _ _ LL.
Let MC : forall x y, s_mul so x y = s_mul so y x := ll_comm _ _ _ LL.
Context (sv : sv_ops V S) (ok : V -> Prop) (amp : V -> N -> S) (size : V -> N).
Context (SS : sv_strict so sv ok amp size).
Let SV := svs_laws _ _ _ _ _ SS.
Notation mel := (mel io so sq half).
Notation run := (lop_run so sq half sv).
Context (h : hspace I) (Hi : hs_inv io h) (HA : hs_algs_ok h) (IM : Forall int_mult (spaces h)).
Notation l := (spaces h).
Notation vec := (state_of so ok amp size l).
Notation go := (std_gen_ops io).

Lemma basis_exists : exists bas, basis_of l bas.
Proof.
  pose proof Hi as [S0 [W _]].
  exists (basis_list l). split.
  - pose proof (basis_list_sorted l W) as St. clear -St.
    induction St as [|x t St IH F]; constructor; auto. rewrite Forall_forall in F. intros i. apply F in i. lia.
  - intros x. now apply basis_list_In.
Qed.
Context (bas : list N) (HB : basis_of l bas).

Definition canonical_monos (e : list (list (gen I) * S)) : Prop := forall m c, In (m, c) e -> canonical_mono io m.

Lemma vec_entries v ent : vec v -> sv_entries sv v ent -> Forall (fun p => valid_state l (fst p)) ent.
Proof.
  intros [O [Sz Sp]] E. rewrite Forall_forall. intros [x a] i. cbn. apply Sp.
  destruct (svl_entries _ _ _ _ _ SV v ent O E) as [_ [_ [H _]]]. rewrite <- (H x a i).
  exact (svs_nonzero _ _ _ _ _ SS v ent x a O E i).
Qed.
Lemma mel_valid e y x : valid_state l x -> mel l e y x <> s_zero so -> valid_state l y.
Proof.
  pose proof Hi as [S0 [W _]].
  intros V0. induction e as [|[m c] e IH]; cbn [LOpSpec.mel]; [congruence|]. intros nz.
  destruct (mono_act io so sq half l m x) as [[k z]|] eqn:E; cbn [amp1] in nz.
  - destruct (N.eqb_spec z y) as [<-|ne]; [eapply mono_act_valid; eauto|].
    apply IH. rewrite (mul_0_r so L), (sl_add_0 so L) in nz. exact nz.
  - apply IH. rewrite (mul_0_r so L), (sl_add_0 so L) in nz. exact nz.
Qed.
Lemma ssum_nonzero (f : N -> S) b : ssum so f b <> s_zero so -> exists x, In x b /\ f x <> s_zero so.
Proof.
  induction b as [|x b IH]; cbn [ssum]; [congruence|]. intros nz.
  destruct (s_is_zero so (f x)) eqn:E.
  - apply (sl_is_zero so L) in E. rewrite E, (sl_add_0 so L) in nz. destruct (IH nz) as [y [i n]]. exists y. cbn; auto.
  - exists x. split; cbn; auto. intros E'. apply (sl_is_zero so L) in E'. congruence.
Qed.

Lemma apply_vec e Lp v dst ent : canonical_monos e -> make_loperator io e h = LOk Lp -> vec v -> ok dst ->
  2 ^ N.of_nat (total_bits l) <= size dst -> sv_entries sv v ent ->
  exists w, act_entries so sq half sv Lp ent (sv_zero sv dst) = Some w /\ vec w /\ size w = size dst /\
    forall y, amp w y = ssum so (fun x => s_mul so (mel l e y x) (amp v x)) bas.
Proof.
  intros C E Vv Od Sd Ee. pose proof Vv as [O [Sz Sp]].
  destruct (apply_spec io Hio so L sq half MC (half_0 so sq half LL) sv ok amp size SV h e Lp bas v ent dst Hi HA IM C E HB O Od Sd Ee)
    as [w [E1 [E2 [E3 E4]]]].
  { now apply (vec_entries v). }
  exists w. split; auto. split; [|split; auto]. split; auto. split; [lia|].
  intros y nz. rewrite E4 in nz. apply ssum_nonzero in nz. destruct nz as [x [i n]].
  apply (mel_valid e y x); [now apply HB|]. intros Z. apply n. now rewrite Z, (mul_0_l so L).
Qed.
Lemma run_spec e Lp v w : canonical_monos e -> make_loperator io e h = LOk Lp -> vec v -> run Lp v w ->
  vec w /\ size w = size v /\ forall y, amp w y = ssum so (fun x => s_mul so (mel l e y x) (amp v x)) bas.
Proof.
  intros C E Vv [ent [Ee R]]. pose proof Vv as [O [Sz Sp]].
  destruct (apply_vec e Lp v v ent C E Vv O Sz Ee) as [w' [E1 [E2 [E3 E4]]]].
  unfold lop_apply in R. rewrite R in E1. inversion E1; subst. auto.
Qed.
Lemma run_exists e Lp v : canonical_monos e -> make_loperator io e h = LOk Lp -> vec v ->
  (exists ent, sv_entries sv v ent) /\ forall ent, sv_entries sv v ent -> exists w, lop_apply so sq half sv Lp v ent = Some w.
Proof.
  intros C E Vv. split; [apply (svl_visits _ _ _ _ _ SV)|]. intros ent Ee.
  destruct (apply_vec e Lp v v ent C E Vv (proj1 Vv) (proj1 (proj2 Vv)) Ee) as [w [E1 _]]. now exists w.
Qed.

Lemma run_two ea eb La Lb v w u : canonical_monos ea -> canonical_monos eb ->
  make_loperator io ea h = LOk La -> make_loperator io eb h = LOk Lb -> vec v -> run Lb v w -> run La w u ->
  vec u /\ forall y, amp u y = ssum so (fun x => s_mul so (ssum so (fun z => s_mul so (mel l ea y z) (mel l eb z x)) bas) (amp v x)) bas.
Proof.
  intros Ca Cb Ea Eb Vv R1 R2. destruct (run_spec eb Lb v w Cb Eb Vv R1) as [Vw [_ Aw]].
  destruct (run_spec ea La w u Ca Ea Vw R2) as [Vu [_ Au]]. split; auto. intros y. rewrite Au.
  rewrite (ssum_ext so _ (fun z => ssum so (fun x => s_mul so (s_mul so (mel l ea y z) (mel l eb z x)) (amp v x)) bas)).
  2: { intros z _. rewrite Aw, <- (ssum_mul_l so L). apply ssum_ext. intros x _. apply (sl_mul_assoc so L). }
  rewrite (ssum_swap so L). apply ssum_ext. intros x _. now rewrite (ssum_mul_r so L).
Qed.
Lemma vec_zero v y : vec v -> ~ In y bas -> amp v y = s_zero so.
Proof.
  intros [_ [_ Sp]] ni. destruct (s_is_zero so (amp v y)) eqn:E; [now apply (sl_is_zero so L)|].
  exfalso. apply ni. apply HB. apply Sp. intros E'. apply (sl_is_zero so L) in E'. congruence.
Qed.
Lemma in_bas_dec y : {In y bas} + {~ In y bas}.
Proof. apply in_dec, N.eq_dec. Qed.
(** single generators *)
Lemma mel_gen g y x : mel l [([g], s_one so)] y x = rho io so sq half l g y x.
Proof.
  cbn [LOpSpec.mel mono_act obind]. unfold LOpMatrix.rho, col. rewrite (sl_mul_1_l so L), (sadd_0_r so L).
  destruct (gen_act io so sq half l g x) as [[k z]|]; auto. now rewrite (sl_mul_1_l so L).
Qed.
Lemma canonical_gen g : canonical_monos [([g], s_one so)].
Proof.
  intros m c [E|[]]. inversion E; subst. split; [repeat constructor|]. split.
  - intros [|a [|b pre]] g0 h0 post Q; inversion Q.
  - intros [pre [post [mu [c0 [i [n [_ [_ [hn Q]]]]]]]]]. apply (f_equal (@length _)) in Q.
    rewrite !app_length, repeat_length in Q. cbn in Q. lia.
Qed.

(** *** expressions over known generators *)
Lemma make_known {C} (e : list (list (gen I) * C)) : (forall m c, In (m, c) e -> canonical_mono io m) ->
  (forall m c, In (m, c) e -> Forall (known io l) m) -> exists Lp, make_loperator io e h = LOk Lp.
Proof.
  intros C0 K. pose proof (lop_make_spec io Hio h e Hi HA C0) as Q.
  destruct (make_loperator io e h) as [Lp|g| |]; [now exists Lp| |contradiction|contradiction].
  destruct Q as [m [c [i [j nk]]]]. exfalso. apply nk. specialize (K m c i). rewrite Forall_forall in K. auto.
Qed.

Context (D : scalar_domain so) (B : list (gen I)) (SC : spin_consistent B) (KB : Forall (known io l) B).
Lemma admissible_known g : admissible B g -> known io l g.
Proof.
  rewrite Forall_forall in KB. destruct g as [d i|d i|m c i]; cbn [admissible]; intros [x hx]; specialize (KB _ hx);
  destruct KB as [e [ie ce]]; exists e; (split; [exact ie|]); destruct e; cbn in *; auto; discriminate.
Qed.
Lemma built_canonical e : built io so B e -> canonical_monos e.
Proof.
  intros Be m c i. apply (built_inv io Hio so D B SC) in Be. apply (inv_canonical io Hio) in Be.
  destruct Be as [_ Be]. exact (proj1 (Be m c i)).
Qed.
Lemma built_known e : built io so B e -> forall m c, In (m, c) e -> Forall (known io l) m.
Proof.
  intros Be m c i. apply (built_inv io Hio so D B SC) in Be. destruct Be as [_ [_ Be]].
  destruct (Be m c i) as [_ F]. eapply Forall_impl; [|exact F]. intros g. apply admissible_known.
Qed.
Lemma built_make e : built io so B e -> exists Lp, make_loperator io e h = LOk Lp.
Proof. intros Be. apply make_known; [now apply built_canonical|now apply built_known]. Qed.

(** matrix elements of sums, multiples and products *)
Let S0 : StronglySorted (es_before io) l := proj1 Hi.
Let W : Forall es_wf l := proj1 (proj2 Hi).
Notation ro := (mat_ops so bas).
Notation rho := (rho io so sq half l).
Let MR : is_ring ro := mat_ring so L bas (proj1 HB).
Let MS : scalar_image so ro (mat_scalar so) rho := mat_scalars so L bas (proj1 HB) MC rho.
Let em := eval_expr_mel io Hio so sq half LL l S0 W bas HB.

Lemma mel_add a b y x : In y bas -> In x bas -> mel l (e_add go so a b) y x = s_add so (mel l a y x) (mel l b y x).
Proof.
  intros iy ix. rewrite <- !em by auto.
  apply (ev_add_assign go (std_order io Hio) so L ro MR (mat_scalar so) rho MS b a y x iy ix).
Qed.
Lemma mel_sub a b y x : In y bas -> In x bas -> mel l (e_sub go so a b) y x = s_sub so (mel l a y x) (mel l b y x).
Proof.
  intros iy ix. rewrite (sl_sub so L), <- !em by auto.
  apply (ev_sub_assign go (std_order io Hio) so L ro MR (mat_scalar so) rho MS a b y x iy ix).
Qed.
Lemma mel_neg a y x : In y bas -> In x bas -> mel l (e_neg so a) y x = s_neg so (mel l a y x).
Proof.
  intros iy ix. rewrite <- !em by auto.
  apply (ev_neg so L ro MR (mat_scalar so) rho MS a y x iy ix).
Qed.
Lemma mel_mul a b p y x : Forall (fun g => is_b g = false) B -> built io so B a -> built io so B b ->
  e_mul go so a b = Ok p -> In y bas -> In x bas ->
  mel l p y x = ssum so (fun z => s_mul so (mel l a y z) (mel l b z x)) bas.
Proof.
  intros NBs Ba Bb E iy ix. rewrite <- em by auto.
  assert (PE : forall e, built io so B e -> Pexpr (adm (good io l) B) e).
  { intros e Be. pose proof (built_known e Be) as K. apply (built_inv io Hio so D B SC) in Be. destruct Be as [_ [_ Be]].
    apply Forall_forall. intros [m c] i. cbn. specialize (K m c i). destruct (Be m c i) as [_ F].
    rewrite Forall_forall in K, F, NBs |- *. intros g ig. split; [auto|]. split; [auto|].
    specialize (F g ig). destruct g; cbn in *; auto. destruct F as [d' F]. exact (NBs _ F). }
  etransitivity.
  - apply (e_mul_sound go (std_order io Hio) so L ro MR (mat_scalar so) rho MS (adm (good io l) B)
      (std_sound_on io Hio so L ro (mat_scalar so) rho MR MS (good io l) (good_spin io l)
        (matrices_relations io Hio so sq half LL l S0 W bas HB) B SC) a b p (PE a Ba) (PE b Bb) E y x iy ix).
  - cbn. apply ssum_ext. intros z iz. now rewrite !em.
Qed.
End Main.
