(** Values of Hermitian conjugates: conj() evaluates in a ring like the
    original expression does in the opposite ring. *)
From Coq Require Import ZArith Bool Lia List Setoid Morphisms Ncring Ncring_tac.
From Verif Require Import ExprModel ExprSpec ExprOrder ExprMap ExprEval ExprStd ExprCanon ExprMain.
Import ListNotations.
Open Scope nat_scope.
Open Scope list_scope.

Lemma conj_comp_invol c : conj_comp (conj_comp c) = c.
Proof. now destruct c. Qed.
Lemma gen_conj_invol {I} (g : gen I) : gen_conj_gen (gen_conj_gen g) = g.
Proof. destruct g as [[|] i|[|] i|m [| |] i]; reflexivity. Qed.

Section ScalarConj.
Context {S : Type} (so : scalar_ops S) (D : scalar_domain so) (CL : conj_laws so).
Let L := sd_laws _ D.
Lemma sconj_0 : s_conj so (s_zero so) = s_zero so.
Proof. now apply (conj_zero so D CL). Qed.
Lemma sconj_1 : s_conj so (s_one so) = s_one so.
Proof.
  pose proof (cl_mul _ CL (s_conj so (s_one so)) (s_one so)) as E.
  rewrite !(cl_invol _ CL), !(sl_mul_1_r _ L), (cl_invol _ CL) in E. now rewrite <- E.
Qed.
Lemma sconj_half h : s_add so h h = s_one so -> s_add so (s_conj so h) (s_conj so h) = s_one so.
Proof. intros E. now rewrite <- (cl_add _ CL), E, sconj_1. Qed.
End ScalarConj.

(** the opposite ring *)
Definition op_ring {R} (ro : ring_ops R) : ring_ops R :=
  mk_ring _ (req ro) (r0 ro) (r1 ro) (radd ro) (fun x y => rmul ro y x) (ropp ro).

Lemma op_is_ring {R} (ro : ring_ops R) : is_ring ro -> is_ring (op_ring ro).
Proof.
  intros H. pose proof (ri_equiv _ H) as EQ. constructor; cbn.
  - apply H.
  - apply H.
  - intros x x' e y y' e'. now apply (ri_mul_ext _ H).
  - apply H.
  - apply (ri_add_comm _ H).
  - apply (ri_add_assoc _ H).
  - apply (ri_add_0 _ H).
  - apply (ri_opp _ H).
  - intros x y z. symmetry. apply (ri_mul_assoc _ H).
  - apply (ri_mul_1_r _ H).
  - apply (ri_mul_1_l _ H).
  - intros x y z. apply (ri_dist_r _ H).
  - intros x y z. apply (ri_dist_l _ H).
Qed.

Section Conj.
Context {I S R : Type} (io : index_ops I) (Hio : index_order io).
Context (so : scalar_ops S) (D : scalar_domain so) (CL : conj_laws so).
Context (ro : ring_ops R) (inj : S -> R) (rho : gen I -> R).
Context (Hr : is_ring ro) (SI : scalar_image so ro inj rho).
Let L := sd_laws _ D.
Let Hgo := std_order io Hio.

Local Instance opsI : @Ring_ops R (r0 ro) (r1 ro) (radd ro) (rmul ro) (rsub ro) (ropp ro) (req ro)
  := nc_ops ro.
Local Instance ringI : @Ring _ _ _ _ _ _ _ _ opsI := nc_ring ro Hr.
Local Instance eqI : Equivalence (req ro) := ri_equiv _ Hr.
Local Instance addI : Proper (req ro ==> req ro ==> req ro) (radd ro) := ri_add_ext _ Hr.
Local Instance mulI : Proper (req ro ==> req ro ==> req ro) (rmul ro) := ri_mul_ext _ Hr.
Local Instance oppI : Proper (req ro ==> req ro) (ropp ro) := ri_opp_ext _ Hr.
Notation "x == y" := (req ro x y) (at level 70).
Notation "x + y" := (radd ro x y).
Notation "x * y" := (rmul ro x y).
Notation "- x" := (ropp ro x).
Ltac ncr := non_commutative_ring.
Notation go := (std_gen_ops io).
Notation em := (eval_mono ro rho).
Notation ev := (eval_expr ro inj rho).

Definition injc (x : S) : R := inj (s_conj so x).
Definition rhoc (g : gen I) : R := rho (gen_conj_gen g).
Notation evo := (eval_expr (op_ring ro) injc rhoc).
Notation emo := (eval_mono (op_ring ro) rhoc).

Lemma op_scalar_image : scalar_image so (op_ring ro) injc rhoc.
Proof.
  constructor; unfold injc, rhoc; cbn [op_ring req r0 r1 radd rmul].
  - rewrite (sconj_0 so D CL). apply (si_0 _ _ _ _ SI).
  - rewrite (sconj_1 so D CL). apply (si_1 _ _ _ _ SI).
  - intros x y. rewrite (cl_add _ CL). apply (si_add _ _ _ _ SI).
  - intros x y. rewrite (cl_mul _ CL). apply (si_mul _ _ _ _ SI).
  - intros x g. symmetry. apply (si_comm _ _ _ _ SI).
Qed.

Lemma rpow_op x n : rpow (op_ring ro) x n == rpow ro x n.
Proof.
  assert (C : forall k, rpow ro x k * x == x * rpow ro x k).
  { induction k as [|k IH]; simpl; [ncr|]. transitivity (x * (rpow ro x k * x)); [ncr|]. now rewrite IH. }
  induction n as [|n IH]; cbn [rpow op_ring r1 rmul]; [reflexivity|].
  rewrite IH. apply C.
Qed.

Lemma op_relations_on (K : gen I -> Prop) (Kc : forall g, K g -> K (gen_conj_gen g))
  (Ks : forall m c c' i, K (GSpin m c i) -> K (GSpin m c' i)) :
  relations_on K so ro inj rho -> relations_on K so (op_ring ro) injc rhoc.
Proof.
  intros RL.
  constructor; unfold injc, rhoc; cbn [op_ring req r0 r1 radd rmul ropp gen_conj_gen conj_comp negb].
  - intros d i k. apply (kr_c_sq _ _ _ _ _ RL). apply (Kc _ k).
  - intros d d' i j k k' n. apply (kr_c_anti _ _ _ _ _ RL); [apply (Kc _ k')|apply (Kc _ k)|congruence].
  - intros i k k'. apply (kr_c_cdag _ _ _ _ _ RL); auto.
  - intros d i j k k'. apply (kr_a_comm _ _ _ _ _ RL); [apply (Kc _ k')|apply (Kc _ k)].
  - intros i j k k' n. apply (kr_a_adag_diff _ _ _ _ _ RL); [apply (Kc _ k')|apply (Kc _ k)|congruence].
  - intros i k k'. apply (kr_a_adag _ _ _ _ _ RL); auto.
  - intros m m' c c' i j k k' n. apply (kr_s_comm _ _ _ _ _ RL); [apply (Kc _ k')|apply (Kc _ k)|congruence].
  - intros m i k. apply (kr_s_pm _ _ _ _ _ RL); auto.
  - intros m i k. rewrite (kr_s_zm _ _ _ _ _ RL m i) by (eapply Ks; eauto). ncr.
  - intros m i k. rewrite (kr_s_zp _ _ _ _ _ RL m i) by (eapply Ks; eauto). ncr.
  - intros m i c k n l. transitivity (rpow ro (rho (GSpin m (conj_comp c) i)) m); [apply rpow_op|].
    apply (kr_s_nil _ _ _ _ _ RL); auto; [apply (Kc _ k)|now destruct c].
  - intros i h k e. apply (kr_h_pm _ _ _ _ _ RL); auto. now apply (sconj_half so D CL).
  - intros i h k e. pose proof (sconj_half so D CL h e) as e'. set (h' := s_conj so h) in *.
    assert (E : inj h' + inj h' == r1 ro) by (rewrite <- (si_add _ _ _ _ SI), e'; apply (si_1 _ _ _ _ SI)).
    rewrite (kr_s_zm _ _ _ _ _ RL 2 i) by (eapply Ks; eauto).
    rewrite (kr_h_mz _ _ _ _ _ RL i h') by (auto; eapply Ks; eauto).
    rewrite (si_comm _ _ _ _ SI).
    transitivity (inj h' * rho (GSpin 2 Minus i) + - ((inj h' + inj h') * rho (GSpin 2 Minus i))); [rewrite E; ncr|ncr].
  - intros i h k e. pose proof (sconj_half so D CL h e) as e'. set (h' := s_conj so h) in *.
    assert (E : inj h' + inj h' == r1 ro) by (rewrite <- (si_add _ _ _ _ SI), e'; apply (si_1 _ _ _ _ SI)).
    rewrite (kr_s_zp _ _ _ _ _ RL 2 i) by (eapply Ks; eauto).
    rewrite (kr_h_pz _ _ _ _ _ RL i h') by (auto; eapply Ks; eauto).
    rewrite (si_comm _ _ _ _ SI).
    transitivity (- (inj h' * rho (GSpin 2 Plus i)) + ((inj h' + inj h') * rho (GSpin 2 Plus i))); [rewrite E; ncr|ncr].
  - intros i h k e. rewrite (cl_mul _ CL). apply (kr_h_zz _ _ _ _ _ RL); auto. now apply (sconj_half so D CL).
  - intros d i d' j k k'. symmetry. apply (kr_fb _ _ _ _ _ RL); [apply (Kc _ k)|apply (Kc _ k')].
  - intros d i m c j k k'. symmetry. apply (kr_fs _ _ _ _ _ RL); [apply (Kc _ k)|apply (Kc _ k')].
  - intros d i m c j k k'. symmetry. apply (kr_bs _ _ _ _ _ RL); [apply (Kc _ k)|apply (Kc _ k')].
Qed.

(** monomials of the opposite ring *)
Lemma emo_rev m : emo m == em (map gen_conj_gen (rev m)).
Proof.
  induction m as [|g m IH]; cbn [eval_mono op_ring r1 rmul rev map]; [reflexivity|].
  rewrite map_app, (em_app ro Hr rho), IH. cbn [map eval_mono]. unfold rhoc. ncr.
Qed.

Lemma injc_comm m x : em m * injc x == injc x * em m.
Proof. apply (inj_comm_em so ro Hr inj rho SI). Qed.

Context (B : list (gen I)) (HB : spin_consistent B).
Context (AS : alg_sound go so ro inj rho (admissible B)).
Notation inv := (inv go so (admissible B)).
Let AC := std_canon io Hio B HB.

Lemma inv_P a : inv a -> Pexpr (admissible B) a.
Proof.
  intros [_ [_ h]]. apply Forall_forall. intros [m c] i. apply (h m c i).
Qed.

Lemma conj_gen_value g ef : admissible B g -> e_linfun go so (g_conj go g) = Ok ef ->
  ev ef == rho (gen_conj_gen g).
Proof.
  intros a E. cbn [g_conj std_gen_ops] in E. unfold e_linfun, gen_conj in E.
  cbn [const_term terms linfun_terms] in E.
  change (vn_is_zero (VInt 0)) with true in E. cbn [rbind] in E.
  rewrite (sl_make_int _ L) in E. cbn [zmul] in E. change (Pos.to_nat 1) with 1%nat in E.
  cbn [nmul] in E. rewrite (s_add_0_r so L) in E.
  destruct (s_is_zero so (s_one so)) eqn:Z.
  - apply (sl_is_zero _ L) in Z. injection E as <-. cbn [eval_expr].
    assert (K : r1 ro == r0 ro).
    { rewrite <- (si_1 _ _ _ _ SI), Z. apply (si_0 _ _ _ _ SI). }
    transitivity (r1 ro * rho (gen_conj_gen g)); [rewrite K; ncr|ncr].
  - destruct (e_mono go so (s_one so) [gen_conj_gen g]) as [d| |] eqn:Ed; try discriminate.
    cbn [rbind] in E. injection E as <-.
    rewrite (ev_add_assign go Hgo so L ro Hr inj rho SI).
    assert (Pg : Forall (admissible B) [gen_conj_gen g]).
    { constructor; [|constructor]. destruct g; exact a. }
    rewrite (e_mono_sound go Hgo so L ro Hr inj rho SI _ AS _ _ _ Pg Ed).
    cbn [eval_mono eval_expr]. rewrite (si_1 _ _ _ _ SI). ncr.
Qed.

Lemma conj_mono_value m : forall a r, Forall (admissible B) m -> inv a ->
  conj_mono go so m a = Ok r -> ev r == ev a * em (map gen_conj_gen m).
Proof.
  induction m as [|g m IH]; intros a r h1 hi E.
  - cbn [conj_mono] in E. injection E as <-. cbn [map eval_mono]. ncr.
  - inversion h1 as [|? ? a1 a2]; subst. cbn [conj_mono] in E.
    destruct (e_linfun go so (g_conj go g)) as [ef| |] eqn:Ef; try discriminate. cbn [rbind] in E.
    destruct (e_mul go so a ef) as [a'| |] eqn:Em; try discriminate. cbn [rbind] in E.
    assert (hf : inv ef).
    { eapply (e_linfun_inv io Hio so D B HB); [|exact Ef]. now apply conj_closed. }
    assert (ha : inv a').
    { eapply (e_mul_inv go Hgo so D _ AC); [exact hi|exact hf|exact Em]. }
    rewrite (IH a' r a2 ha E).
    rewrite (e_mul_sound go Hgo so L ro Hr inj rho SI _ AS _ _ _ (inv_P _ hi) (inv_P _ hf) Em).
    rewrite (conj_gen_value g ef a1 Ef). cbn [map eval_mono]. ncr.
Qed.

Lemma conj_loop_value : forall e mc out r, inv out ->
  (forall m c, In (m, c) e -> Forall (admissible B) m /\ c <> s_zero so) ->
  conj_loop go so e mc out = Ok r -> ev r == ev out + evo e.
Proof.
  induction e as [|[m x] e IH]; intros mc out r ho he E.
  - cbn [conj_loop] in E. injection E as <-. cbn [eval_expr op_ring r0]. ncr.
  - cbn [conj_loop] in E.
    destruct (he m x (or_introl eq_refl)) as [hm hx].
    assert (Z : s_is_zero so (s_conj so x) = false).
    { apply (s_is_zero_false so L). intros Z. apply hx. now apply (conj_zero so D CL). }
    rewrite Z in E.
    destruct (conj_mono go so (rev m) (e_const so (s_conj so x))) as [ct| |] eqn:Ec; try discriminate.
    cbn [rbind] in E.
    assert (hc : inv ct).
    { eapply (conj_mono_inv io Hio so D B HB); [|apply (e_const_inv go Hgo so D)|exact Ec].
      apply Forall_rev. exact hm. }
    rewrite (IH ct _ r (inv_add go Hgo so D _ _ _ ho hc) (fun m' c' i => he m' c' (or_intror i)) E).
    rewrite (ev_add_assign go Hgo so L ro Hr inj rho SI).
    rewrite (conj_mono_value _ _ _ (Forall_rev hm) (e_const_inv go Hgo so D _ _) Ec).
    rewrite (ev_const so L ro Hr inj rho SI).
    cbn [eval_expr op_ring radd rmul]. change (eval_mono _ rhoc m) with (emo m). rewrite emo_rev, injc_comm. unfold injc. ncr.
Qed.

(** the value of conj(e) is the value of e in the opposite ring *)
Lemma conj_value e r : inv e -> e_conj go so e = Ok r -> ev r == evo e.
Proof.
  intros h E. unfold e_conj in E.
  assert (he : forall m c, In (m, c) e -> Forall (admissible B) m /\ c <> s_zero so).
  { destruct h as [_ [h2 h3]]. intros m c i. split; [apply (h3 m c i)|apply (h2 m c i)]. }
  rewrite (conj_loop_value e [] [] r (inv_nil go so _) he E). cbn [eval_expr]. ncr.
Qed.

(** with an involution of the ring *)
Lemma evo_star (star : R -> R) e : Proper (req ro ==> req ro) star ->
  (forall x y, star (x + y) == star x + star y) -> (forall x y, star (x * y) == star y * star x) ->
  (forall x, star (inj x) == inj (s_conj so x)) -> (forall g, star (rho g) == rho (gen_conj_gen g)) ->
  evo e == star (ev e).
Proof.
  intros PS SA SM SI' SG.
  assert (S1 : star (r1 ro) == r1 ro).
  { rewrite <- (si_1 _ _ _ _ SI) at 1. rewrite SI', (sconj_1 so D CL). apply (si_1 _ _ _ _ SI). }
  assert (S0 : star (r0 ro) == r0 ro).
  { rewrite <- (si_0 _ _ _ _ SI) at 1. rewrite SI', (sconj_0 so D CL). apply (si_0 _ _ _ _ SI). }
  assert (M : forall m, emo m == star (em m)).
  { induction m as [|g m IH]; cbn [eval_mono op_ring r1 rmul]; [now rewrite S1|].
    change (eval_mono _ rhoc m) with (emo m). rewrite SM, SG, IH. reflexivity. }
  induction e as [|[m x] e IH]; cbn [eval_expr op_ring r0 radd rmul]; [now rewrite S0|].
  change (eval_mono _ rhoc m) with (emo m). change (eval_expr _ injc rhoc e) with (evo e).
  rewrite SA, SM, SI', M, IH. reflexivity.
Qed.

(** conjugating twice: the opposite of the opposite *)
Lemma evo_evo e : eval_expr (op_ring (op_ring ro)) (fun x => injc (s_conj so x)) (fun g => rhoc (gen_conj_gen g)) e == ev e.
Proof.
  assert (M : forall m, eval_mono (op_ring (op_ring ro)) (fun g => rhoc (gen_conj_gen g)) m == em m).
  { induction m as [|g m IH]; cbn [eval_mono op_ring r1 rmul]; [reflexivity|].
    change (eval_mono _ (fun g => rhoc (gen_conj_gen g)) m) with (eval_mono (op_ring (op_ring ro)) (fun g => rhoc (gen_conj_gen g)) m).
    rewrite IH. unfold rhoc. rewrite gen_conj_invol. reflexivity. }
  induction e as [|[m x] e IH]; cbn [eval_expr op_ring r0 radd rmul]; [reflexivity|].
  change (eval_mono _ (fun g => rhoc (gen_conj_gen g)) m) with (eval_mono (op_ring (op_ring ro)) (fun g => rhoc (gen_conj_gen g)) m).
  change (eval_expr _ (fun x => injc (s_conj so x)) (fun g => rhoc (gen_conj_gen g)) e) with
    (eval_expr (op_ring (op_ring ro)) (fun x => injc (s_conj so x)) (fun g => rhoc (gen_conj_gen g)) e).
  rewrite IH, M. unfold injc. rewrite (cl_invol _ CL). reflexivity.
Qed.
End Conj.
