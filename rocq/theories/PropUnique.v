(** * C10: uniqueness of the normal form of expressions of fermions, bosons
    and spins 1/2.  Vocabulary: ExprSpec.v, FockSpec.v. *)
From Coq Require Import ZArith Bool Lia QArith Qcanon List Sorted Permutation Setoid Morphisms.
From Verif Require Import ExprModel ExprSpec ExprOrder ExprMap ExprEval ExprStd ExprCanon ExprMain
  ExprThrow ExprInst FockSpec FockRep FockUnique PropExpr.
Import ListNotations.
Close Scope Qc_scope.
Close Scope Q_scope.
Open Scope nat_scope.
Open Scope list_scope.

Section Core.
Context {I S : Type} (io : index_ops I) (Hio : index_order io) (so : scalar_ops S) (D : scalar_domain so).
Notation go := (std_gen_ops io).
Notation emap := (list (list (gen I) * S)).
Let L := sd_laws _ D.

Lemma half_choice (l : list (gen I)) : half_if_spins so l ->
  exists h, forall i, In (SH i) (map site_of l) -> s_add so h h = s_one so.
Proof.
  intros H. induction l as [|g l IH].
  - exists (s_zero so). intros i [].
  - assert (H' : half_if_spins so l) by (intros m c i k; apply (H m c i); now right).
    destruct g as [d i|d i|m c i].
    + destruct (IH H') as [h Hh]. exists h. intros j [k|k]; [discriminate|eauto].
    + destruct (IH H') as [h Hh]. exists h. intros j [k|k]; [discriminate|eauto].
    + destruct (H m c i (or_introl eq_refl)) as [h Hh]. exists h. auto.
Qed.

Lemma canonical_unique B e1 e2 : canonical_expr io so e1 -> canonical_expr io so e2 ->
  (forall m c, In (m, c) (e1 ++ e2) -> Forall (on_sites (map site_of B)) m) -> half_if_spins so B ->
  same_operator so (map site_of B) e1 e2 -> e1 = e2.
Proof.
  intros C1 C2 HS HH SO. destruct (half_choice B HH) as [h Hh].
  pose proof (std_order io Hio) as Hgo.
  pose proof (canonical_wf io Hio so e1 C1) as [s1 n1].
  pose proof (canonical_wf io Hio so e2 C2) as [s2 n2].
  set (SB := map site_of B) in *.
  pose proof (rows_is_ring so L (St SB)) as Hr.
  pose proof (fock_scalars io Hio so L h SB Hh) as SI.
  specialize (SO _ _ _ _ Hr SI (fock_relations io Hio so L h SB Hh)).
  set (d := e_sub go so e1 e2).
  assert (Ed : d = e_add go so e1 (neg_map so e2)) by (apply (sub_assign_add _ _ L)).
  assert (sd : msorted go d) by (rewrite Ed; apply fold_ins_sorted; auto).
  assert (nd : nonzero so d).
  { rewrite Ed. apply fold_ins_nonzero; auto. now apply (neg_nonzero _ L). }
  assert (Z : forall psi y, fpoly io so h SB d psi y = s_zero so).
  { intros psi y. rewrite <- (act_eval_expr io so L h SB).
    pose proof (ev_sub_assign go Hgo so L _ Hr _ _ SI e1 e2 psi y) as K.
    unfold d, e_sub. rewrite K, (act_add so L), (act_opp so L), (SO psi y). apply (sl_neg _ L). }
  assert (G : forall t, In t d -> good io SB (fst t)).
  { intros [m c] i. rewrite Ed in i. apply (add_assign_In go Hgo) in i.
    assert (K : exists c', In (m, c') (e1 ++ e2)).
    { destruct i as [i|i].
      - apply in_map_iff in i. destruct i as [[m' c'] [E i]]. simpl in E. subst m'.
        exists c'. apply in_app_iff. auto.
      - rewrite neg_map_keys in i. apply in_map_iff in i. destruct i as [[m' c'] [E i]]. simpl in E. subst m'.
        exists c'. apply in_app_iff. auto. }
    destruct K as [c' K]. split; [|eapply HS; eauto]. cbn [fst].
    apply (canonical_pairs io Hio). apply in_app_iff in K. destruct K as [K|K]; [eapply C1|eapply C2]; eauto. }
  assert (E0 : d = []).
  { destruct d as [|[m c] d'] eqn:Q; auto. exfalso.
    apply (nd m c); [now left|]. eapply (independence io Hio so D h SB Hh); [|exact G|exact Z|now left].
    clear - sd Hio. unfold msorted in sd. induction sd as [|a l hs IH hd]; constructor; auto.
    intros i. rewrite Forall_forall in hd. apply hd in i.
    unfold klt in i. rewrite (sto_irrefl _ _ _ (mono_sto _ (std_order io Hio))) in i. discriminate. }
  apply (coef_ext go Hgo so L); auto. intros m.
  assert (K : coef go so d m = s_zero so) by (rewrite E0; reflexivity).
  unfold d, e_sub in K. rewrite (coef_sub_assign go Hgo so L) in K by auto.
  rewrite (sl_sub _ L) in K.
  apply (s_add_cancel so L (s_neg so (coef go so e2 m))).
  rewrite (s_neg_l so L), (sl_add_comm _ L). exact K.
Qed.
End Core.

(** Two stored expressions of fermions, bosons and spins 1/2 are the same
    operator if and only if they are ==. *)
Theorem C10_unique_normal_form : forall I (io : index_ops I) S (so : scalar_ops S) a b,
  index_order io -> scalar_domain so -> canonical_expr io so a -> canonical_expr io so b ->
  let gs := gens_of a ++ gens_of b in
  Forall simple gs -> half_if_spins so gs ->
  (same_operator so (map site_of gs) a b <-> a = b).
Proof.
  intros I io S so a b Hio D Ca Cb gs HS HH. split.
  - apply (canonical_unique io Hio so D); auto.
    intros m c i. rewrite Forall_forall in *. intros g ig.
    assert (In g gs).
    { unfold gs, gens_of. apply in_app_iff in i. apply in_app_iff.
      destruct i as [i|i]; [left|right]; apply in_concat; exists m; split; auto; apply in_map_iff; exists (m, c); auto. }
    split; [now apply in_map|auto].
  - intros <- R ro inj rho Hr _ _. apply (ri_equiv _ Hr).
Qed.
Print Assumptions C10_unique_normal_form.

(** a stored non-empty expression is not the zero operator *)
Theorem C10_nonzero : forall I (io : index_ops I) S (so : scalar_ops S) a,
  index_order io -> scalar_domain so -> canonical_expr io so a ->
  Forall simple (gens_of a) -> half_if_spins so (gens_of a) ->
  same_operator so (map site_of (gens_of a)) a [] -> a = [].
Proof.
  intros I io S so a Hio D Ca HS HH. 
  assert (Cn : canonical_expr io so (@nil (list (gen I) * S))) by (split; [constructor|intros ? ? []]).
  pose proof (C10_unique_normal_form I io S so a [] Hio D Ca Cn) as K. cbn in K.
  rewrite app_nil_r in K. apply K; auto.
Qed.
Print Assumptions C10_nonzero.

(** values of built expressions in rings with the relations of the sites *)
Section Values.
Context {I S : Type} (io : index_ops I) (Hio : index_order io) (so : scalar_ops S) (D : scalar_domain so).
Context (B : list (gen I)) (HB : Forall simple B).
Notation go := (std_gen_ops io).
Notation emap := (list (list (gen I) * S)).
Let L := sd_laws _ D.
Notation K := (on_sites (map site_of B)).

Lemma simple_consistent : spin_consistent B.
Proof.
  rewrite Forall_forall in HB. split.
  - intros c c' m i _ h. apply HB in h. exact h.
  - intros m c i h. apply HB in h. simpl in h. lia.
Qed.

Lemma admissible_on g : admissible B g -> K g.
Proof.
  rewrite Forall_forall in HB. destruct g as [d i|d i|m c i]; simpl; intros [x h].
  - split; [apply in_map_iff; eexists; split; [|exact h]; reflexivity|exact Logic.I].
  - split; [apply in_map_iff; eexists; split; [|exact h]; reflexivity|exact Logic.I].
  - split; [apply in_map_iff; eexists; split; [|exact h]; reflexivity|apply (HB _ h)].
Qed.

Lemma built_adm e : built io so B e -> forall m c, In (m, c) e -> Forall (adm K B) m.
Proof.
  intros h m c i. apply (built_inv io Hio so D B simple_consistent) in h.
  destruct h as [_ [_ h]]. destruct (h m c i) as [_ F].
  eapply Forall_impl; [|exact F]. intros g hg. split; auto. now apply admissible_on.
Qed.
Lemma built_on e : built io so B e -> forall m c, In (m, c) e -> Forall K m.
Proof.
  intros h m c i. eapply Forall_impl; [|eapply built_adm; eauto]. now intros g [_ k].
Qed.

(** two built expressions that are the same operator are equal *)
Lemma built_unique a b : half_if_spins so B -> built io so B a -> built io so B b ->
  same_operator so (map site_of B) a b -> a = b.
Proof.
  intros HH Ha Hb SO. apply (canonical_unique io Hio so D B); auto.
  - exact (C03_canonical_form I io S so B a Hio D simple_consistent Ha).
  - exact (C03_canonical_form I io S so B b Hio D simple_consistent Hb).
  - intros m c i. apply in_app_iff in i. destruct i as [i|i]; [exact (built_on a Ha m c i)|exact (built_on b Hb m c i)].
Qed.

Section Ring.
Context {R : Type} (ro : ring_ops R) (inj : S -> R) (rho : gen I -> R).
Context (Hr : is_ring ro) (SI : scalar_image so ro inj rho) (RL : relations_on K so ro inj rho).
Notation ev := (eval_expr ro inj rho).

Lemma on_site_comp m c c' i : K (GSpin m c i) -> K (GSpin m c' i).
Proof. intros [h1 h2]. split; auto. Qed.
Lemma sound_on : alg_sound go so ro inj rho (adm K B).
Proof. apply (std_sound_on io Hio so L ro inj rho Hr SI K on_site_comp RL B simple_consistent). Qed.

Lemma built_P e : built io so B e -> Pexpr (adm K B) e.
Proof. intros h. apply Forall_forall. intros [m c] i. eapply built_adm; eauto. Qed.

Lemma mul_value a b e : built io so B a -> built io so B b -> e_mul go so a b = Ok e ->
  req ro (ev e) (rmul ro (ev a) (ev b)).
Proof.
  intros Ha Hb E. eapply (e_mul_sound go (std_order io Hio) so L ro Hr inj rho SI (adm K B) sound_on); eauto using built_P.
Qed.
Lemma add_value (a b : emap) : req ro (ev (e_add go so a b)) (radd ro (ev a) (ev b)).
Proof. apply (ev_add_assign go (std_order io Hio) so L ro Hr inj rho SI). Qed.
Lemma const_value x : req ro (ev (e_const so x)) (inj x).
Proof. apply (ev_const so L ro Hr inj rho SI). Qed.
Lemma scale_value x (a : emap) : req ro (ev (e_mul_const_pre so x a)) (rmul ro (inj x) (ev a)).
Proof.
  pose proof (ri_equiv _ Hr) as EQ. pose proof (ri_mul_ext _ Hr) as MX. pose proof (ri_add_ext _ Hr) as AX.
  assert (Z : forall y, req ro (rmul ro y (r0 ro)) (r0 ro)).
  { intros y.
    assert (E : req ro (radd ro (rmul ro y (r0 ro)) (rmul ro y (r0 ro))) (rmul ro y (r0 ro))).
    { rewrite <- (ri_dist_l _ Hr). now rewrite (ri_add_0 _ Hr). }
    assert (E' : req ro (radd ro (radd ro (rmul ro y (r0 ro)) (rmul ro y (r0 ro))) (ropp ro (rmul ro y (r0 ro))))
                        (radd ro (rmul ro y (r0 ro)) (ropp ro (rmul ro y (r0 ro))))) by now rewrite E.
    rewrite <- (ri_add_assoc _ Hr), !(ri_opp _ Hr), (ri_add_comm _ Hr), (ri_add_0 _ Hr) in E'. exact E'. }
  assert (Z' : forall y, req ro (rmul ro (r0 ro) y) (r0 ro)).
  { intros y.
    assert (E : req ro (radd ro (rmul ro (r0 ro) y) (rmul ro (r0 ro) y)) (rmul ro (r0 ro) y)).
    { rewrite <- (ri_dist_r _ Hr). now rewrite (ri_add_0 _ Hr). }
    assert (E' : req ro (radd ro (radd ro (rmul ro (r0 ro) y) (rmul ro (r0 ro) y)) (ropp ro (rmul ro (r0 ro) y)))
                        (radd ro (rmul ro (r0 ro) y) (ropp ro (rmul ro (r0 ro) y)))) by now rewrite E.
    rewrite <- (ri_add_assoc _ Hr), !(ri_opp _ Hr), (ri_add_comm _ Hr), (ri_add_0 _ Hr) in E'. exact E'. }
  unfold e_mul_const_pre. destruct (s_is_zero so x) eqn:Ex.
  - apply (sl_is_zero _ L) in Ex. subst x. simpl. rewrite (si_0 _ _ _ _ SI), Z'. reflexivity.
  - induction a as [|[m c] a IH]; simpl.
    + now rewrite Z.
    + rewrite IH, (ri_dist_l _ Hr), (ri_mul_assoc _ Hr), (si_mul _ _ _ _ SI). reflexivity.
Qed.
End Ring.
End Values.

(** Multiplication of expressions is associative, distributive and unital
    with respect to ==. *)
Theorem C10_ring_laws : forall I (io : index_ops I) S (so : scalar_ops S) B a b c,
  index_order io -> scalar_domain so -> Forall simple B -> half_if_spins so B ->
  built io so B a -> built io so B b -> built io so B c ->
  let G := std_gen_ops io in
  (forall ab bc ab_c a_bc, e_mul G so a b = Ok ab -> e_mul G so ab c = Ok ab_c ->
     e_mul G so b c = Ok bc -> e_mul G so a bc = Ok a_bc -> ab_c = a_bc) /\
  (forall ac bc s, e_mul G so a c = Ok ac -> e_mul G so b c = Ok bc ->
     e_mul G so (e_add G so a b) c = Ok s -> s = e_add G so ac bc) /\
  (forall ca cb s, e_mul G so c a = Ok ca -> e_mul G so c b = Ok cb ->
     e_mul G so c (e_add G so a b) = Ok s -> s = e_add G so ca cb) /\
  (forall r, e_mul G so (e_const so (s_one so)) a = Ok r -> r = a) /\
  (forall r, e_mul G so a (e_const so (s_one so)) = Ok r -> r = a) /\
  (forall z r ab, e_mul G so a b = Ok ab -> e_mul G so (e_mul_const_pre so z a) b = Ok r ->
     r = e_mul_const_pre so z ab).
Proof.
  intros I io S so B a b c Hio D HB HH Ba Bb Bc G. subst G. set (G := std_gen_ops io).
  assert (MB : forall x y z, built io so B x -> built io so B y -> e_mul G so x y = Ok z -> built io so B z)
    by (intros x y z hx hy E; exact (b_mul io so B x y z hx hy E)).
  assert (AB : forall x y, built io so B x -> built io so B y -> built io so B (e_add G so x y))
    by (intros; now apply b_add).
  assert (KB : forall x, built io so B (e_const so x)) by (intros; apply b_scalar).
  pose proof (fun x y => built_unique io Hio so D B HB x y HH) as U.
  pose proof (fun R => @mul_value I S io Hio so D B HB R) as MV.
  pose proof (fun R => @add_value I S io Hio so D R) as AV. subst G.
  pose proof (fun R => @const_value I S so D R) as CV.
  Ltac bl := first [assumption
    | match goal with KB : forall x, built _ _ _ (e_const _ x) |- _ => apply KB end
    | match goal with AB : forall x y, _ -> _ -> built _ _ _ (e_add _ _ x y) |- _ => apply AB; bl end
    | match goal with
      | E : e_mul _ _ ?x ?y = Ok ?z, MB : forall x y z, _ -> _ -> _ = Ok z -> _ |- built _ _ _ ?z =>
          apply (MB x y z); [bl|bl|exact E] end ].
  split; [|split; [|split; [|split; [|split]]]].
  - intros ab bc ab_c a_bc E1 E2 E3 E4. apply U; [bl|bl|]. intros R ro inj rho Hr SI RL.
    pose proof (ri_equiv _ Hr) as EQ. pose proof (ri_mul_ext _ Hr) as MX.
    rewrite (MV _ ro inj rho Hr SI RL _ _ _ (MB _ _ _ Ba Bb E1) Bc E2), (MV _ ro inj rho Hr SI RL _ _ _ Ba Bb E1),
      (MV _ ro inj rho Hr SI RL _ _ _ Ba (MB _ _ _ Bb Bc E3) E4), (MV _ ro inj rho Hr SI RL _ _ _ Bb Bc E3).
    symmetry. apply (ri_mul_assoc _ Hr).
  - intros ac bc s E1 E2 E3. apply U; [bl|bl|]. intros R ro inj rho Hr SI RL.
    pose proof (ri_equiv _ Hr) as EQ. pose proof (ri_mul_ext _ Hr) as MX. pose proof (ri_add_ext _ Hr) as AX.
    rewrite (MV _ ro inj rho Hr SI RL _ _ _ (AB _ _ Ba Bb) Bc E3), !(AV R ro inj rho Hr SI),
      (MV _ ro inj rho Hr SI RL _ _ _ Ba Bc E1), (MV _ ro inj rho Hr SI RL _ _ _ Bb Bc E2).
    apply (ri_dist_r _ Hr).
  - intros ca cb s E1 E2 E3. apply U; [bl|bl|]. intros R ro inj rho Hr SI RL.
    pose proof (ri_equiv _ Hr) as EQ. pose proof (ri_mul_ext _ Hr) as MX. pose proof (ri_add_ext _ Hr) as AX.
    rewrite (MV _ ro inj rho Hr SI RL _ _ _ Bc (AB _ _ Ba Bb) E3), !(AV R ro inj rho Hr SI),
      (MV _ ro inj rho Hr SI RL _ _ _ Bc Ba E1), (MV _ ro inj rho Hr SI RL _ _ _ Bc Bb E2).
    apply (ri_dist_l _ Hr).
  - intros r E. apply U; [bl|bl|]. intros R ro inj rho Hr SI RL.
    pose proof (ri_equiv _ Hr) as EQ. pose proof (ri_mul_ext _ Hr) as MX.
    rewrite (MV _ ro inj rho Hr SI RL _ _ _ (KB _) Ba E), (CV R ro inj rho Hr SI), (si_1 _ _ _ _ SI).
    apply (ri_mul_1_l _ Hr).
  - intros r E. apply U; [bl|bl|]. intros R ro inj rho Hr SI RL.
    pose proof (ri_equiv _ Hr) as EQ. pose proof (ri_mul_ext _ Hr) as MX.
    rewrite (MV _ ro inj rho Hr SI RL _ _ _ Ba (KB _) E), (CV R ro inj rho Hr SI), (si_1 _ _ _ _ SI).
    apply (ri_mul_1_r _ Hr).
  - intros z r ab E1 E2.
    assert (Bz : built io so B (e_mul_const_pre so z a)) by now apply b_const_mul.
    assert (Bzz : built io so B (e_mul_const_pre so z ab)) by (apply b_const_mul; bl).
    apply U; [bl|bl|]. intros R ro inj rho Hr SI RL.
    pose proof (ri_equiv _ Hr) as EQ. pose proof (ri_mul_ext _ Hr) as MX.
    rewrite (MV _ ro inj rho Hr SI RL _ _ _ Bz Bb E2), !(scale_value so D ro inj rho Hr SI),
      (MV _ ro inj rho Hr SI RL _ _ _ Ba Bb E1).
    symmetry. apply (ri_mul_assoc _ Hr).
Qed.
Print Assumptions C10_ring_laws.

(** c^+_1 (a_2 + 1/2), c_1 S_+(0) and S_-(0) - a^+_2, over the rationals:
    the hypotheses hold and the products exist *)
Definition C10_gens : list (gen (list dyn_index)) :=
  [cdag 1; cann 1; adag 2; aann 2; spin 2 Plus 0; spin 2 Minus 0].
Definition qmono (x : Q) (m : list (gen (list dyn_index))) : list (list (gen (list dyn_index)) * Qc) :=
  match e_mono (std_gen_ops dyn_index_ops) rational_scalar_ops (Q2Qc x) m with Ok e => e | _ => [] end.
Lemma qmono_built x m : incl m C10_gens -> built dyn_index_ops rational_scalar_ops C10_gens (qmono x m).
Proof.
  intros h. unfold qmono.
  destruct (e_mono (std_gen_ops dyn_index_ops) rational_scalar_ops (Q2Qc x) m) as [e| |] eqn:E.
  - eapply b_mono; eauto.
  - apply (b_scalar dyn_index_ops rational_scalar_ops C10_gens (Q2Qc 0)).
  - apply (b_scalar dyn_index_ops rational_scalar_ops C10_gens (Q2Qc 0)).
Qed.
Example C10_example :
  let io := dyn_index_ops in let so := rational_scalar_ops in
  let a := e_add (std_gen_ops io) so (qmono 1 [cdag 1; aann 2]) (qmono (1 # 2) [cdag 1]) in
  let b := qmono 1 [cann 1; spin 2 Plus 0] in
  let c := e_sub (std_gen_ops io) so (qmono 1 [spin 2 Minus 0]) (qmono 1 [adag 2]) in
  Forall simple C10_gens /\ half_if_spins so C10_gens /\
  built io so C10_gens a /\ built io so C10_gens b /\ built io so C10_gens c /\
  exists ab abc, e_mul (std_gen_ops io) so a b = Ok ab /\ e_mul (std_gen_ops io) so ab c = Ok abc /\
    length abc = 7.
Proof.
  intros io so a b c.
  assert (H : forall l, Forall (fun g => In g C10_gens) l -> incl l C10_gens).
  { intros l h g i. rewrite Forall_forall in h. auto. }
  split; [repeat constructor|].
  split; [intros m x i _; exists (Q2Qc (1 # 2)); now apply Qc_is_canon|].
  split; [apply b_add; apply qmono_built, H; repeat constructor; simpl; tauto|].
  split; [apply qmono_built, H; repeat constructor; simpl; tauto|].
  split; [apply b_sub; apply qmono_built, H; repeat constructor; simpl; tauto|].
  destruct (e_mul (std_gen_ops io) so a b) as [ab| |] eqn:E; [|vm_compute in E; discriminate|vm_compute in E; discriminate].
  exists ab. vm_compute in E. injection E as <-.
  match goal with |- context [e_mul _ so ?x c] => destruct (e_mul (std_gen_ops io) so x c) as [abc| |] eqn:E end;
    [|vm_compute in E; discriminate|vm_compute in E; discriminate].
  exists abc. vm_compute in E. injection E as <-. repeat split.
Qed.
