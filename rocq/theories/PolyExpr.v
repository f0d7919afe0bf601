(** Programs with polynomial coefficients *)
From Coq Require Import ZArith List Bool Lia Ring Setoid.
From Verif Require Import ExprModel ExprSpec ExprOrder ExprMap ExprEval ExprStd ExprCanon ExprThrow ExprMain ExprHom
  ConvSpec PropConv FockSpec PropUnique PolyModel PolySpec PolyProofs PolyConv.
Import ListNotations.
Close Scope Qc_scope.
Close Scope Q_scope.
Close Scope string_scope.
Open Scope nat_scope.
Open Scope list_scope.

(** a conversion that loses nothing can be made before or after the program *)
Lemma run_convert {G S T} (go : gen_ops G) (to : scalar_ops T) (so : scalar_ops S) (f : T -> S) :
  exact_conversion to so f -> forall P e, run go to P = Ok e -> run go so (pmap f P) = Ok (convert_all f e).
Proof.
  intros X. destruct (C78_commutes G go S T so to f X) as (A & Sb & M & _ & _ & Mo & K & _ & Sc & AC & SC & _).
  induction P as [x|x m|a IHa b IHb|a IHa b IHb|a IHa b IHb|x a IHa|a IHa x|a IHa x]; intros e E; cbn [run pmap] in *.
  - inversion E. now rewrite K.
  - now apply Mo.
  - destruct (run go to a) as [x| |]; try discriminate. destruct (run go to b) as [y| |]; try discriminate. cbn in E. inversion E.
    rewrite (IHa _ eq_refl), (IHb _ eq_refl). cbn. now rewrite A.
  - destruct (run go to a) as [x| |]; try discriminate. destruct (run go to b) as [y| |]; try discriminate. cbn in E. inversion E.
    rewrite (IHa _ eq_refl), (IHb _ eq_refl). cbn. now rewrite Sb.
  - destruct (run go to a) as [x| |]; try discriminate. destruct (run go to b) as [y| |]; try discriminate. cbn in E.
    rewrite (IHa _ eq_refl), (IHb _ eq_refl). cbn. now apply M.
  - destruct (run go to a) as [y| |]; try discriminate. cbn in E. inversion E. rewrite (IHa _ eq_refl). cbn. now rewrite Sc.
  - destruct (run go to a) as [y| |]; try discriminate. cbn in E. inversion E. rewrite (IHa _ eq_refl). cbn. now rewrite AC.
  - destruct (run go to a) as [y| |]; try discriminate. cbn in E. inversion E. rewrite (IHa _ eq_refl). cbn. now rewrite SC.
Qed.

Section Val.
Context {I S : Type} (io : index_ops I) (Hio : index_order io) (so : scalar_ops S) (D : scalar_domain so).
Context (B : list (gen I)) (HB : Forall simple B).
Notation go := (std_gen_ops io).
Let L := sd_laws _ D.

Lemma run_built P : forall e, incl (uses P) B -> run go so P = Ok e -> built io so B e.
Proof.
  induction P as [x|x m|a IHa b IHb|a IHa b IHb|a IHa b IHb|x a IHa|a IHa x|a IHa x]; intros e U E; cbn [run uses] in *.
  - inversion E. apply b_scalar.
  - eapply b_mono; eauto.
  - destruct (run go so a) as [x| |]; try discriminate. destruct (run go so b) as [y| |]; try discriminate. cbn in E. inversion E.
    apply incl_app_inv in U. apply b_add; [apply IHa|apply IHb]; tauto.
  - destruct (run go so a) as [x| |]; try discriminate. destruct (run go so b) as [y| |]; try discriminate. cbn in E. inversion E.
    apply incl_app_inv in U. apply b_sub; [apply IHa|apply IHb]; tauto.
  - destruct (run go so a) as [x| |]; try discriminate. destruct (run go so b) as [y| |]; try discriminate. cbn in E.
    apply incl_app_inv in U. eapply b_mul; [apply IHa|apply IHb|exact E]; tauto.
  - destruct (run go so a) as [y| |]; try discriminate. cbn in E. inversion E. apply b_const_mul. auto.
  - destruct (run go so a) as [y| |]; try discriminate. cbn in E. inversion E. apply b_add_const. auto.
  - destruct (run go so a) as [y| |]; try discriminate. cbn in E. inversion E. apply b_sub_const. auto.
Qed.

Section Ring.
Context {R : Type} (ro : ring_ops R) (inj : S -> R) (rho : gen I -> R).
Context (Hr : is_ring ro) (SI : scalar_image so ro inj rho) (RL : relations_on (on_sites (map site_of B)) so ro inj rho).
Notation ev := (eval_expr ro inj rho).

Lemma run_value P : forall e, incl (uses P) B -> run go so P = Ok e -> req ro (ev e) (meaning ro inj rho P).
Proof.
  pose proof (ri_equiv _ Hr) as EQ. pose proof (ri_mul_ext _ Hr) as MX. pose proof (ri_add_ext _ Hr) as AX. pose proof (ri_opp_ext _ Hr) as OX.
  assert (AC : forall y x, req ro (ev (e_add_const go so y x)) (radd ro (ev y) (inj x))).
  { intros y x. rewrite (add_const_ins go so). destruct (s_is_zero so x) eqn:Z.
    - apply (sl_is_zero _ L) in Z. subst x. now rewrite (si_0 _ _ _ _ SI), (ri_add_comm _ Hr), (ri_add_0 _ Hr).
    - rewrite (ev_ins go (std_order io Hio) so L ro Hr inj rho SI). cbn [eval_mono]. now rewrite (ri_mul_1_r _ Hr), (ri_add_comm _ Hr). }
  assert (SC : forall y x, req ro (ev (e_sub_const go so y x)) (radd ro (ev y) (ropp ro (inj x)))).
  { intros y x. assert (N : req ro (inj (s_neg so x)) (ropp ro (inj x))).
    { apply (inj_neg so L ro Hr inj rho SI). }
    rewrite (sub_const_ins go so L). destruct (s_is_zero so x) eqn:Z.
    - rewrite <- N. apply (sl_is_zero _ L) in Z. subst x. rewrite (s_neg_zero so L).
      now rewrite (si_0 _ _ _ _ SI), (ri_add_comm _ Hr), (ri_add_0 _ Hr).
    - rewrite (ev_ins go (std_order io Hio) so L ro Hr inj rho SI). cbn [eval_mono]. now rewrite (ri_mul_1_r _ Hr), (ri_add_comm _ Hr), N. }
  induction P as [x|x m|a IHa b IHb|a IHa b IHb|a IHa b IHb|x a IHa|a IHa x|a IHa x]; intros e U E; cbn [run uses meaning] in *.
  - inversion E. apply (const_value so D ro inj rho Hr SI).
  - eapply (e_mono_sound go (std_order io Hio) so L ro Hr inj rho SI _ (sound_on io Hio so D B HB ro inj rho Hr SI RL)); [|exact E].
    apply Forall_forall. intros g i. apply U in i.
    pose proof (proj1 (Forall_forall _ _) (admissible_self B) g i) as ai. split; [exact ai|exact (admissible_on B HB g ai)].
  - destruct (run go so a) as [x| |]; try discriminate. destruct (run go so b) as [y| |]; try discriminate. cbn in E. inversion E.
    apply incl_app_inv in U. rewrite (add_value io Hio so D ro inj rho Hr SI), (IHa x), (IHb y); try tauto; try reflexivity.
  - destruct (run go so a) as [x| |]; try discriminate. destruct (run go so b) as [y| |]; try discriminate. cbn in E. inversion E.
    apply incl_app_inv in U. rewrite (ev_sub_assign go (std_order io Hio) so L ro Hr inj rho SI), (IHa x), (IHb y); try tauto; try reflexivity.
  - destruct (run go so a) as [x| |] eqn:Ea; try discriminate. destruct (run go so b) as [y| |] eqn:Eb; try discriminate. cbn in E.
    apply incl_app_inv in U. destruct U as [Ua Ub].
    rewrite (mul_value io Hio so D B HB ro inj rho Hr SI RL x y e (run_built a x Ua Ea) (run_built b y Ub Eb) E), (IHa x), (IHb y); try assumption; try reflexivity.
  - destruct (run go so a) as [y| |]; try discriminate. cbn in E. inversion E. rewrite (scale_value so D ro inj rho Hr SI), (IHa y); auto; reflexivity.
  - destruct (run go so a) as [y| |]; try discriminate. cbn in E. inversion E. rewrite AC, (IHa y); auto; reflexivity.
  - destruct (run go so a) as [y| |]; try discriminate. cbn in E. inversion E. rewrite SC, (IHa y); auto; reflexivity.
Qed.
End Ring.
End Val.

(** ** Evaluation at a point *)
Section At.
Context {I T : Type} (io : index_ops I) (Hio : index_order io) (bo : scalar_ops T) (D : scalar_domain bo).
Context (C : forall a b, s_mul bo a b = s_mul bo b a) (x : T).
Context (B : list (gen I)) (HB : Forall simple B).
Notation go := (std_gen_ops io).
Let L := sd_laws _ D.
Notation at_x p := (poly_eval bo p x).
Definition hv (p : cpoly bo) : T := heval bo x (proj1_sig p).

Lemma hv_pack l : hv (pack bo l) = heval bo x l.
Proof. apply (heval_ext bo L). intros n. apply (norm_cf bo L). Qed.
Lemma hv_pj p : hv (pj bo p) = at_x p.
Proof. apply (heval_pj bo L C). Qed.
Lemma hv_0 : hv (s_zero (cpoly_ops bo)) = s_zero bo.
Proof. reflexivity. Qed.
Lemma hv_1 : hv (s_one (cpoly_ops bo)) = s_one bo.
Proof. cbn [s_one cpoly_ops]. rewrite hv_pack. cbn [heval]. now rewrite (ml0 bo L), (ad0 bo L). Qed.
Lemma hv_add p q : hv (s_add (cpoly_ops bo) p q) = s_add bo (hv p) (hv q).
Proof. cbn [s_add cpoly_ops]. rewrite hv_pack. apply (heval_add bo L). Qed.
Lemma hv_mul p q : hv (s_mul (cpoly_ops bo) p q) = s_mul bo (hv p) (hv q).
Proof. cbn [s_mul cpoly_ops]. rewrite hv_pack. apply (heval_mul bo L C). Qed.

Section Ring.
Context {R : Type} (ro : ring_ops R) (inj : T -> R) (rho : gen I -> R).
Context (Hr : is_ring ro) (SI : scalar_image bo ro inj rho) (RL : relations_on (on_sites (map site_of B)) bo ro inj rho).
Notation inj' := (fun p : cpoly bo => inj (hv p)).

Lemma si_at : scalar_image (cpoly_ops bo) ro inj' rho.
Proof.
  constructor.
  - rewrite hv_0. apply (si_0 _ _ _ _ SI).
  - rewrite hv_1. apply (si_1 _ _ _ _ SI).
  - intros p q. rewrite hv_add. apply (si_add _ _ _ _ SI).
  - intros p q. rewrite hv_mul. apply (si_mul _ _ _ _ SI).
  - intros p g. apply (si_comm _ _ _ _ SI).
Qed.
Lemma rl_at : relations_on (on_sites (map site_of B)) (cpoly_ops bo) ro inj' rho.
Proof.
  assert (H2 : forall h, s_add (cpoly_ops bo) h h = s_one (cpoly_ops bo) -> s_add bo (hv h) (hv h) = s_one bo).
  { intros h E. now rewrite <- hv_add, E, hv_1. }
  destruct RL. constructor; auto.
  intros i h k E. rewrite hv_mul. auto.
Qed.

Lemma ev_at (h : list (list (gen I) * poly)) :
  eval_expr ro inj' rho (convert_all (pj bo) h) = eval_expr ro inj rho (expr_at bo x h).
Proof.
  induction h as [|[m p] h IH]; [reflexivity|]. cbn [convert_all map fst snd eval_expr expr_at]. rewrite hv_pj. f_equal. exact IH.
Qed.
Lemma meaning_at (P : prog (gen I) poly) :
  meaning ro inj' rho (pmap (pj bo) P) = meaning ro inj rho (pmap (fun p => at_x p) P).
Proof. induction P; cbn [pmap meaning]; rewrite ?hv_pj; congruence. Qed.
Lemma uses_pmap {S S'} (f : S -> S') (P : prog (gen I) S) : uses (pmap f P) = uses P.
Proof. induction P; cbn [pmap uses]; congruence. Qed.

Lemma value_at P h : incl (uses P) B -> run go (poly_ops bo) P = Ok h ->
  req ro (eval_expr ro inj rho (expr_at bo x h)) (meaning ro inj rho (pmap (fun p => at_x p) P)).
Proof.
  intros U E. apply (run_convert go _ _ _ (poly_exact bo L)) in E.
  rewrite <- ev_at, <- meaning_at.
  apply (run_value io Hio (cpoly_ops bo) (cpoly_domain bo L D) B HB ro inj' rho Hr si_at rl_at); [now rewrite uses_pmap|exact E].
Qed.
End Ring.
End At.
