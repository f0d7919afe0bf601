(** Proofs about linear operators of user-defined algebras (C68). *)
From Coq Require Import NArith ZArith List Bool Lia Setoid Morphisms.
From Verif Require Import ExprModel ExprSpec ExprOrder ExprMap ExprEval ExprCanon ExprStd ExprConj ExprMain ExprLin LinSpec AssocSpec AssocProofs
  LOpModel LOpSpec LOpActF LOpApply LOpMatrix UserActModel UserActSpec.
Import ListNotations.
Open Scope list_scope.

(** built-in operators are an instance of the generic loops *)
Lemma builtin_monos {S V} (so : scalar_ops S) sq half (sv : sv_ops V S) L x a dst :
  act_monos so sq half sv L x a dst = ulop_monos so sv (mono_run so sq half) L x a dst.
Proof.
  revert dst. induction L as [|[m c] t IH]; intros dst; cbn [act_monos ulop_monos]; auto.
Qed.

(** ** Conjugation, in a ring with an involution *)
Section AbsConj.
Context {G S R : Type} (go : gen_ops G) (so : scalar_ops S) (D : scalar_domain so) (RA : regular_algebra go so) (CL : conj_laws so).
Context (ro : ring_ops R) (Hr : is_ring ro) (inj : S -> R) (rho : G -> R) (SI : scalar_image so ro inj rho).
Context (K : G -> Prop) (AS : alg_sound go so ro inj rho K) (ACK : alg_canon go K).
Let L : scalar_laws so := sd_laws _ D.
Let Ho : gen_order go := ra_order _ _ RA.
Notation ev := (eval_expr ro inj rho).
Notation em := (eval_mono ro rho).
Notation "a == b" := (req ro a b) (at level 70).
Notation "a + b" := (radd ro a b).
Notation "a * b" := (rmul ro a b).
Local Instance eqI2 : Equivalence (req ro) := ri_equiv _ Hr.
Local Instance addI2 : Proper (req ro ==> req ro ==> req ro) (radd ro) := ri_add_ext _ Hr.
Local Instance mulI2 : Proper (req ro ==> req ro ==> req ro) (rmul ro) := ri_mul_ext _ Hr.
Notation invK := (inv go so K).
Context (star : R -> R) (SE : Proper (req ro ==> req ro) star) (SA : forall x y, star (x + y) == star x + star y)
  (SM : forall x y, star (x * y) == star y * star x) (SS : forall c, star (inj c) == inj (s_conj so c)).
Context (AD : forall g, K g -> closed K (g_conj go g) /\ (forall k v, In (k, v) (terms (g_conj go g)) -> vn_is_zero v = false) /\ forall r, lval so ro inj rho (g_conj go g) = Some r -> r == star (rho g)).

Lemma abs_mul_row_inv m1 c1 b : c1 <> s_zero so -> Forall K m1 -> nonzero so b -> made_of K b -> forall t t', invK t ->
  mul_row go so m1 c1 b t = Ok t' -> invK t'.
Proof.
  intros h1 k1. induction b as [|[m2 c2] b IH]; cbn [mul_row]; intros h2 k2 t t' h3 E1.
  - injection E1 as <-. exact h3.
  - destruct (normalize go so (m1 ++ m2) (s_mul so c1 c2) t) as [t1| |] eqn:E2; try discriminate.
    cbn [rbind] in E1. destruct (nonzero_inv so _ _ _ h2) as [h4 h5].
    eapply (IH h5 (fun m c i => k2 m c (or_intror i)) t1 t'); [|exact E1].
    eapply (normalize_inv go Ho so D K ACK); [| |exact h3|exact E2].
    + apply Forall_app. split; auto. exact (k2 m2 c2 (or_introl eq_refl)).
    + now apply (s_nz so D).
Qed.
Lemma mul_inv a b e : nonzero so a -> nonzero so b -> made_of K a -> made_of K b -> e_mul go so a b = Ok e -> invK e.
Proof.
  intros na nb ka kb. unfold e_mul.
  assert (Q : forall a t t', nonzero so a -> made_of K a -> invK t -> mul_rows go so a b t = Ok t' -> invK t').
  { clear a na ka. induction a as [|[m1 c1] a IH]; cbn [mul_rows]; intros t t' h1 k1 h3 E1.
    - injection E1 as <-. exact h3.
    - destruct (mul_row go so m1 c1 b t) as [t1| |] eqn:E2; try discriminate. cbn [rbind] in E1.
      destruct (nonzero_inv so _ _ _ h1) as [h4 h5]. eapply (IH t1 t' h5 (fun m c i => k1 m c (or_intror i))); [|exact E1].
      exact (abs_mul_row_inv m1 c1 b h4 (k1 m1 c1 (or_introl eq_refl)) nb kb t t1 h3 E2). }
  intros E. exact (Q a [] e na ka (inv_nil go so K) E).
Qed.
Lemma inv_made e : invK e -> nonzero so e /\ made_of K e.
Proof. intros [_ [h1 h2]]. split; auto. intros m c i. apply (h2 m c i). Qed.
Lemma made_P (e : list (list G * S)) : made_of K e -> Pexpr K e.
Proof. intros h. apply Forall_forall. intros [m c] i. exact (h m c i). Qed.

Lemma linfun_value f e : closed K f -> (forall g v, In (g, v) (terms f) -> vn_is_zero v = false) ->
  e_linfun go so f = Ok e -> invK e /\ exists r, lval so ro inj rho f = Some r /\ ev e == r.
Proof.
  intros h hz.
  assert (T : forall ts e e', (forall g v, In (g, v) ts -> K g /\ vn_is_zero v = false) -> invK e ->
    linfun_terms go so ts e = Ok e' -> invK e' /\ exists r, tval so ro inj rho ts = Some r /\ ev e' == ev e + r).
  { clear f e h hz. induction ts as [|[g v] ts IH]; intros e e' h ke E; cbn [linfun_terms tval] in *.
    - inversion E; subst. split; auto. exists (r0 ro). split; auto. rewrite (ri_add_comm _ Hr). symmetry. apply (ri_add_0 _ Hr).
    - destruct (h g v (or_introl eq_refl)) as [kg nz]. destruct (s_make so v) as [c|] eqn:Ev; try discriminate.
      assert (h' := fun g v i => h g v (or_intror i)).
      assert (nzc : c <> s_zero so) by (eapply (sd_const _ D); eauto).
      rewrite (proj2 (s_is_zero_false so L c) nzc) in E.
      destruct (e_mono go so c [g]) as [d| |] eqn:Ed; try discriminate. cbn [rbind] in E.
      assert (kd : invK d) by (eapply (e_mono_inv go Ho so D K ACK); [|exact Ed]; auto).
      destruct (IH _ e' h' (inv_add go Ho so D K e d ke kd) E) as [Q1 [r [Er Q2]]]. split; auto. rewrite Er.
      eexists. split; [reflexivity|].
      rewrite Q2, (ev_add_assign go Ho so L ro Hr inj rho SI d e).
      rewrite (e_mono_sound go Ho so L ro Hr inj rho SI K AS c [g] d (Forall_cons _ kg (Forall_nil _)) Ed).
      cbn [eval_mono]. rewrite (ri_mul_1_r _ Hr). symmetry. apply (ri_add_assoc _ Hr). }
  assert (ht : forall g v, In (g, v) (terms f) -> K g /\ vn_is_zero v = false).
  { intros g v i. split; [|exact (hz g v i)]. unfold closed in h. rewrite Forall_forall in h. exact (h (g, v) i). }
  unfold e_linfun, lval, cval. destruct (vn_is_zero (const_term f)) eqn:Z; cbn [rbind].
  - intros E. destruct (T _ _ _ ht (inv_nil go so K) E) as [Q1 [r [Er Q2]]]. split; auto. rewrite Er.
    eexists. split; [reflexivity|]. exact Q2.
  - destruct (s_make so (const_term f)) as [c|] eqn:Ec; try discriminate. cbn [rbind option_map]. intros E.
    assert (nz : c <> s_zero so) by (eapply (sd_const _ D); eauto).
    assert (k0 : invK [([], c)]).
    { pose proof (e_const_inv go Ho so D K c) as Q. unfold e_const in Q. rewrite (proj2 (s_is_zero_false so L c) nz) in Q. exact Q. }
    destruct (T _ _ _ ht k0 E) as [Q1 [r [Er Q2]]]. split; auto. rewrite Er. eexists. split; [reflexivity|].
    rewrite Q2. cbn [eval_expr eval_mono]. rewrite (ri_mul_1_r _ Hr). now rewrite (ri_add_comm _ Hr (inj c) (r0 ro)), (ri_add_0 _ Hr).
Qed.
Lemma star_1 : star (r1 ro) == r1 ro.
Proof. rewrite <- (si_1 _ _ _ _ SI) at 1. rewrite SS, (sconj_1 so D CL). apply (si_1 _ _ _ _ SI). Qed.
Lemma star_0 : star (r0 ro) == r0 ro.
Proof. rewrite <- (si_0 _ _ _ _ SI) at 1. rewrite SS, (sconj_0 so D CL). apply (si_0 _ _ _ _ SI). Qed.
Lemma conj_mono_star m : forall a r, Forall K m -> invK a -> conj_mono go so m a = Ok r ->
  ev r == ev a * star (em (rev m)) /\ invK r.
Proof.
  induction m as [|g m IH]; intros a r h1 hi E; cbn [conj_mono] in E.
  - injection E as <-. split; auto. cbn [rev eval_mono]. rewrite star_1. symmetry. apply (ri_mul_1_r _ Hr).
  - inversion h1 as [|? ? a1 a2]; subst.
    destruct (e_linfun go so (g_conj go g)) as [ef| |] eqn:Ef; try discriminate. cbn [rbind] in E.
    destruct (e_mul go so a ef) as [a'| |] eqn:Em; try discriminate. cbn [rbind] in E.
    destruct (AD g a1) as [cl [nzt A1]].
    destruct (linfun_value _ _ cl nzt Ef) as [Q2 [r0 [Er Q1]]].
    destruct (inv_made a hi) as [na ka]. destruct (inv_made ef Q2) as [nf kf].
    pose proof (mul_inv a ef a' na nf ka kf Em) as Q3.
    destruct (IH a' r a2 Q3 E) as [Q4 Q5]. split; auto. rewrite Q4.
    rewrite (e_mul_sound go Ho so L ro Hr inj rho SI K AS a ef a' (made_P a ka) (made_P ef kf) Em).
    rewrite Q1, (A1 _ Er). cbn [rev]. rewrite (em_app ro Hr rho), SM. cbn [eval_mono]. rewrite (ri_mul_1_r _ Hr).
    symmetry. apply (ri_mul_assoc _ Hr).
Qed.
Lemma conj_loop_star : forall e mc out r, nonzero so e -> made_of K e -> invK out -> conj_loop go so e mc out = Ok r ->
  ev r == ev out + star (ev e) /\ invK r.
Proof.
  induction e as [|[m c] e IH]; intros mc out r ne ke ho E; cbn [conj_loop] in E.
  - injection E as <-. split; auto. cbn [eval_expr]. rewrite star_0, (ri_add_comm _ Hr). symmetry. apply (ri_add_0 _ Hr).
  - assert (Z : s_is_zero so (s_conj so c) = false).
    { apply (s_is_zero_false so L). intros Z. apply (ne m c (or_introl eq_refl)). now apply (conj_zero so D CL). }
    rewrite Z in E.
    destruct (conj_mono go so (rev m) (e_const so (s_conj so c))) as [ct| |] eqn:Ec; try discriminate. cbn [rbind] in E.
    destruct (conj_mono_star (rev m) _ ct (Forall_rev (ke m c (or_introl eq_refl))) (e_const_inv go Ho so D K _) Ec) as [Q1 Q2].
    destruct (nonzero_inv so _ _ _ ne) as [_ ne'].
    destruct (IH ct _ r ne' (fun m' c' i => ke m' c' (or_intror i)) (inv_add go Ho so D K _ _ ho Q2) E) as [Q3 Q4].
    split; auto. rewrite Q3, (ev_add_assign go Ho so L ro Hr inj rho SI ct out), Q1.
    rewrite (ev_const so L ro Hr inj rho SI), rev_involutive. cbn [eval_expr].
    rewrite <- (ri_add_assoc _ Hr). apply (ri_add_ext _ Hr); [reflexivity|].
    rewrite SA, SM, SS. apply (ri_add_ext _ Hr); [|reflexivity].
    rewrite <- SS, <- !SM. apply SE. apply (inj_comm_em so ro Hr inj rho SI).
Qed.
Lemma conj_star e r : nonzero so e -> made_of K e -> e_conj go so e = Ok r -> ev r == star (ev e) /\ invK r.
Proof.
  intros ne ke E. destruct (conj_loop_star e [] [] r ne ke (inv_nil go so K) E) as [Q1 Q2]. split; auto.
  rewrite Q1. cbn [eval_expr]. apply (ri_add_0 _ Hr).
Qed.
End AbsConj.

Section Proofs.
Context {G S : Type} (go : gen_ops G) (so : scalar_ops S) (D : scalar_domain so) (RA : regular_algebra go so).
Context (MC : forall x y, s_mul so x y = s_mul so y x).
Context (n : nat) (M : G -> N -> N -> S) (K : G -> Prop) (RP : represented go so n M K).
Let L : scalar_laws so := sd_laws _ D.
Let Ho : gen_order go := ra_order _ _ RA.
Notation bas := (states n).
Notation ro := (mat_ops so bas).

Lemma states_In x : In x bas <-> is_state n x.
Proof.
  unfold states, is_state. rewrite in_map_iff. split.
  - intros [k [<- i]]. apply in_seq in i. lia.
  - intros h. exists (N.to_nat x). split; [lia|]. apply in_seq. lia.
Qed.
Lemma states_NoDup : NoDup bas.
Proof.
  unfold states. apply FinFun.Injective_map_NoDup; [|apply seq_NoDup]. intros a b h. lia.
Qed.
Let MR : is_ring ro := mat_ring so L bas states_NoDup.
Let SI : scalar_image so ro (mat_scalar so) M := mat_scalars so L bas states_NoDup MC M.
Notation ev := (eval_expr ro (mat_scalar so) M).
Notation em := (eval_mono ro M).

Lemma number_make v x : vn_is_zero v = false -> s_make so v = Some x -> number so v = x.
Proof. intros h e. unfold number. now rewrite h, e. Qed.
Lemma number_zero v : vn_is_zero v = true -> number so v = s_zero so.
Proof. intros h. unfold number. now rewrite h. Qed.

Lemma scale c (A : N -> N -> S) y x : In y bas -> In x bas -> rmul ro (mat_scalar so c) A y x = s_mul so c (A y x).
Proof. intros iy ix. now apply (scalar_mul_l so L bas states_NoDup). Qed.
Lemma tval_matrix ts r y x : (forall g v, In (g, v) ts -> vn_is_zero v = false) ->
  tval so ro (mat_scalar so) M ts = Some r -> In y bas -> In x bas -> r y x = lin_matrix so M ts y x.
Proof.
  revert r. induction ts as [|[g v] ts IH]; intros r h E iy ix; cbn [tval lin_matrix] in *.
  - inversion E; subst. reflexivity.
  - destruct (s_make so v) as [c|] eqn:Ev; try discriminate. destruct (tval so ro (mat_scalar so) M ts) as [r'|] eqn:Er; try discriminate.
    inversion E; subst. pose proof (scale c (M g) y x iy ix) as Q. cbn in Q |- *.
    rewrite Q, (IH r' (fun g v i => h g v (or_intror i)) eq_refl iy ix).
    now rewrite (number_make v c (h g v (or_introl eq_refl)) Ev).
Qed.
Lemma mone_scale c y x : s_mul so c (mone so y x) = mat_scalar so c y x.
Proof. unfold mone, mat_scalar. destruct (N.eqb y x); [apply (sl_mul_1_r so L)|apply (mul_0_r so L)]. Qed.
Lemma lval_matrix f r y x : (forall g v, In (g, v) (terms f) -> vn_is_zero v = false) ->
  lval so ro (mat_scalar so) M f = Some r -> In y bas -> In x bas -> r y x = fun_matrix so M f y x.
Proof.
  intros h E iy ix. unfold lval in E. destruct (cval so ro (mat_scalar so) (const_term f)) as [a|] eqn:Ea; try discriminate.
  destruct (tval so ro (mat_scalar so) M (terms f)) as [b|] eqn:Eb; try discriminate. inversion E; subst.
  cbn. unfold fun_matrix. rewrite (tval_matrix _ _ y x h Eb iy ix). f_equal. rewrite mone_scale.
  unfold cval in Ea. destruct (vn_is_zero (const_term f)) eqn:Z.
  - inversion Ea; subst. rewrite number_zero by auto. cbn. unfold mat_scalar. now destruct (N.eqb y x).
  - destruct (s_make so (const_term f)) as [k|] eqn:Ek; try discriminate. inversion Ea; subst.
    now rewrite (number_make _ _ Z Ek).
Qed.
Lemma vn_eqb_0 c : vn_eqb c (VInt 0) = true -> vn_is_zero c = true.
Proof. destruct c; cbn; auto; discriminate. Qed.

Lemma sound : alg_sound go so ro (mat_scalar so) M K.
Proof.
  constructor.
  - intros g h c f kg kh gt E. destruct (rp_swap _ _ _ _ _ RP g h c f kg kh gt E) as [cl R].
    destruct (nc_swap _ (ra_constants _ _ RA) _ _ _ _ gt E) as [h1 h2].
    split; [apply Forall_forall; intros [k v] i; exact (cl k v i)|]. intros r Er.
    split.
    + intros hc y x iy ix. rewrite (lval_matrix f r y x h1 Er iy ix). apply states_In in iy, ix. pose proof (R y x iy ix) as Q.
      rewrite (number_zero c (vn_eqb_0 c hc)), (mul_0_l so L), (sl_add_0 so L) in Q. exact Q.
    + intros k hc Ek y x iy ix. pose proof (lval_matrix f r y x h1 Er iy ix) as Q0.
      pose proof (scale k (rmul ro (M h) (M g)) y x iy ix) as Q1.
      apply states_In in iy, ix. pose proof (R y x iy ix) as Q.
      rewrite (number_make c k (h2 hc) Ek) in Q. etransitivity; [exact Q|]. cbn in Q1 |- *. rewrite Q1, Q0. reflexivity.
  - intros g h f kg kh gt E. destruct (rp_simplify _ _ _ _ _ RP g h f kg kh gt E) as [cl R].
    split; [apply Forall_forall; intros [k v] i; exact (cl k v i)|]. intros r Er y x iy ix.
    rewrite (lval_matrix f r y x (nc_simplify _ (ra_constants _ _ RA) _ _ _ gt E) Er iy ix).
    apply states_In in iy, ix. exact (R y x iy ix).
  - intros g k f _ _ E. rewrite (ra_reduce _ _ RA) in E. discriminate.
Qed.

Lemma ACK : alg_canon go K.
Proof.
  pose proof (AC go so RA) as A. constructor.
  - intros a b c f _ _. apply (ac_detect _ _ A); auto.
  - intros a b c f ka kb gt E. destruct (ac_swap _ _ A a b c f Logic.I Logic.I gt E) as [_ h]. split; auto.
    apply Forall_forall. intros [k v] i. exact (proj1 (rp_swap _ _ _ _ _ RP a b c f ka kb gt E) k v i).
  - intros a b f ka kb gt E. destruct (ac_simplify _ _ A a b f Logic.I Logic.I gt E) as [_ h]. split; auto.
    apply Forall_forall. intros [k v] i. exact (proj1 (rp_simplify _ _ _ _ _ RP a b f ka kb gt E) k v i).
  - intros a k f _. apply (ac_reduce _ _ A); auto.
  - apply (ac_mono _ _ A).
Qed.
Notation invK := (inv go so K).

(** values are matrices *)
Lemma em_matrix m y x : In y bas -> In x bas -> em m y x = mono_matrix so n M m y x.
Proof.
  revert y x. induction m as [|g m IH]; intros y x iy ix; cbn [eval_mono mono_matrix].
  - reflexivity.
  - cbn. apply ssum_ext. intros z iz. now rewrite IH.
Qed.
Lemma ev_matrix e y x : In y bas -> In x bas -> ev e y x = expr_matrix so n M e y x.
Proof.
  intros iy ix. induction e as [|[m c] e IH]; cbn [eval_expr expr_matrix].
  - reflexivity.
  - pose proof (scale c (em m) y x iy ix) as Q. cbn in Q |- *. rewrite Q, IH. now rewrite (em_matrix m y x iy ix).
Qed.
Lemma matrix_mul a b p : made_of K a -> made_of K b -> e_mul go so a b = Ok p ->
  forall y x, is_state n y -> is_state n x -> expr_matrix so n M p y x = mprod so n (expr_matrix so n M a) (expr_matrix so n M b) y x.
Proof.
  intros ka kb E y x iy ix. apply states_In in iy, ix. rewrite <- (ev_matrix p y x iy ix).
  rewrite (e_mul_sound go Ho so L ro MR (mat_scalar so) M SI K sound a b p (made_P K a ka) (made_P K b kb) E y x iy ix).
  cbn. apply ssum_ext. intros z iz. now rewrite (ev_matrix a y z iy iz), (ev_matrix b z x iz ix).
Qed.
Lemma matrix_add a b y x : is_state n y -> is_state n x ->
  expr_matrix so n M (e_add go so a b) y x = s_add so (expr_matrix so n M a y x) (expr_matrix so n M b y x).
Proof.
  intros iy ix. apply states_In in iy, ix. rewrite <- !ev_matrix by auto.
  exact (ev_add_assign go Ho so L ro MR (mat_scalar so) M SI b a y x iy ix).
Qed.

(** ** application *)
Section Apply.
Context {A V : Type} (make : list G -> A) (act : A -> N -> S -> ares S) (AB : acts_by so n make act M K).
Context (sv : sv_ops V S) (ok : V -> Prop) (amp : V -> N -> S) (size : V -> N) (SS : sv_strict so sv ok amp size).
Let SV := svs_laws _ _ _ _ _ SS.
Notation vec := (uvec so n ok amp size).
Notation run := (ulop_run so sv act).

Lemma monos_spec e : made_of K e -> forall x a dst, is_state n x -> ok dst -> (N.of_nat n <= size dst)%N ->
  exists dst', ulop_monos so sv act (ulop_make make e) x a dst = Some dst' /\ ok dst' /\ size dst' = size dst /\
    (forall y, is_state n y -> amp dst' y = s_add so (amp dst y) (s_mul so (expr_matrix so n M e y x) a)) /\
    (forall y, ~ is_state n y -> amp dst' y = amp dst y).
Proof.
  induction e as [|[m c] e IH]; intros ke x a dst V0 O Sz; cbn [ulop_make map ulop_monos expr_matrix fst snd].
  - exists dst. repeat split; auto. intros y _. now rewrite (mul_0_l so L), (sadd_0_r so L).
  - specialize (IH (fun m' c' i => ke m' c' (or_intror i))).
    destruct (AB m x (s_one so) (ke m c (or_introl eq_refl)) V0) as [[k [z [E1 [Vz E2]]]]|[E1 E2]].
    + rewrite E1, (sl_mul_1_l so L).
      destruct (svl_add _ _ _ _ _ SV dst z (s_mul so (s_mul so c k) a) O) as [d1 [-> [O1 [Z1 A1]]]].
      { unfold is_state in Vz. lia. }
      destruct (IH x a d1 V0 O1) as [d2 [Ed [O2 [Z2 [A2 A3]]]]]; [lia|]. unfold ulop_make in Ed. rewrite Ed.
      exists d2. repeat split; auto; [congruence| |].
      * intros y Vy. rewrite (A2 y Vy), A1, (E2 y Vy), (sl_dist_r so L), (sl_add_assoc so L). f_equal.
        destruct (N.eqb_spec z y); auto. rewrite (mul_0_r so L), (mul_0_l so L), (sadd_0_r so L). reflexivity.
      * intros y ny. rewrite (A3 y ny), A1. destruct (N.eqb_spec z y); [subst; contradiction|auto].
    + rewrite E1. destruct (IH x a dst V0 O Sz) as [d2 [Ed [O2 [Z2 [A2 A3]]]]]. unfold ulop_make in Ed. rewrite Ed.
      exists d2. repeat split; auto. intros y Vy. rewrite (A2 y Vy), (E2 y Vy). now rewrite (mul_0_r so L), (sl_add_0 so L).
Qed.
Lemma entries_spec e : made_of K e -> forall ent dst, Forall (fun p => is_state n (fst p)) ent -> ok dst -> (N.of_nat n <= size dst)%N ->
  exists dst', ulop_entries so sv act (ulop_make make e) ent dst = Some dst' /\ ok dst' /\ size dst' = size dst /\
    (forall y, is_state n y -> amp dst' y = s_add so (amp dst y) (esum so (expr_matrix so n M e y) ent)) /\
    (forall y, ~ is_state n y -> amp dst' y = amp dst y).
Proof.
  intros ke. induction ent as [|[x a] ent IH]; intros dst F O Sz; cbn [ulop_entries].
  - exists dst. repeat split; auto. intros y _. cbn. now rewrite (sadd_0_r so L).
  - inversion F as [|? ? Vx F']; subst. cbn [fst] in Vx.
    destruct (monos_spec e ke x a dst Vx O Sz) as [d1 [-> [O1 [Z1 [A1 B1]]]]].
    destruct (IH d1 F' O1) as [d2 [-> [O2 [Z2 [A2 B2]]]]]; [lia|].
    exists d2. repeat split; auto; [congruence| |].
    + intros y Vy. rewrite A2, A1 by auto. cbn [esum]. now rewrite (sl_add_assoc so L).
    + intros y ny. now rewrite B2, B1.
Qed.
Lemma vec_ent v ent : vec v -> sv_entries sv v ent -> Forall (fun p => is_state n (fst p)) ent.
Proof.
  intros [O [Sz Sp]] E. rewrite Forall_forall. intros [x a] i. cbn. apply Sp.
  destruct (svl_entries _ _ _ _ _ SV v ent O E) as [_ [_ [H _]]]. rewrite <- (H x a i).
  exact (svs_nonzero _ _ _ _ _ SS v ent x a O E i).
Qed.
Lemma run_matrix e v : made_of K e -> vec v ->
  (exists w, run (ulop_make make e) v w) /\
  forall w, run (ulop_make make e) v w -> vec w /\ size w = size v /\
    forall y, is_state n y -> amp w y = ssum so (fun x => s_mul so (expr_matrix so n M e y x) (amp v x)) bas.
Proof.
  intros ke Vv. pose proof Vv as [O [Sz Sp]].
  assert (Q : forall ent, sv_entries sv v ent -> exists w, ulop_apply so sv act (ulop_make make e) v ent = Some w /\
    vec w /\ size w = size v /\ forall y, is_state n y -> amp w y = ssum so (fun x => s_mul so (expr_matrix so n M e y x) (amp v x)) bas).
  { intros ent Ee. destruct (svl_zero _ _ _ _ _ SV v O) as [Oz [Zz Az]].
    destruct (entries_spec e ke ent (sv_zero sv v) (vec_ent v ent Vv Ee) Oz) as [w [E1 [E2 [E3 [E4 E5]]]]]; [lia|].
    exists w. split; [exact E1|]. split; [|split; [congruence|]].
    - split; auto. split; [lia|]. intros x nz. destruct (N.lt_ge_cases x (N.of_nat n)) as [h|h]; [exact h|].
      exfalso. apply nz. rewrite E5, Az; auto. unfold is_state. lia.
    - intros y Vy. rewrite (E4 y Vy), Az, (sl_add_0 so L).
      destruct (svl_entries _ _ _ _ _ SV v ent O Ee) as [N1 [_ [N2 N3]]].
      apply (esum_basis so L _ (amp v)); auto.
      + apply states_NoDup.
      + intros x i. apply states_In. pose proof (vec_ent v ent Vv Ee) as F. rewrite Forall_forall in F.
        apply in_map_iff in i. destruct i as [[x' a'] [<- i]]. exact (F _ i). }
  split.
  - destruct (svl_visits _ _ _ _ _ SV v) as [ent Ee]. destruct (Q ent Ee) as [w [E _]]. exists w, ent. auto.
  - intros w [ent [Ee R]]. destruct (Q ent Ee) as [w' [E1 E2]]. rewrite R in E1. inversion E1; subst. exact E2.
Qed.
End Apply.

(** ** conjugation *)
Section Conj.
Context (CL : conj_laws so) (AD : adjoint_matrices go so n M K).
Definition mstar (A : N -> N -> S) : N -> N -> S := fun y x => s_conj so (A x y).
Lemma cssum f l : s_conj so (ssum so f l) = ssum so (fun x => s_conj so (f x)) l.
Proof. induction l as [|x l IH]; cbn; [apply (sconj_0 so D CL)|]. now rewrite (cl_add _ CL), IH. Qed.
Lemma matrix_conj e r : nonzero so e -> made_of K e -> e_conj go so e = Ok r ->
  made_of K r /\ forall y x, is_state n y -> is_state n x -> expr_matrix so n M r y x = s_conj so (expr_matrix so n M e x y).
Proof.
  intros ne ke E.
  destruct (conj_star go so D RA CL ro MR (mat_scalar so) M SI K sound ACK mstar) with (e := e) (r := r) as [Q1 Q2]; auto.
  - intros A B h y x iy ix. unfold mstar. now rewrite (h x y ix iy).
  - intros A B y x iy ix. unfold mstar. cbn. apply (cl_add _ CL).
  - intros A B y x iy ix. unfold mstar. cbn. rewrite cssum. apply ssum_ext. intros z iz. apply (cl_mul _ CL).
  - intros c y x iy ix. unfold mstar, mat_scalar. rewrite N.eqb_sym. destruct (N.eqb y x); auto. apply (sconj_0 so D CL).
  - intros g kg. destruct (AD g kg) as [A1 A2]. split; [apply Forall_forall; intros [k v] i; exact (proj1 (A1 k v i))|].
    split; [exact (fun k v i => proj2 (A1 k v i))|].
    intros r0 Er y x iy ix. rewrite (lval_matrix _ r0 y x (fun k v i => proj2 (A1 k v i)) Er iy ix).
    apply states_In in iy, ix. exact (A2 y x iy ix).
  - split; [apply (inv_made go so K r Q2)|]. intros y x iy ix. apply states_In in iy, ix.
    rewrite <- (ev_matrix r y x iy ix), <- (ev_matrix e x y ix iy). exact (Q1 y x iy ix).
Qed.
End Conj.
End Proofs.
