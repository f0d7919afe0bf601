(** * Values of the expressions built by the Heisenberg chain program (C87) *)
From Coq Require Import ZArith Lia List QArith Qcanon Setoid Morphisms.
From Verif Require Import ExprModel ExprSpec ExprMap ExprEval ExprStd ExprMain ExprThrow ExprInst FockSpec
  PropExpr PropUnique PropHS PropFactories ExprOrder HeisModel HeisSum.
Import ListNotations.
Close Scope Qc_scope.
Close Scope Q_scope.
Open Scope nat_scope.
Open Scope list_scope.

(** a computation that succeeds with a result satisfying [P] *)
Definition okp {A} (P : A -> Prop) (r : res A) : Prop := exists x, r = Ok x /\ P x.
Lemma okp_ret {A} (P : A -> Prop) x : P x -> okp P (Ok x).
Proof. intros H. exists x. auto. Qed.
Lemma okp_bind {A C} (P : A -> Prop) (Q : C -> Prop) r f :
  okp P r -> (forall x, P x -> okp Q (f x)) -> okp Q (rbind r f).
Proof. intros [x [-> H]] K. cbn. auto. Qed.
Lemma okp_imp {A} (P Q : A -> Prop) r : (forall x, P x -> Q x) -> okp P r -> okp Q r.
Proof. intros H [x [E K]]. exists x. auto. Qed.

(** a value in every ring with operators *)
Definition den : Type := forall R : Type, ring_ops R -> (cx -> R) -> (gen Z -> R) -> R.
Record vden : Type := mk_vd { d0 : den; d1 : den; d2 : den }.
Definition dmul (u v : den) : den := fun R ro inj rho => rmul ro (u R ro inj rho) (v R ro inj rho).
Definition dadd (u v : den) : den := fun R ro inj rho => radd ro (u R ro inj rho) (v R ro inj rho).
Definition dopp (u : den) : den := fun R ro inj rho => ropp ro (u R ro inj rho).
Definition dsub (u v : den) : den := dadd u (dopp v).
Definition dinj (x : cx) : den := fun R ro inj rho => inj x.
Definition dgen (g : gen Z) : den := fun R ro inj rho => rho g.
Definition dzero : den := fun R ro inj rho => r0 ro.
Definition ddot (u v : vden) : den := dadd (dadd (dmul (d0 u) (d0 v)) (dmul (d1 u) (d1 v))) (dmul (d2 u) (d2 v)).
Definition dminor (a b c d : den) : den := dsub (dmul a b) (dmul c d).
Definition dcross (u v : vden) : vden :=
  mk_vd (dminor (d1 u) (d2 v) (d2 u) (d1 v)) (dminor (d2 u) (d0 v) (d0 u) (d2 v)) (dminor (d0 u) (d1 v) (d1 u) (d0 v)).
Definition dspin (i : Z) : vden :=
  mk_vd (dmul (dinj cx_half) (dadd (dgen (GSpin 2 Plus i)) (dgen (GSpin 2 Minus i))))
        (dmul (dinj cx_mihalf) (dsub (dgen (GSpin 2 Plus i)) (dgen (GSpin 2 Minus i))))
        (dgen (GSpin 2 Zcomp i)).
Definition dsum (t : Z -> den) (N : nat) : den := fun R ro inj rho => csum ro N (fun i => t i R ro inj rho).

Lemma cx_frac : forall p q, q <> 0%Z -> s_make hso (VRat p q) <> None.
Proof.
  intros p q H. cbn. unfold flt_of_vn. destruct (Z.eqb q 0) eqn:E; [|discriminate]. apply Z.eqb_eq in E. contradiction.
Qed.

Section Good.
Context (B : list (gen Z)) (HB : Forall simple B).
Notation K := (on_sites (map site_of B)).
Definition means (u : den) (e : expr_t) : Prop :=
  built ioZ hso B e /\
  forall R (ro : ring_ops R) inj rho, is_ring ro -> scalar_image hso ro inj rho ->
    relations_on K hso ro inj rho -> req ro (eval_expr ro inj rho e) (u R ro inj rho).
Definition vmeans (u : vden) (v : vec) : Prop :=
  means (d0 u) (v0 v) /\ means (d1 u) (v1 v) /\ means (d2 u) (v2 v).

Lemma m_mul u v a b : means u a -> means v b -> okp (means (dmul u v)) (e_mul hgo hso a b).
Proof.
  intros [Ba Ea] [Bb Eb].
  destruct (e_mul_total hgo hso (fun _ => True) (std_make_frac ioZ hso (sd_laws _ cx_domain) cx_frac) a b) as [e E].
  { intros m c _. apply Forall_forall. trivial. }
  { intros m c _. apply Forall_forall. trivial. }
  exists e. split; [exact E|]. split; [exact (b_mul ioZ hso B a b e Ba Bb E)|].
  intros R ro inj rho Hr SI RL. unfold dmul.
  pose proof (ri_equiv _ Hr) as EQ. pose proof (ri_mul_ext _ Hr) as MX.
  rewrite <- (Ea R ro inj rho Hr SI RL), <- (Eb R ro inj rho Hr SI RL).
  exact (mul_value ioZ sto_Z hso cx_domain B HB ro inj rho Hr SI RL a b e Ba Bb E).
Qed.
Lemma m_add u v a b : means u a -> means v b -> means (dadd u v) (e_add hgo hso a b).
Proof.
  intros [Ba Ea] [Bb Eb]. split; [apply b_add; assumption|].
  intros R ro inj rho Hr SI RL. unfold dadd.
  pose proof (ri_equiv _ Hr) as EQ. pose proof (ri_add_ext _ Hr) as MX.
  rewrite <- (Ea R ro inj rho Hr SI RL), <- (Eb R ro inj rho Hr SI RL).
  exact (add_value ioZ sto_Z hso cx_domain ro inj rho Hr SI a b).
Qed.
Lemma m_sub u v a b : means u a -> means v b -> means (dsub u v) (e_sub hgo hso a b).
Proof.
  intros [Ba Ea] [Bb Eb]. split; [apply b_sub; assumption|].
  intros R ro inj rho Hr SI RL. unfold dsub, dadd, dopp.
  pose proof (ri_equiv _ Hr) as EQ. pose proof (ri_add_ext _ Hr) as MX. pose proof (ri_opp_ext _ Hr) as OX.
  rewrite <- (Ea R ro inj rho Hr SI RL), <- (Eb R ro inj rho Hr SI RL).
  exact (ev_sub_assign hgo (std_order ioZ sto_Z) hso (sd_laws _ cx_domain) ro Hr inj rho SI a b).
Qed.
Lemma m_scale x u a : means u a -> means (dmul (dinj x) u) (e_mul_const_pre hso x a).
Proof.
  intros [Ba Ea]. split; [apply b_const_mul; assumption|].
  intros R ro inj rho Hr SI RL. unfold dmul, dinj.
  pose proof (ri_equiv _ Hr) as EQ. pose proof (ri_mul_ext _ Hr) as MX.
  rewrite <- (Ea R ro inj rho Hr SI RL).
  exact (scale_value hso cx_domain ro inj rho Hr SI x a).
Qed.
Lemma m_zero : means dzero [].
Proof.
  split.
  - change (@nil (list (gen Z) * cx)) with (e_const (G := gen Z) hso (s_zero hso)). apply b_scalar.
  - intros R ro inj rho Hr _ _. apply (ri_equiv _ Hr).
Qed.
Lemma m_gen g : In g B -> okp (means (dgen g)) (factory hgo hso g).
Proof.
  intros i. pose proof (C15_factories ioZ hso cx_domain g) as E. eexists. split; [exact E|]. split.
  - apply (b_mono ioZ hso B (s_one hso) [g]).
    + intros x [<-|[]]. exact i.
    + exact E.
  - intros R ro inj rho Hr SI RL. unfold dgen.
    pose proof (ri_equiv _ Hr) as EQ. pose proof (ri_mul_ext _ Hr) as MX. pose proof (ri_add_ext _ Hr) as AX.
    cbn [eval_expr eval_mono gen_expr].
    rewrite (si_1 _ _ _ _ SI), (ri_mul_1_l _ Hr), (ri_mul_1_r _ Hr), (ri_add_comm _ Hr), (ri_add_0 _ Hr). reflexivity.
Qed.

Lemma m_minor ua ub uc ud a b c d : means ua a -> means ub b -> means uc c -> means ud d ->
  okp (means (dminor ua ub uc ud)) (minor a b c d).
Proof.
  intros Ha Hb Hc Hd. unfold minor.
  eapply okp_bind; [apply (m_mul _ _ _ _ Ha Hb)|]. intros x Hx.
  eapply okp_bind; [apply (m_mul _ _ _ _ Hc Hd)|]. intros y Hy.
  apply okp_ret. apply m_sub; assumption.
Qed.
Lemma m_dot u v a b : vmeans u a -> vmeans v b -> okp (means (ddot u v)) (dot a b).
Proof.
  intros [A0 [A1 A2]] [B0 [B1 B2]]. unfold dot.
  eapply okp_bind; [apply (m_mul _ _ _ _ A0 B0)|]. intros x Hx.
  eapply okp_bind; [apply (m_mul _ _ _ _ A1 B1)|]. intros y Hy.
  eapply okp_bind; [apply (m_mul _ _ _ _ A2 B2)|]. intros z Hz.
  apply okp_ret. apply m_add; [|assumption]. apply m_add; assumption.
Qed.
Lemma m_cross u v a b : vmeans u a -> vmeans v b -> okp (vmeans (dcross u v)) (cross a b).
Proof.
  intros [A0 [A1 A2]] [B0 [B1 B2]]. unfold cross.
  eapply okp_bind; [apply (m_minor _ _ _ _ _ _ _ _ A1 B2 A2 B1)|]. intros x Hx.
  eapply okp_bind; [apply (m_minor _ _ _ _ _ _ _ _ A2 B0 A0 B2)|]. intros y Hy.
  eapply okp_bind; [apply (m_minor _ _ _ _ _ _ _ _ A0 B1 A1 B0)|]. intros z Hz.
  apply okp_ret. split; [exact Hx|]. split; [exact Hy|exact Hz].
Qed.
Lemma m_spin i : In (GSpin 2 Plus i) B -> In (GSpin 2 Minus i) B -> In (GSpin 2 Zcomp i) B ->
  okp (vmeans (dspin i)) (spin_vec i).
Proof.
  intros ip im iz. unfold spin_vec.
  eapply (okp_bind (means (d0 (dspin i)))).
  { unfold factory_Sx. eapply okp_bind; [apply (m_gen _ ip)|]. intros p Hp.
    eapply okp_bind; [apply (m_gen _ im)|]. intros q Hq. apply okp_ret. apply m_scale. apply m_add; assumption. }
  intros x Hx. eapply (okp_bind (means (d1 (dspin i)))).
  { unfold factory_Sy. eapply okp_bind; [apply (m_gen _ ip)|]. intros p Hp.
    eapply okp_bind; [apply (m_gen _ im)|]. intros q Hq. apply okp_ret. apply m_scale. apply m_sub; assumption. }
  intros y Hy. eapply okp_bind; [apply (m_gen _ iz)|]. intros z Hz.
  apply okp_ret. split; [exact Hx|]. split; [exact Hy|exact Hz].
Qed.
End Good.

(** equal values *)
Lemma means_eq B u v e :
  (forall R (ro : ring_ops R) inj rho, is_ring ro -> req ro (u R ro inj rho) (v R ro inj rho)) ->
  means B u e -> means B v e.
Proof.
  intros H [Be E]. split; [exact Be|]. intros R ro inj rho Hr SI RL.
  pose proof (ri_equiv _ Hr) as EQ. rewrite (E R ro inj rho Hr SI RL). apply H. exact Hr.
Qed.
