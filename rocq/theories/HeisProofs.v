(** * The Heisenberg chain program: every loop, for every number of spins (C87) *)
From Coq Require Import ZArith Lia List Bool QArith Qcanon Setoid Morphisms.
From Verif Require Import ExprModel ExprSpec ExprMap ExprEval ExprStd ExprMain ExprThrow ExprInst FockSpec
  ExprOrder PropExpr PropUnique PropHS PropFactories HeisModel HeisSum HeisDen HeisLocal.
Import ListNotations.
Close Scope Qc_scope.
Close Scope Q_scope.
Close Scope Z_scope.
Open Scope nat_scope.
Open Scope list_scope.

Definition get {A} (d : A) (r : res A) : A := match r with Ok x => x | _ => d end.

(** *** loops *)
Lemma rloop_inv {A} (f : A -> nat -> res A) (Inv : nat -> A -> Prop) n a :
  (forall k x, k < n -> Inv k x -> okp (Inv (S k)) (f x k)) -> Inv 0 a -> okp (Inv n) (rloop f (seq 0 n) a).
Proof.
  intros H H0.
  assert (G : forall m k x, k + m = n -> Inv k x -> okp (Inv n) (rloop f (seq k m) x)).
  { induction m as [|m IH]; intros k x E I; cbn [seq rloop].
    - apply okp_ret. now replace n with k by lia.
    - eapply okp_bind; [apply (H k x); [lia|exact I]|]. intros y Hy. apply IH; [lia|exact Hy]. }
  apply (G n 0 a); auto.
Qed.

Definition four : cx := (Q2Qc 4, Q2Qc 0).
(** the terms of the sums, as polynomials of the spin vectors [p 0], [p 1], ... *)
Definition Ph (p : Z -> vden) : den := ddot (p 0%Z) (p 1%Z).
Definition P3 (p : Z -> vden) : den := ddot (dcross (p 0%Z) (p 1%Z)) (p 2%Z).
Definition P4 (p : Z -> vden) : den :=
  dadd (dmul (dinj four) (ddot (dcross (dcross (p 0%Z) (p 1%Z)) (p 2%Z)) (p 3%Z))) (ddot (p 0%Z) (p 2%Z)).
Definition P5 (p : Z -> vden) : den :=
  dadd (dadd (dmul (dinj four) (ddot (dcross (dcross (dcross (p 0%Z) (p 1%Z)) (p 2%Z)) (p 3%Z)) (p 4%Z)))
             (ddot (dcross (p 0%Z) (p 2%Z)) (p 3%Z)))
       (ddot (dcross (p 0%Z) (p 1%Z)) (p 3%Z)).

Lemma assoc3 {R} (ro : ring_ops R) (Hr : is_ring ro) q x y z :
  req ro (radd ro (radd ro (radd ro q x) y) z) (radd ro q (radd ro (radd ro x y) z)).
Proof. pose proof (ri_equiv _ Hr) as EQ. pose proof (ri_add_ext _ Hr) as AX. rewrite <- !(ri_add_assoc _ Hr). reflexivity. Qed.

Section Global.
Context (N : nat) (HN : 1 <= N).
Notation B := (site_gens N).
Notation HB := (site_gens_simple N).
(** the spin vector d sites after site i *)
Definition at_site (i d : Z) : vden := dspin (wsite N i d).

Lemma spin_ok i : i < N -> okp (vmeans B (dspin (Z.of_nat i))) (spin_vec (Z.of_nat i)).
Proof.
  intros h. apply (m_spin B); apply site_gens_In; eexists; eexists; (split; [reflexivity|lia]).
Qed.
Definition good_list (Sl : list vec) : Prop :=
  length Sl = N /\ forall k v, nth_error Sl k = Some v -> vmeans B (dspin (Z.of_nat k)) v.
Lemma spins_ok : okp good_list (spins N).
Proof.
  unfold spins, good_list.
  apply (rloop_inv _ (fun n Sl => length Sl = n /\ forall k v, nth_error Sl k = Some v -> vmeans B (dspin (Z.of_nat k)) v)).
  - intros n l hn [El Hl]. eapply okp_bind; [apply (spin_ok n hn)|]. intros v Hv. apply okp_ret. split.
    + rewrite app_length. cbn. lia.
    + intros k w E. destruct (Nat.lt_ge_cases k (length l)) as [h|h].
      * rewrite nth_error_app1 in E by exact h. auto.
      * rewrite nth_error_app2 in E by exact h. destruct (k - length l) as [|x] eqn:Ek.
        -- cbn in E. injection E as <-. replace k with n by lia. exact Hv.
        -- cbn in E. destruct x; discriminate E.
  - split; [reflexivity|]. intros [|k] v E; discriminate E.
Qed.

Context (Sl : list vec) (GS : good_list Sl).
Lemma at_ok i : i < N -> okp (vmeans B (at_site (Z.of_nat i) 0)) (at_ Sl i).
Proof.
  intros h. destruct GS as [El Hl]. unfold at_.
  destruct (nth_error Sl i) as [v|] eqn:E; [|apply nth_error_None in E; lia].
  apply okp_ret. unfold at_site, wsite. rewrite Z.add_0_r, Z.mod_small by lia. auto.
Qed.
Lemma nb_ok i d : okp (vmeans B (at_site (Z.of_nat i) (Z.of_nat d))) (nb N Sl i d).
Proof.
  unfold nb. pose proof (at_ok ((i + d) mod N)) as K.
  assert (h : (i + d) mod N < N) by (apply Nat.mod_upper_bound; lia).
  specialize (K h). revert K. apply okp_imp. intros v. unfold at_site, wsite.
  rewrite Z.add_0_r. rewrite Nat2Z.inj_mod, Nat2Z.inj_add, Z.mod_mod by lia. exact (fun H => H).
Qed.

(** one more term of a sum *)
Lemma m_next t u k Q x : means B (dsum t k) Q -> means B u x ->
  (forall R (ro : ring_ops R) inj rho, is_ring ro -> req ro (u R ro inj rho) (t (Z.of_nat k) R ro inj rho)) ->
  means B (dsum t (S k)) (e_add hgo hso Q x).
Proof.
  intros HQ Hx E. eapply means_eq; [|apply (m_add B _ _ _ _ HQ Hx)].
  intros R ro inj rho Hr. unfold dadd, dsum, csum. cbn [zsum]. rewrite Z.add_0_l.
  apply (ri_add_ext _ Hr); [apply (ri_equiv _ Hr)|]. apply E. exact Hr.
Qed.

Lemma H_ok g : okp (means B (dsum (fun i => dmul (dinj (g, Q2Qc 0)) (Ph (at_site i))) N)) (build_H N g Sl).
Proof.
  apply (rloop_inv (h_step N Sl g) (fun n => means B (dsum (fun i => dmul (dinj (g, Q2Qc 0)) (Ph (at_site i))) n))).
  2:apply m_zero.
  intros k Q hk HQ. unfold h_step.
  eapply okp_bind; [apply (at_ok k hk)|]. intros a Ha.
  eapply okp_bind; [apply (nb_ok k 1)|]. intros b Hb.
  eapply okp_bind; [apply (m_dot B HB _ _ _ _ Ha Hb)|]. intros d Hd. apply okp_ret.
  eapply m_next; [exact HQ|apply m_scale; exact Hd|]. intros R ro inj rho Hr. apply (ri_equiv _ Hr).
Qed.
Lemma Q3_ok : okp (means B (dsum (fun i => P3 (at_site i)) N)) (build_Q3 N Sl).
Proof.
  apply (rloop_inv (q3_step N Sl) (fun n => means B (dsum (fun i => P3 (at_site i)) n))). 2:apply m_zero.
  intros k Q hk HQ. unfold q3_step.
  eapply okp_bind; [apply (at_ok k hk)|]. intros a Ha.
  eapply okp_bind; [apply (nb_ok k 1)|]. intros b Hb.
  eapply okp_bind; [apply (nb_ok k 2)|]. intros c Hc.
  eapply okp_bind; [apply (m_cross B HB _ _ _ _ Ha Hb)|]. intros ab Hab.
  eapply okp_bind; [apply (m_dot B HB _ _ _ _ Hab Hc)|]. intros x Hx. apply okp_ret.
  eapply m_next; [exact HQ|exact Hx|]. intros R ro inj rho Hr. apply (ri_equiv _ Hr).
Qed.
Lemma Q4_ok : okp (means B (dsum (fun i => P4 (at_site i)) N)) (build_Q4 N Sl).
Proof.
  apply (rloop_inv (q4_step N Sl) (fun n => means B (dsum (fun i => P4 (at_site i)) n))). 2:apply m_zero.
  intros k Q hk HQ. unfold q4_step.
  eapply okp_bind; [apply (at_ok k hk)|]. intros a Ha.
  eapply okp_bind; [apply (nb_ok k 1)|]. intros b Hb.
  eapply okp_bind; [apply (nb_ok k 2)|]. intros c Hc.
  eapply okp_bind; [apply (nb_ok k 3)|]. intros d Hd.
  eapply okp_bind; [apply (m_cross B HB _ _ _ _ Ha Hb)|]. intros ab Hab.
  eapply okp_bind; [apply (m_cross B HB _ _ _ _ Hab Hc)|]. intros abc Habc.
  eapply okp_bind; [apply (m_dot B HB _ _ _ _ Habc Hd)|]. intros x Hx. cbv zeta.
  eapply okp_bind; [apply (m_dot B HB _ _ _ _ Ha Hc)|]. intros y Hy. apply okp_ret.
  eapply means_eq; [|apply m_add; [apply m_add; [exact HQ|apply m_scale; exact Hx]|exact Hy]].
  intros R ro inj rho Hr. unfold dsum, csum. cbn [zsum]. rewrite Z.add_0_l. unfold P4, dadd at 1 2 3.
  pose proof (ri_equiv _ Hr) as EQ. rewrite <- (ri_add_assoc _ Hr). reflexivity.
Qed.
Lemma Q5_ok : okp (means B (dsum (fun i => P5 (at_site i)) N)) (build_Q5 N Sl).
Proof.
  apply (rloop_inv (q5_step N Sl) (fun n => means B (dsum (fun i => P5 (at_site i)) n))). 2:apply m_zero.
  intros k Q hk HQ. unfold q5_step.
  eapply okp_bind; [apply (at_ok k hk)|]. intros a Ha.
  eapply okp_bind; [apply (nb_ok k 1)|]. intros b Hb.
  eapply okp_bind; [apply (nb_ok k 2)|]. intros c Hc.
  eapply okp_bind; [apply (nb_ok k 3)|]. intros d Hd.
  eapply okp_bind; [apply (nb_ok k 4)|]. intros e He.
  eapply okp_bind; [apply (m_cross B HB _ _ _ _ Ha Hb)|]. intros ab Hab.
  eapply okp_bind; [apply (m_cross B HB _ _ _ _ Hab Hc)|]. intros abc Habc.
  eapply okp_bind; [apply (m_cross B HB _ _ _ _ Habc Hd)|]. intros abcd Habcd.
  eapply okp_bind; [apply (m_dot B HB _ _ _ _ Habcd He)|]. intros x Hx. cbv zeta.
  eapply okp_bind; [apply (m_cross B HB _ _ _ _ Ha Hc)|]. intros ac Hac.
  eapply okp_bind; [apply (m_dot B HB _ _ _ _ Hac Hd)|]. intros y Hy.
  eapply okp_bind; [apply (m_cross B HB _ _ _ _ Ha Hb)|]. intros ab' Hab'.
  eapply okp_bind; [apply (m_dot B HB _ _ _ _ Hab' Hd)|]. intros z Hz. apply okp_ret.
  eapply means_eq; [|apply m_add; [apply m_add; [apply m_add; [exact HQ|apply m_scale; exact Hx]|exact Hy]|exact Hz]].
  intros R ro inj rho Hr. unfold dsum, csum. cbn [zsum]. rewrite Z.add_0_l.
  apply (assoc3 ro Hr).
Qed.
Lemma S_ok : okp (vmeans B (mk_vd (dsum (fun i => d0 (at_site i 0)) N) (dsum (fun i => d1 (at_site i 0)) N)
                                  (dsum (fun i => d2 (at_site i 0)) N)))
                 (build_S N Sl).
Proof.
  apply (rloop_inv (s_step Sl) (fun n => vmeans B (mk_vd (dsum (fun i => d0 (at_site i 0)) n)
    (dsum (fun i => d1 (at_site i 0)) n) (dsum (fun i => d2 (at_site i 0)) n)))).
  2:{ split; [|split]; apply m_zero. }
  intros k Q hk [H0 [H1 H2]]. unfold s_step.
  eapply okp_bind; [apply (at_ok k hk)|]. intros a [A0 [A1 A2]]. apply okp_ret.
  split; [|split]; cbn [d0 d1 d2 v0 v1 v2 vec_add].
  - eapply m_next; [exact H0|exact A0|]. intros R ro inj rho Hr. apply (ri_equiv _ Hr).
  - eapply m_next; [exact H1|exact A1|]. intros R ro inj rho Hr. apply (ri_equiv _ Hr).
  - eapply m_next; [exact H2|exact A2|]. intros R ro inj rho Hr. apply (ri_equiv _ Hr).
Qed.
End Global.

(** *** the local operators *)
Definition sv (i : Z) : vec := get (mk_vec [] [] []) (spin_vec i).
Definition cr (a b : vec) : vec := get (mk_vec [] [] []) (cross a b).
Definition dt (a b : vec) : expr_t := get [] (dot a b).
Definition h_of (p : Z -> vec) : expr_t := dt (p 0%Z) (p 1%Z).
Definition q3_of (p : Z -> vec) : expr_t := dt (cr (p 0%Z) (p 1%Z)) (p 2%Z).
Definition q4_of (p : Z -> vec) : expr_t :=
  e_add hgo hso (scale (Q2Qc 4) (dt (cr (cr (p 0%Z) (p 1%Z)) (p 2%Z)) (p 3%Z))) (dt (p 0%Z) (p 2%Z)).
Definition q5_of (p : Z -> vec) : expr_t :=
  e_add hgo hso (e_add hgo hso (scale (Q2Qc 4) (dt (cr (cr (cr (p 0%Z) (p 1%Z)) (p 2%Z)) (p 3%Z)) (p 4%Z)))
     (dt (cr (p 0%Z) (p 2%Z)) (p 3%Z))) (dt (cr (p 0%Z) (p 1%Z)) (p 3%Z)).

Section Loc.
Context (W : nat).
Notation B := (site_gens W).
Notation HB := (site_gens_simple W).
Lemma sv_ok i : (0 <= i < Z.of_nat W)%Z -> vmeans B (dspin i) (sv i).
Proof.
  intros h. destruct (m_spin B i) as [v [E H]];
    try (apply site_gens_In; eexists; eexists; split; [reflexivity|lia]).
  unfold sv. rewrite E. exact H.
Qed.
Lemma cr_ok u v a b : vmeans B u a -> vmeans B v b -> vmeans B (dcross u v) (cr a b).
Proof. intros Ha Hb. destruct (m_cross B HB _ _ _ _ Ha Hb) as [x [E H]]. unfold cr. rewrite E. exact H. Qed.
Lemma dt_ok u v a b : vmeans B u a -> vmeans B v b -> means B (ddot u v) (dt a b).
Proof. intros Ha Hb. destruct (m_dot B HB _ _ _ _ Ha Hb) as [x [E H]]. unfold dt. rewrite E. exact H. Qed.
Context (u : Z -> vden) (p : Z -> vec) (n : Z) (H : forall k, (0 <= k < n)%Z -> vmeans B (u k) (p k)).
Lemma h_of_ok : (2 <= n)%Z -> means B (Ph u) (h_of p).
Proof. intros h. apply dt_ok; apply H; lia. Qed.
Lemma q3_of_ok : (3 <= n)%Z -> means B (P3 u) (q3_of p).
Proof. intros h. apply dt_ok; [apply cr_ok|]; apply H; lia. Qed.
Lemma q4_of_ok : (4 <= n)%Z -> means B (P4 u) (q4_of p).
Proof.
  intros h. apply m_add; [apply m_scale; apply dt_ok; [apply cr_ok; [apply cr_ok|]|]|apply dt_ok]; apply H; lia.
Qed.
Lemma q5_of_ok : (5 <= n)%Z -> means B (P5 u) (q5_of p).
Proof.
  intros h. apply m_add; [apply m_add; [apply m_scale; apply dt_ok; [apply cr_ok; [apply cr_ok; [apply cr_ok|]|]|]|
    apply dt_ok; [apply cr_ok|]]|apply dt_ok; [apply cr_ok|]]; apply H; lia.
Qed.
End Loc.
