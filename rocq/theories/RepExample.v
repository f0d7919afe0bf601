(** Non-vacuity of [representation] and [star_ring]: concrete, non-trivial
    rings with operators satisfying all relations, over the complex rationals
    and two indices. *)
From Coq Require Import ZArith Bool Lia QArith Qcanon List Setoid Morphisms.
From Verif Require Import ExprModel ExprSpec ExprOrder ExprMap ExprEval ExprStd ExprMain
  ExprInst ExprConj FockSpec FockRep PropConj.
Import ListNotations.
Close Scope Qc_scope.
Close Scope Q_scope.
Open Scope nat_scope.
Open Scope list_scope.

Definition bool_ops : index_ops bool := mk_index_ops bool Bool.eqb
  (fun a b => negb a && b) (fun a b => negb b && a).
Lemma bool_order : index_order bool_ops.
Proof.
  constructor; simpl.
  - intros x y. apply Bool.eqb_true_iff.
  - now intros [|].
  - now intros [|] [|] [|].
  - intros [|] [|]; auto.
  - now intros [|] [|].
Qed.

Lemma relations_sub {I S R} (so : scalar_ops S) (ro : ring_ops R) (inj : S -> R) (rho : gen I -> R)
  (K K' : gen I -> Prop) : (forall g, K' g -> K g) ->
  relations_on K so ro inj rho -> relations_on K' so ro inj rho.
Proof.
  intros E RL. destruct RL. constructor; intros; eauto.
Qed.

(** operators for fermions, bosons and spins 1/2 give a representation in
    which the other spins act as zero *)
Section Kill.
Context {I S R : Type} (so : scalar_ops S) (ro : ring_ops R) (inj : S -> R) (rho : gen I -> R).
Context (Hr : is_ring ro).
Definition kill (g : gen I) : R :=
  match g with GSpin m _ _ => if Nat.eqb m 2 then rho g else r0 ro | _ => rho g end.

Let EQ := ri_equiv _ Hr.
Let AX := ri_add_ext _ Hr.
Let MX := ri_mul_ext _ Hr.
Let OX := ri_opp_ext _ Hr.
Local Existing Instances EQ AX MX OX.
Lemma kadd_cancel a b : req ro (radd ro a b) a -> req ro b (r0 ro).
Proof.
  intros E. assert (E' : req ro (radd ro (ropp ro a) (radd ro a b)) (radd ro (ropp ro a) a)) by now rewrite E.
  rewrite (ri_add_assoc _ Hr), (ri_add_comm _ Hr (ropp ro a) a), (ri_opp _ Hr), (ri_add_0 _ Hr) in E'. exact E'.
Qed.
Lemma kmul_0_r x : req ro (rmul ro x (r0 ro)) (r0 ro).
Proof. apply (kadd_cancel (rmul ro x (r0 ro))). rewrite <- (ri_dist_l _ Hr). now rewrite (ri_add_0 _ Hr). Qed.
Lemma kmul_0_l x : req ro (rmul ro (r0 ro) x) (r0 ro).
Proof. apply (kadd_cancel (rmul ro (r0 ro) x)). rewrite <- (ri_dist_r _ Hr). now rewrite (ri_add_0 _ Hr). Qed.
Lemma kopp_0 : req ro (ropp ro (r0 ro)) (r0 ro).
Proof. rewrite <- (ri_add_0 _ Hr (ropp ro (r0 ro))). apply (ri_opp _ Hr). Qed.

Lemma kill_scalars : scalar_image so ro inj rho -> scalar_image so ro inj kill.
Proof.
  intros SI. constructor; try apply SI. intros x [d i|d i|m c i]; simpl; try apply SI.
  destruct (Nat.eqb m 2); [apply SI|]. now rewrite kmul_0_l, kmul_0_r.
Qed.

Lemma kill_relations : relations_on simple so ro inj rho -> relations so ro inj kill.
Proof.
  intros RL.
  constructor; unfold kill; simpl.
  - intros d i. now apply (kr_c_sq _ _ _ _ _ RL).
  - intros d d' i j n. now apply (kr_c_anti _ _ _ _ _ RL).
  - intros i. now apply (kr_c_cdag _ _ _ _ _ RL).
  - intros d i j. now apply (kr_a_comm _ _ _ _ _ RL).
  - intros i j n. now apply (kr_a_adag_diff _ _ _ _ _ RL).
  - intros i. now apply (kr_a_adag _ _ _ _ _ RL).
  - intros m m' c c' i j n.
    destruct (Nat.eqb_spec m 2) as [->|n1], (Nat.eqb_spec m' 2) as [->|n2]; rewrite ?kmul_0_l, ?kmul_0_r; try reflexivity.
    now apply (kr_s_comm _ _ _ _ _ RL).
  - intros m i. destruct (Nat.eqb_spec m 2) as [->|n]; [now apply (kr_s_pm _ _ _ _ _ RL)|].
    rewrite kmul_0_l, !(ri_add_0 _ Hr). reflexivity.
  - intros m i. destruct (Nat.eqb_spec m 2) as [->|n]; [now apply (kr_s_zp _ _ _ _ _ RL)|].
    rewrite kmul_0_l, !(ri_add_0 _ Hr). reflexivity.
  - intros m i. destruct (Nat.eqb_spec m 2) as [->|n]; [now apply (kr_s_zm _ _ _ _ _ RL)|].
    rewrite kmul_0_l, kopp_0, !(ri_add_0 _ Hr). reflexivity.
  - intros m i c n l. destruct (Nat.eqb_spec m 2) as [->|n2]; [now apply (kr_s_nil _ _ _ _ _ RL)|].
    destruct m as [|m]; [lia|]. cbn [rpow]. apply kmul_0_l.
  - intros i x e. now apply (kr_h_pm _ _ _ _ _ RL).
  - intros i x e. now apply (kr_h_pz _ _ _ _ _ RL).
  - intros i x e. now apply (kr_h_mz _ _ _ _ _ RL).
  - intros i x e. now apply (kr_h_zz _ _ _ _ _ RL).
  - intros d i d' j. now apply (kr_fb _ _ _ _ _ RL).
  - intros d i m c j. destruct (Nat.eqb_spec m 2) as [->|n]; [now apply (kr_fs _ _ _ _ _ RL)|].
    now rewrite kmul_0_l, kmul_0_r.
  - intros d i m c j. destruct (Nat.eqb_spec m 2) as [->|n]; [now apply (kr_bs _ _ _ _ _ RL)|].
    now rewrite kmul_0_l, kmul_0_r.
Qed.
End Kill.

(** the product of a ring with its opposite has an involution *)
Section Double.
Context {I S R : Type} (so : scalar_ops S) (D : scalar_domain so) (CL : conj_laws so).
Context (ro : ring_ops R) (inj : S -> R) (rho : gen I -> R).
Definition dbl : ring_ops (R * R) :=
  mk_ring (R * R) (fun p q => req ro (fst p) (fst q) /\ req ro (snd p) (snd q))
    (r0 ro, r0 ro) (r1 ro, r1 ro)
    (fun p q => (radd ro (fst p) (fst q), radd ro (snd p) (snd q)))
    (fun p q => (rmul ro (fst p) (fst q), rmul ro (snd q) (snd p)))
    (fun p => (ropp ro (fst p), ropp ro (snd p))).
Definition dinj (x : S) : R * R := (inj x, inj (s_conj so x)).
Definition drho (g : gen I) : R * R := (rho g, rho (gen_conj_gen g)).
Definition dstar (p : R * R) : R * R := (snd p, fst p).

Lemma dbl_ring : is_ring ro -> is_ring dbl.
Proof.
  intros Hr. pose proof (ri_equiv _ Hr) as EQ. pose proof (op_is_ring _ Hr) as Ho.
  constructor; simpl.
  - constructor.
    + intros p. split; reflexivity.
    + intros p q [a b]. split; now symmetry.
    + intros p q r [a b] [a' b']. split; etransitivity; eauto.
  - intros p p' [a b] q q' [a' b']. split; apply (ri_add_ext _ Hr); auto.
  - intros p p' [a b] q q' [a' b']. split; apply (ri_mul_ext _ Hr); auto.
  - intros p p' [a b]. split; apply (ri_opp_ext _ Hr); auto.
  - intros p q; split; apply (ri_add_comm _ Hr).
  - intros p q r; split; apply (ri_add_assoc _ Hr).
  - intros p; split; apply (ri_add_0 _ Hr).
  - intros p; split; apply (ri_opp _ Hr).
  - intros p q r; split; [apply (ri_mul_assoc _ Hr)|apply (ri_mul_assoc _ Ho)].
  - intros p; split; [apply (ri_mul_1_l _ Hr)|apply (ri_mul_1_r _ Hr)].
  - intros p; split; [apply (ri_mul_1_r _ Hr)|apply (ri_mul_1_l _ Hr)].
  - intros p q r; split; [apply (ri_dist_l _ Hr)|apply (ri_dist_l _ Ho)].
  - intros p q r; split; [apply (ri_dist_r _ Hr)|apply (ri_dist_r _ Ho)].
Qed.
Lemma rpow_fst p n : fst (rpow dbl p n) = rpow ro (fst p) n.
Proof. induction n as [|n IH]; simpl; [reflexivity|]. now rewrite IH. Qed.
Lemma rpow_snd p n : snd (rpow dbl p n) = rpow (op_ring ro) (snd p) n.
Proof. induction n as [|n IH]; simpl; [reflexivity|]. now rewrite IH. Qed.

Lemma dbl_rep : representation so ro inj rho -> representation so dbl dinj drho.
Proof.
  intros [Hr SI RL]. pose proof (relations_all _ _ _ _ RL) as R1.
  pose proof (op_relations_on so D CL ro inj rho Hr SI (fun _ => True) (fun _ _ => Logic.I) (fun _ _ _ _ _ => Logic.I) R1) as R2.
  pose proof (op_scalar_image so D CL ro inj rho Hr SI) as S2.
  constructor; [now apply dbl_ring| |].
  - constructor; simpl.
    + split; [apply SI|apply S2].
    + split; [apply SI|apply S2].
    + intros x y; split; [apply SI|apply S2].
    + intros x y; split; [apply SI|apply S2].
    + intros x g; split; [apply SI|apply S2].
  - constructor; try (intros; split; [now apply RL|now apply R2]).
    intros m i c n l. cbn [req dbl]. rewrite rpow_fst, rpow_snd. split; [now apply RL|now apply R2].
Qed.
Lemma dbl_star : is_ring ro -> conj_laws so -> star_ring so dbl dinj drho dstar.
Proof.
  intros Hr C. pose proof (ri_equiv _ Hr) as EQ. constructor; simpl.
  - intros p q [a b]. now split.
  - intros; split; reflexivity.
  - intros; split; reflexivity.
  - intros x. rewrite (cl_invol _ C). split; reflexivity.
  - intros [[|] i|[|] i|m [| |] i]; split; reflexivity.
Qed.
End Double.

Definition all_sites : list (site bool) := [SF true; SF false; SB true; SB false; SH true; SH false].
Definition cx_half' : cx := (Q2Qc (1 # 2), Q2Qc 0).

(** fermions, bosons and spins 1/2 of two indices acting on their Fock space
    (other spins act as zero) *)
Definition fock_ring : ring_ops (rows (S := cx) (St all_sites)) := rows_ring cx_scalar_ops (St all_sites).
Definition fock_inj : cx -> rows (S := cx) (St all_sites) := rows_inj (St all_sites).
Definition fock_rho : gen bool -> rows (S := cx) (St all_sites) :=
  kill fock_ring (frho bool_ops cx_scalar_ops cx_half' all_sites).

Lemma cx_half'_ok : s_add cx_scalar_ops cx_half' cx_half' = s_one cx_scalar_ops.
Proof. unfold cx_half'. cbn. f_equal; now apply Qc_is_canon. Qed.

Theorem representation_exists : representation cx_scalar_ops fock_ring fock_inj fock_rho /\
  ~ req fock_ring (r1 fock_ring) (r0 fock_ring).
Proof.
  pose proof (sd_laws _ cx_domain) as L.
  assert (HG : forall i, In (SH i) all_sites -> s_add cx_scalar_ops cx_half' cx_half' = s_one cx_scalar_ops)
    by (intros; exact cx_half'_ok).
  pose proof (rows_is_ring cx_scalar_ops L (St all_sites)) as Hr.
  pose proof (fock_scalars bool_ops bool_order cx_scalar_ops L cx_half' all_sites HG) as SI.
  pose proof (fock_relations bool_ops bool_order cx_scalar_ops L cx_half' all_sites HG) as RL.
  split.
  - constructor; [exact Hr|now apply kill_scalars|]. apply kill_relations; auto.
    assert (E : forall g, simple g -> on_sites all_sites g).
    { intros g h. split; auto. destruct g as [d [|]|d [|]|m c [|]]; simpl; tauto. }
    exact (relations_sub _ _ _ _ _ _ E RL).
  - intros E. specialize (E (fun _ => s_one cx_scalar_ops)).
    assert (y : St all_sites).
    { pose (d := (true, 0) : digit). exact (d, (d, (d, (d, (d, (d, tt)))))). }
    specialize (E y).
    assert (E1 : s_one cx_scalar_ops = s_zero cx_scalar_ops).
    { etransitivity; [symmetry; exact (act_1 cx_scalar_ops L (St all_sites) (fun _ => s_one cx_scalar_ops) y)|].
      etransitivity; [exact E|]. exact (act_0 cx_scalar_ops (St all_sites) (fun _ => s_one cx_scalar_ops) y). }
    clear - E1. apply (f_equal fst) in E1. cbn in E1. apply (f_equal this) in E1. discriminate E1.
Qed.
Print Assumptions representation_exists.

(** and with an involution *)
Theorem star_ring_exists :
  representation cx_scalar_ops (dbl fock_ring) (dinj cx_scalar_ops fock_inj) (drho fock_rho) /\
  star_ring cx_scalar_ops (dbl fock_ring) (dinj cx_scalar_ops fock_inj) (drho fock_rho) dstar /\
  ~ req (dbl fock_ring) (r1 (dbl fock_ring)) (r0 (dbl fock_ring)).
Proof.
  destruct representation_exists as [REP N]. split; [|split].
  - apply dbl_rep; auto using cx_domain, cx_conj_laws.
  - apply dbl_star; [apply REP|apply cx_conj_laws].
  - intros [E _]. now apply N.
Qed.
Print Assumptions star_ring_exists.
