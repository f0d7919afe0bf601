(** * C87: the example program heisenberg_chain.cpp, for every number of spins.
    Vocabulary: HeisSpec.v (charges), ExprSpec.v, FockSpec.v. *)
From Coq Require Import ZArith Lia List Bool QArith Qcanon Setoid Morphisms Ncring Ncring_tac.
From Verif Require Import ExprModel ExprSpec ExprMap ExprEval ExprStd ExprMain ExprThrow ExprInst FockSpec
  ExprOrder PropExpr PropUnique PropHS PropFactories HeisModel HeisSpec HeisSum HeisDen HeisLocal HeisProofs HeisPairs.
Import ListNotations.
Close Scope Qc_scope.
Close Scope Q_scope.
Close Scope Z_scope.
Open Scope nat_scope.
Open Scope list_scope.

(** *** the coupling constant *)
Lemma inj_comm_ev {R} (ro : ring_ops R) inj rho (Hr : is_ring ro) (SI : scalar_image hso ro inj rho) x (e : expr_t) :
  req ro (rmul ro (eval_expr ro inj rho e) (inj x)) (rmul ro (inj x) (eval_expr ro inj rho e)).
Proof.
  pose proof (ri_equiv _ Hr) as EQ. pose proof (ri_mul_ext _ Hr) as MX. pose proof (ri_add_ext _ Hr) as AX.
  induction e as [|[m c] e IH]; cbn [eval_expr].
  - pose proof (ev_const hso (sd_laws _ cx_domain) ro Hr inj rho SI x) as K.
    rewrite <- (si_0 _ _ _ _ SI). apply (inj_comm ro Hr inj rho SI).
  - rewrite (ri_dist_r _ Hr), (ri_dist_l _ Hr), IH.
    rewrite <- (ri_mul_assoc _ Hr), (inj_comm_em hso ro Hr inj rho SI m x).
    rewrite (ri_mul_assoc _ Hr), (inj_comm ro Hr inj rho SI c x), <- (ri_mul_assoc _ Hr). reflexivity.
Qed.
Lemma kills_scale N x t v b : means (site_gens N) v b -> kills N (dsum t N) v ->
  kills N (dsum (fun i => dmul (dinj x) (t i)) N) v.
Proof.
  intros [_ Eb] H R ro inj rho Hr SI RL. specialize (H R ro inj rho Hr SI RL). specialize (Eb R ro inj rho Hr SI RL).
  pose proof (ri_equiv _ Hr) as EQ. pose proof (ri_mul_ext _ Hr) as MX. pose proof (ri_add_ext _ Hr) as AX.
  pose proof (ri_opp_ext _ Hr) as OX.
  assert (E : req ro (dsum (fun i => dmul (dinj x) (t i)) N R ro inj rho) (rmul ro (inj x) (dsum t N R ro inj rho))).
  { unfold dsum, csum, dmul, dinj. apply (zsum_mul_l ro Hr). }
  unfold rcomm in *. rewrite E. set (a := dsum t N R ro inj rho) in *. set (w := v R ro inj rho) in *.
  pose proof (inj_comm_ev ro inj rho Hr SI x b) as C. rewrite Eb in C. fold w in C.
  rewrite (ri_mul_assoc _ Hr w), C, <- !(ri_mul_assoc _ Hr).
  assert (H' : req ro (rmul ro a w) (rmul ro w a)).
  { assert (K : req ro (radd ro (radd ro (rmul ro a w) (ropp ro (rmul ro w a))) (rmul ro w a)) (radd ro (r0 ro) (rmul ro w a)))
      by now rewrite H.
    rewrite (ri_add_0 _ Hr), <- (ri_add_assoc _ Hr), (ri_add_comm _ Hr (ropp ro _)), (ri_opp _ Hr), (ri_add_comm _ Hr), (ri_add_0 _ Hr) in K.
    exact K. }
  rewrite H'. apply (ri_opp _ Hr).
Qed.

(** All nine commutators printed by the program are zero, for every number of
    spins and every exchange constant. *)
Theorem C87_charges_commute : forall N g,
  heisenberg_main N g = Ok (mk_printed [] [] [] [] [] [] [] [] []).
Proof.
  intros N g. destruct N as [|n]; [reflexivity|]. set (N := S n). assert (HN : 1 <= N) by (unfold N; lia).
  clearbody N. clear n. unfold heisenberg_main.
  destruct (spins_ok N HN) as [Sl [ES GS]]. rewrite ES. cbn [rbind].
  destruct (H_ok N HN Sl GS g) as [H [-> MH]]. cbn [rbind].
  destruct (S_ok N HN Sl GS) as [St [-> [M0 [M1 M2]]]]. cbn [rbind]. cbn [d0 d1 d2] in M0, M1, M2.
  rewrite (comm_zero N _ _ _ _ MH M0) by (eapply kills_scale; [exact M0|apply k_h_s0; exact HN]). cbn [rbind].
  rewrite (comm_zero N _ _ _ _ MH M1) by (eapply kills_scale; [exact M1|apply k_h_s1; exact HN]). cbn [rbind].
  rewrite (comm_zero N _ _ _ _ MH M2) by (eapply kills_scale; [exact M2|apply k_h_s2; exact HN]). cbn [rbind].
  destruct (Q3_ok N HN Sl GS) as [Q3 [-> M3]]. cbn [rbind].
  rewrite (comm_zero N _ _ _ _ MH M3) by (eapply kills_scale; [exact M3|apply k_h_q3; exact HN]). cbn [rbind].
  destruct (Q4_ok N HN Sl GS) as [Q4 [-> M4]]. cbn [rbind].
  rewrite (comm_zero N _ _ _ _ MH M4) by (eapply kills_scale; [exact M4|apply k_h_q4; exact HN]). cbn [rbind].
  destruct (Q5_ok N HN Sl GS) as [Q5 [-> M5]]. cbn [rbind].
  rewrite (comm_zero N _ _ _ _ MH M5) by (eapply kills_scale; [exact M5|apply k_h_q5; exact HN]). cbn [rbind].
  rewrite (comm_zero N _ _ _ _ M3 M4) by (apply k_q3_q4; exact HN). cbn [rbind].
  rewrite (comm_zero N _ _ _ _ M3 M5) by (apply k_q3_q5; exact HN). cbn [rbind].
  rewrite (comm_zero N _ _ _ _ M4 M5) by (apply k_q4_q5; exact HN). cbn [rbind].
  reflexivity.
Qed.
Print Assumptions C87_charges_commute.

(** *** The operators of the program are the documented ones. *)
Definition cx_I : cx := (Q2Qc 0, Q2Qc 1).

Section Values.
Context {R : Type} (ro : ring_ops R) (Hr : is_ring ro) (inj : cx -> R) (rho : gen Z -> R).
Context (SI : scalar_image hso ro inj rho) (s : nat -> @rvec R) (N : nat) (HN : 1 <= N).
Context (HP : forall k, k < N -> req ro (rho (GSpin 2 Plus (Z.of_nat k))) (radd ro (rx (s k)) (rmul ro (inj cx_I) (ry (s k)))))
        (HM : forall k, k < N -> req ro (rho (GSpin 2 Minus (Z.of_nat k))) (radd ro (rx (s k)) (ropp ro (rmul ro (inj cx_I) (ry (s k))))))
        (HZ : forall k, k < N -> req ro (rho (GSpin 2 Zcomp (Z.of_nat k))) (rz (s k))).
Local Instance eqI : Equivalence (req ro) := ri_equiv _ Hr.
Local Instance addI : Proper (req ro ==> req ro ==> req ro) (radd ro) := ri_add_ext _ Hr.
Local Instance mulI : Proper (req ro ==> req ro ==> req ro) (rmul ro) := ri_mul_ext _ Hr.
Local Instance oppI : Proper (req ro ==> req ro) (ropp ro) := ri_opp_ext _ Hr.
Local Instance opsI : @Ring_ops R (r0 ro) (r1 ro) (radd ro) (rmul ro) (rsub ro) (ropp ro) (req ro)
  := nc_ops ro.
Local Instance ringI : @Ring _ _ _ _ _ _ _ _ opsI := nc_ring ro Hr.
Ltac ncr := non_commutative_ring.
Notation D u := (u R ro inj rho).
(** the vector of values is [v] *)
Definition vis (u : vden) (v : @rvec R) : Prop :=
  req ro (D (d0 u)) (rx v) /\ req ro (D (d1 u)) (ry v) /\ req ro (D (d2 u)) (rz v).
Lemma vis_cross u v a b : vis u a -> vis v b -> vis (dcross u v) (rcross ro a b).
Proof.
  intros [A0 [A1 A2]] [B0 [B1 B2]]. unfold vis. cbn [dcross d0 d1 d2 rcross rx ry rz]. unfold dminor, dsub, dadd, dopp, dmul.
  rewrite A0, A1, A2, B0, B1, B2. repeat split; reflexivity.
Qed.
Lemma vis_dot u v a b : vis u a -> vis v b -> req ro (D (ddot u v)) (rdot ro a b).
Proof.
  intros [A0 [A1 A2]] [B0 [B1 B2]]. unfold ddot, rdot, dadd, dmul. rewrite A0, A1, A2, B0, B1, B2. reflexivity.
Qed.
Lemma two_halves x : req ro (rmul ro (inj cx_half) (radd ro x x)) x.
Proof.
  rewrite (ri_dist_l _ Hr), <- (ri_dist_r _ Hr), <- (si_add _ _ _ _ SI).
  assert (E : s_add hso cx_half cx_half = s_one hso) by (unfold cx_half; cbn; f_equal; now apply Qc_is_canon).
  rewrite E, (si_1 _ _ _ _ SI). apply (ri_mul_1_l _ Hr).
Qed.
Lemma vis_spin k : k < N -> vis (dspin (Z.of_nat k)) (s k).
Proof.
  intros h. unfold vis, dspin. cbn [d0 d1 d2]. unfold dmul, dadd, dsub, dadd, dopp, dinj, dgen.
  rewrite (HP k h), (HM k h), (HZ k h). set (x := rx (s k)). set (y := ry (s k)). set (iy := rmul ro (inj cx_I) y).
  split; [|split; [|reflexivity]].
  - assert (E : req ro (radd ro (radd ro x iy) (radd ro x (ropp ro iy))) (radd ro x x)).
    { ncr. }
    rewrite E. apply two_halves.
  - assert (O : forall a b, req ro (ropp ro (radd ro a (ropp ro b))) (radd ro b (ropp ro a))).
    { intros a b. ncr. }
    rewrite O.
    assert (E : req ro (radd ro (radd ro x iy) (radd ro iy (ropp ro x))) (radd ro iy iy)).
    { ncr. }
    rewrite E. unfold iy. rewrite <- (ri_dist_l _ Hr), (ri_mul_assoc _ Hr), <- (si_mul _ _ _ _ SI).
    assert (F : s_mul hso cx_mihalf cx_I = cx_half) by (unfold cx_mihalf, cx_I, cx_half; cbn; f_equal; now apply Qc_is_canon).
    rewrite F. apply two_halves.
Qed.
Lemma vis_nn i d : vis (at_site N (Z.of_nat i) (Z.of_nat d)) (nn N s i d).
Proof.
  unfold at_site, nn, wsite. rewrite <- Nat2Z.inj_add, <- Nat2Z.inj_mod. apply vis_spin. apply Nat.mod_upper_bound. lia.
Qed.
Lemma vis_at i : i < N -> vis (at_site N (Z.of_nat i) 0) (s i).
Proof. intros h. pose proof (vis_nn i 0) as K. unfold nn in K. rewrite Nat.add_0_r, Nat.mod_small in K by exact h. exact K. Qed.
Lemma dsum_rsum (t : Z -> den) (f : nat -> R) n : (forall i, i < n -> req ro (D (t (Z.of_nat i))) (f i)) ->
  req ro (D (dsum t n)) (rsum ro n f).
Proof.
  intros H. unfold dsum, csum. induction n as [|n IH]; [reflexivity|]. cbn [zsum rsum]. rewrite Z.add_0_l.
  rewrite IH by (intros; apply H; clear - H0; lia). rewrite (H n) by (clear; lia). reflexivity.
Qed.
End Values.

(** The expressions built by the program are, in every ring of operators of N
    spins 1/2, the Hamiltonian g * sum S_i.S_(i+1), the total spin and the
    charges of Eq. (10). *)
Theorem C87_values : forall N g, 1 <= N -> exists Sl H St Q3 Q4 Q5,
  spins N = Ok Sl /\ build_H N g Sl = Ok H /\ build_S N Sl = Ok St /\
  build_Q3 N Sl = Ok Q3 /\ build_Q4 N Sl = Ok Q4 /\ build_Q5 N Sl = Ok Q5 /\
  forall R (ro : ring_ops R) (inj : cx -> R) (rho : gen Z -> R) (s : nat -> @rvec R),
    is_ring ro -> scalar_image hso ro inj rho ->
    relations_on (on_sites (map (fun i => SH (Z.of_nat i)) (seq 0 N))) hso ro inj rho ->
    (* S_+- = S_x +- i S_y *)
    (forall k, k < N ->
       req ro (rho (GSpin 2 Plus (Z.of_nat k))) (radd ro (rx (s k)) (rmul ro (inj cx_I) (ry (s k)))) /\
       req ro (rho (GSpin 2 Minus (Z.of_nat k))) (radd ro (rx (s k)) (ropp ro (rmul ro (inj cx_I) (ry (s k))))) /\
       req ro (rho (GSpin 2 Zcomp (Z.of_nat k))) (rz (s k))) ->
    let val := eval_expr ro inj rho in
    req ro (val H) (H_value ro N s (inj (g, Q2Qc 0))) /\
    req ro (val (v0 St)) (rsum ro N (fun i => rx (s i))) /\
    req ro (val (v1 St)) (rsum ro N (fun i => ry (s i))) /\
    req ro (val (v2 St)) (rsum ro N (fun i => rz (s i))) /\
    req ro (val Q3) (Q3_value ro N s) /\
    req ro (val Q4) (Q4_value ro N s (inj (Q2Qc 4, Q2Qc 0))) /\
    req ro (val Q5) (Q5_value ro N s (inj (Q2Qc 4, Q2Qc 0))).
Proof.
  intros N g HN.
  destruct (spins_ok N HN) as [Sl [ES GS]].
  destruct (H_ok N HN Sl GS g) as [H [EH MH]].
  destruct (S_ok N HN Sl GS) as [St [ET [M0 [M1 M2]]]]. cbn [d0 d1 d2] in M0, M1, M2.
  destruct (Q3_ok N HN Sl GS) as [Q3 [E3 M3]].
  destruct (Q4_ok N HN Sl GS) as [Q4 [E4 M4]].
  destruct (Q5_ok N HN Sl GS) as [Q5 [E5 M5]].
  exists Sl, H, St, Q3, Q4, Q5.
  split; [exact ES|]. split; [exact EH|]. split; [exact ET|]. split; [exact E3|]. split; [exact E4|]. split; [exact E5|].
  intros R ro inj rho s Hr SI RL' HS val.
  assert (RL : relations_on (KW N) hso ro inj rho).
  { assert (K : forall m c i, KW N (GSpin m c i) -> on_sites (map (fun i => SH (Z.of_nat i)) (seq 0 N)) (GSpin m c i)).
    { intros m c i h. apply KW_spin in h. destruct h as [-> h]. split; [|reflexivity].
      apply in_map_iff. exists (Z.to_nat i). split; [cbn; f_equal; lia|apply in_seq; lia]. }
    destruct RL'. constructor; intros; try (now match goal with X : KW N (GFermion _ _) |- _ => contradiction (KW_f _ _ _ X) end);
      try (now match goal with X : KW N (GBoson _ _) |- _ => contradiction (KW_b _ _ _ X) end); auto. }
  assert (HP := fun k h => proj1 (HS k h)). assert (HM := fun k h => proj1 (proj2 (HS k h))).
  assert (HZ := fun k h => proj2 (proj2 (HS k h))).
  pose proof (ri_equiv _ Hr) as EQ. pose proof (ri_mul_ext _ Hr) as MX. pose proof (ri_add_ext _ Hr) as AX.
  pose proof (vis_nn ro Hr inj rho SI s N HN HP HM HZ) as VN.
  pose proof (vis_at ro Hr inj rho SI s N HN HP HM HZ) as VA.
  pose proof (vis_cross ro Hr inj rho) as VC. pose proof (vis_dot ro Hr inj rho) as VD.
  unfold val. clear val.
  split; [rewrite (proj2 MH R ro inj rho Hr SI RL)|
  split; [rewrite (proj2 M0 R ro inj rho Hr SI RL)|
  split; [rewrite (proj2 M1 R ro inj rho Hr SI RL)|
  split; [rewrite (proj2 M2 R ro inj rho Hr SI RL)|
  split; [rewrite (proj2 M3 R ro inj rho Hr SI RL)|
  split; [rewrite (proj2 M4 R ro inj rho Hr SI RL)|rewrite (proj2 M5 R ro inj rho Hr SI RL)]]]]]].
  - apply (dsum_rsum ro Hr). intros i hi. unfold dmul, dinj. apply MX; [reflexivity|].
    apply VD; [apply VA; exact hi|apply (VN i 1)].
  - apply (dsum_rsum ro Hr). intros i hi. apply (VA i hi).
  - apply (dsum_rsum ro Hr). intros i hi. apply (VA i hi).
  - apply (dsum_rsum ro Hr). intros i hi. apply (VA i hi).
  - apply (dsum_rsum ro Hr). intros i hi. unfold P3. apply VD; [apply VC; [apply VA; exact hi|apply (VN i 1)]|apply (VN i 2)].
  - apply (dsum_rsum ro Hr). intros i hi. unfold P4, dadd at 1. apply AX.
    + unfold dmul, dinj at 1. apply MX; [reflexivity|].
      apply VD; [apply VC; [apply VC; [apply VA; exact hi|apply (VN i 1)]|apply (VN i 2)]|apply (VN i 3)].
    + apply VD; [apply VA; exact hi|apply (VN i 2)].
  - apply (dsum_rsum ro Hr). intros i hi. unfold P5, dadd at 1. apply AX; [unfold dadd at 1; apply AX|].
    + unfold dmul, dinj at 1. apply MX; [reflexivity|].
      apply VD; [apply VC; [apply VC; [apply VC; [apply VA; exact hi|apply (VN i 1)]|apply (VN i 2)]|apply (VN i 3)]|apply (VN i 4)].
    + apply VD; [apply VC; [apply VA; exact hi|apply (VN i 2)]|apply (VN i 3)].
    + apply VD; [apply VC; [apply VA; exact hi|apply (VN i 1)]|apply (VN i 3)].
Qed.
Print Assumptions C87_values.

(** x and y components exist in every such ring *)
Lemma components {R} (ro : ring_ops R) inj rho (Hr : is_ring ro) (SI : scalar_image hso ro inj rho) : exists s : nat -> @rvec R,
  forall k,
    req ro (rho (GSpin 2 Plus (Z.of_nat k))) (radd ro (rx (s k)) (rmul ro (inj cx_I) (ry (s k)))) /\
    req ro (rho (GSpin 2 Minus (Z.of_nat k))) (radd ro (rx (s k)) (ropp ro (rmul ro (inj cx_I) (ry (s k))))) /\
    req ro (rho (GSpin 2 Zcomp (Z.of_nat k))) (rz (s k)).
Proof.
  exists (fun k => let p := rho (GSpin 2 Plus (Z.of_nat k)) in let m := rho (GSpin 2 Minus (Z.of_nat k)) in
    mk_rv (rmul ro (inj cx_half) (radd ro p m)) (rmul ro (inj cx_mihalf) (radd ro p (ropp ro m))) (rho (GSpin 2 Zcomp (Z.of_nat k)))).
  intros k. cbv zeta. cbn [rx ry rz]. set (p := rho (GSpin 2 Plus (Z.of_nat k))). set (m := rho (GSpin 2 Minus (Z.of_nat k))).
  pose (opsI := nc_ops ro). pose (ringI := nc_ring ro Hr : @Ring _ _ _ _ _ _ _ _ opsI).
  pose proof (ri_equiv _ Hr) as EQ. pose proof (ri_mul_ext _ Hr) as MX. pose proof (ri_add_ext _ Hr) as AX.
  pose proof (ri_opp_ext _ Hr) as OX.
  assert (F : s_mul hso cx_I cx_mihalf = cx_half) by (unfold cx_mihalf, cx_I, cx_half; cbn; f_equal; now apply Qc_is_canon).
  assert (E : req ro (rmul ro (inj cx_I) (rmul ro (inj cx_mihalf) (radd ro p (ropp ro m)))) (rmul ro (inj cx_half) (radd ro p (ropp ro m)))).
  { rewrite (ri_mul_assoc _ Hr), <- (si_mul _ _ _ _ SI), F. reflexivity. }
  pose proof (two_halves ro Hr inj rho SI) as T.
  split; [|split; [|reflexivity]]; rewrite E.
  - rewrite <- (T p) at 1. set (h := inj cx_half). 
    transitivity (rmul ro h (radd ro (radd ro p m) (radd ro p (ropp ro m)))); [|apply (ri_dist_l _ Hr)].
    apply MX; [reflexivity|]. clear - ringI. non_commutative_ring.
  - rewrite <- (T m) at 1. set (h := inj cx_half). clear - ringI. non_commutative_ring.
Qed.

(** Such rings exist: the operators of N spins 1/2 on their Fock space. *)
Lemma fock_state (l : list (site Z)) : FockRep.St l.
Proof. induction l as [|a l IH]; cbn; [exact tt|]. exact ((true, 0), IH). Qed.
Example C87_values_ex : forall N, exists R (ro : ring_ops R) (inj : cx -> R) (rho : gen Z -> R) (s : nat -> @rvec R),
  is_ring ro /\ scalar_image hso ro inj rho /\
  relations_on (on_sites (map (fun i => SH (Z.of_nat i)) (seq 0 N))) hso ro inj rho /\
  (forall k, k < N ->
       req ro (rho (GSpin 2 Plus (Z.of_nat k))) (radd ro (rx (s k)) (rmul ro (inj cx_I) (ry (s k)))) /\
       req ro (rho (GSpin 2 Minus (Z.of_nat k))) (radd ro (rx (s k)) (ropp ro (rmul ro (inj cx_I) (ry (s k))))) /\
       req ro (rho (GSpin 2 Zcomp (Z.of_nat k))) (rz (s k))) /\
  ~ req ro (r1 ro) (r0 ro).
Proof.
  intros N. set (l := map (fun i => SH (Z.of_nat i)) (seq 0 N)). pose proof (sd_laws _ cx_domain) as L.
  assert (HG : forall i : Z, In (SH i) l -> s_add hso cx_half cx_half = s_one hso)
    by (intros; unfold cx_half; cbn; f_equal; now apply Qc_is_canon).
  pose proof (FockRep.rows_is_ring hso L (FockRep.St l)) as Hr.
  pose proof (FockRep.fock_scalars ioZ sto_Z hso L cx_half l HG) as SI.
  pose proof (FockRep.fock_relations ioZ sto_Z hso L cx_half l HG) as RL.
  destruct (components _ _ _ Hr SI) as [s Hs].
  eexists _, _, _, _, s. split; [exact Hr|]. split; [exact SI|]. split; [exact RL|]. split; [intros k _; apply Hs|].
  intros E. specialize (E (fun _ => s_one hso) (fock_state l)).
  assert (E1 : s_one hso = s_zero hso).
  { etransitivity; [symmetry; exact (FockRep.act_1 hso L (FockRep.St l) (fun _ => s_one hso) (fock_state l))|].
    etransitivity; [exact E|]. exact (FockRep.act_0 hso (FockRep.St l) (fun _ => s_one hso) (fock_state l)). }
  clear - E1. apply (f_equal fst) in E1. cbn in E1. apply (f_equal this) in E1. discriminate E1.
Qed.

(** the operators of the program are not trivial: number of monomials for N = 4 *)
Example C87_ex : match spins 4 with
  | Ok Sl => match build_H 4 (Q2Qc 2) Sl, build_Q3 4 Sl, build_Q4 4 Sl, build_Q5 4 Sl with
             | Ok H, Ok Q3, Ok Q4, Ok Q5 =>
                 map (@length _) [H; Q3; Q4; Q5] = [12; 24; 24; 39] /\
                 match e_mul hgo hso H Q4 with Ok e => length e = 19 | _ => False end
             | _, _, _, _ => False end
  | _ => False end.
Proof. vm_compute. auto. Qed.
