(** * Values of the operators of the Kanamori program (C91) *)
From Coq Require Import ZArith Lia QArith Qcanon Setoid Morphisms List String.
From Verif Require Import ExprModel ExprSpec ExprMap ExprEval ExprStd ExprMain ExprThrow ExprInst ExprOrder FockSpec
  PropExpr PropUnique PropHS PropFactories HeisModel HeisDen KanModel KanSpec KanDen.
Import List ListNotations.
Close Scope Qc_scope.
Close Scope Q_scope.
Close Scope Z_scope.
Close Scope string_scope.
Open Scope list_scope.

Lemma orbs_in m : In m orbs -> In m orbitals.
Proof. exact (fun h => h). Qed.
Lemma up_in : In up spins2. Proof. left. reflexivity. Qed.
Lemma down_in : In down spins2. Proof. right. left. reflexivity. Qed.

Ltac ringy K := pose proof (ri_equiv _ (k_ring K)) as EQ; pose proof (ri_add_ext _ (k_ring K)) as AX;
  pose proof (ri_mul_ext _ (k_ring K)) as MX; pose proof (ri_opp_ext _ (k_ring K)) as OX.

Lemma add_0_r K x : req (kro K) (radd (kro K) x (r0 (kro K))) x.
Proof. ringy K. rewrite (ri_add_comm _ (k_ring K)). apply (ri_add_0 _ (k_ring K)). Qed.

Lemma v_loop1 (t : Z -> kden) tr v H : (forall m, In m orbitals -> okv (t m) (tr m)) -> has v H ->
  okv (fun K => radd (kro K) (v K) (sum_m (kro K) (fun m => t m K))) (loop1 tr H).
Proof.
  intros Ht Hv. unfold loop1, sum_m. apply (loop_val t); [|exact Hv].
  intros m w e i He. apply (v_add w (t m)); [apply v_ret; exact He|apply Ht; exact i].
Qed.
Lemma v_loop2 skip (t : Z -> Z -> kden) tr v H :
  (forall m m', In m orbitals -> In m' orbitals -> okv (t m m') (tr m m')) -> has v H ->
  okv (fun K => radd (kro K) (v K)
    (sum_m (kro K) (fun m => sum_m (kro K) (fun m' => if (skip m m' : bool) then r0 (kro K) else t m m' K)))) (loop2 skip tr H).
Proof.
  intros Ht Hv. unfold loop2, sum_m.
  apply (loop_val (fun m K => lsum (kro K) orbitals (fun m' => if (skip m m' : bool) then r0 (kro K) else t m m' K))); [|exact Hv].
  intros m w e i He. apply (loop_val (fun m' K => if (skip m m' : bool) then r0 (kro K) else t m m' K)); [|exact He].
  intros m' w' e' i' He'. cbv beta. destruct (skip m m').
  - apply v_ret. eapply has_eq; [|exact He']. intros K. ringy K. rewrite add_0_r. reflexivity.
  - apply (v_add w' (t m m')); [apply v_ret; exact He'|apply Ht; assumption].
Qed.
Lemma v_loop2s skip (t t' : Z -> Z -> kden) tr tr' v H :
  (forall m m', In m orbitals -> In m' orbitals -> okv (t m m') (tr m m')) ->
  (forall m m', In m orbitals -> In m' orbitals -> okv (t' m m') (tr' m m')) -> has v H ->
  okv (fun K => radd (kro K) (v K)
    (sum_m (kro K) (fun m => sum_m (kro K) (fun m' => if (skip m m' : bool) then r0 (kro K) else radd (kro K) (t m m' K) (t' m m' K)))))
    (loop2s skip tr tr' H).
Proof.
  intros Ht Ht' Hv. unfold loop2s, sum_m.
  apply (loop_val (fun m K => lsum (kro K) orbitals (fun m' => if (skip m m' : bool) then r0 (kro K) else radd (kro K) (t m m' K) (t' m m' K)))); [|exact Hv].
  intros m w e i He.
  apply (loop_val (fun m' K => if (skip m m' : bool) then r0 (kro K) else radd (kro K) (t m m' K) (t' m m' K))); [|exact He].
  intros m' w' e' i' He'. cbv beta. destruct (skip m m').
  - apply v_ret. eapply has_eq; [|exact He']. intros K. ringy K. rewrite add_0_r. reflexivity.
  - eapply okv_eq; [|eapply okp_bind; [apply (v_add w' (t m m')); [apply v_ret; exact He'|apply Ht; assumption]|]].
    2: { intros x Hx. apply (v_add (fun K => radd (kro K) (w' K) (t m m' K)) (t' m m')); [apply v_ret; exact Hx|apply Ht'; assumption]. }
    intros K. cbn beta. ringy K. symmetry. apply (ri_add_assoc _ (k_ring K)).
Qed.

(** sums of equal terms are equal *)
Lemma lsum_ext K {A} (l : list A) (f g : A -> kR K) : (forall x, In x l -> req (kro K) (f x) (g x)) ->
  req (kro K) (lsum (kro K) l f) (lsum (kro K) l g).
Proof.
  intros H. ringy K. induction l as [|a l IH]; cbn; [reflexivity|].
  rewrite (H a) by (left; reflexivity). rewrite IH by (intros; apply H; right; assumption). reflexivity.
Qed.

Section H.
Context (U J : Qc).
Local Open Scope Qc_scope.
Definition HKv : kden := fun K => kanamori_value (kro K) (Cd K) (Cc K)
  (kinj K (re U)) (kinj K (re (U - q 2 * J))) (kinj K (re (U - q 3 * J))) (kinj K (re J)) (kinj K (re (- J))).
Lemma HK_val : okv HKv (build_HK U J).
Proof.
  unfold build_HK.
  eapply okp_bind.
  { apply (v_loop1 (fun m K => rmul (kro K) (rmul (kro K) (kinj K (re U)) (num (kro K) (Cd K) (Cc K) m up)) (num (kro K) (Cd K) (Cc K) m down))); [|exact has_zero].
    intros m i. unfold t_intra. eapply (v_mul (fun K => _) (fun K => _)).
    - apply (v_scale _ (fun K => _)). apply has_num; [exact i|apply up_in].
    - apply has_num; [exact i|apply down_in]. }
  intros H1 M1. eapply okp_bind.
  { apply (v_loop2 Z.eqb (fun m m' K => rmul (kro K) (rmul (kro K) (kinj K (re (U - q 2 * J))) (num (kro K) (Cd K) (Cc K) m up)) (num (kro K) (Cd K) (Cc K) m' down))); [|exact M1].
    intros m m' i i'. unfold t_inter. eapply (v_mul (fun K => _) (fun K => _)).
    - apply (v_scale _ (fun K => _)). apply has_num; [exact i|apply up_in].
    - apply has_num; [exact i'|apply down_in]. }
  intros H2 M2. eapply okp_bind.
  { apply (v_loop2s Z.geb
      (fun m m' K => rmul (kro K) (rmul (kro K) (kinj K (re (U - q 3 * J))) (num (kro K) (Cd K) (Cc K) m up)) (num (kro K) (Cd K) (Cc K) m' up))
      (fun m m' K => rmul (kro K) (rmul (kro K) (kinj K (re (U - q 3 * J))) (num (kro K) (Cd K) (Cc K) m down)) (num (kro K) (Cd K) (Cc K) m' down))); [| |exact M2].
    - intros m m' i i'. unfold t_same_up. eapply (v_mul (fun K => _) (fun K => _)).
      + apply (v_scale _ (fun K => _)). apply has_num; [exact i|apply up_in].
      + apply has_num; [exact i'|apply up_in].
    - intros m m' i i'. unfold t_same_down. eapply (v_mul (fun K => _) (fun K => _)).
      + apply (v_scale _ (fun K => _)). apply has_num; [exact i|apply down_in].
      + apply has_num; [exact i'|apply down_in]. }
  intros H3 M3. eapply okp_bind.
  { apply (v_loop2 Z.eqb (fun m m' K => rmul (kro K) (rmul (kro K) (rmul (kro K) (rmul (kro K) (kinj K (re (- J))) (Cd K m up)) (Cc K m down)) (Cd K m' down)) (Cc K m' up))); [|exact M3].
    intros m m' i i'. unfold t_flip, kc_dag, kc. apply (v_mul (fun K => _) (fun K => _)); [apply (v_mul (fun K => _) (fun K => _)); [apply (v_mul (fun K => _) (fun K => _)); [apply (v_scale _ (fun K => _))|]|]|];
      apply has_gen, in_kgens; first [assumption|apply up_in|apply down_in]. }
  intros H4 M4. eapply okv_eq; [|
    apply (v_loop2 Z.eqb (fun m m' K => rmul (kro K) (rmul (kro K) (rmul (kro K) (rmul (kro K) (kinj K (re J)) (Cd K m up)) (Cd K m down)) (Cc K m' down)) (Cc K m' up))); [|exact M4]].
  - intros K. cbv beta. ringy K. unfold HKv, kanamori_value, sum_ne, sum_lt, sum_m.
    apply AX; [|reflexivity]. apply AX; [|reflexivity]. rewrite (ri_add_0 _ (k_ring K)).
    apply AX; [reflexivity|].
    apply lsum_ext. intros m i. apply lsum_ext. intros m' i'. rewrite Z.geb_leb, Z.leb_antisym. destruct (Z.ltb m m'); reflexivity.
  - intros m m' i i'. unfold t_hop, kc_dag, kc. apply (v_mul (fun K => _) (fun K => _)); [apply (v_mul (fun K => _) (fun K => _)); [apply (v_mul (fun K => _) (fun K => _)); [apply (v_scale _ (fun K => _))|]|]|];
      apply has_gen, in_kgens; first [assumption|apply up_in|apply down_in].
Qed.
End H.

Lemma zero_start (v : kden) r : okv (fun K => radd (kro K) (r0 (kro K)) (v K)) r -> okv v r.
Proof. apply okv_eq. intros K. apply (ri_add_0 _ (k_ring K)). Qed.
Definition half : cx := re (q (1 # 2)).
Definition halfi : cx := im (q (1 # 2)).
Definition levi (i : Z) (m m' : Z) : cx := im (q (levi_civita i m m')).

Lemma N_val : okv (fun K => number_value (kro K) (Cd K) (Cc K)) build_N.
Proof.
  apply zero_start. unfold build_N, number_value.
  apply (v_loop1 (fun m K => radd (kro K) (num (kro K) (Cd K) (Cc K) m up) (num (kro K) (Cd K) (Cc K) m down))); [|exact has_zero].
  intros m i. apply (v_add (fun K => _) (fun K => _)); apply has_num; first [exact i|apply up_in|apply down_in].
Qed.
Lemma cdc m s m' s' : In m orbitals -> In m' orbitals -> In s spins2 -> In s' spins2 ->
  okv (fun K => rmul (kro K) (Cd K m s) (Cc K m' s')) (kmul (kc_dag m s) (kc m' s')).
Proof. intros. apply (v_mul (fun K => _) (fun K => _)); apply has_gen, in_kgens; assumption. Qed.
Lemma Sx_val : okv (fun K => Sx_value (kro K) (Cd K) (Cc K) (kinj K half)) build_Sx.
Proof.
  apply zero_start. unfold build_Sx, Sx_value.
  apply (v_loop1 (fun m K => rmul (kro K) (kinj K half) (radd (kro K) (rmul (kro K) (Cd K m up) (Cc K m down)) (rmul (kro K) (Cd K m down) (Cc K m up)))));
    [|exact has_zero].
  intros m i. apply (v_scale half (fun K => _)). apply (v_add (fun K => _) (fun K => _)); apply cdc; first [exact i|apply up_in|apply down_in].
Qed.
Lemma Sy_val : okv (fun K => Sy_value (kro K) (Cd K) (Cc K) (kinj K halfi)) build_Sy.
Proof.
  apply zero_start. unfold build_Sy, Sy_value.
  apply (v_loop1 (fun m K => rmul (kro K) (kinj K halfi) (radd (kro K) (rmul (kro K) (Cd K m down) (Cc K m up)) (ropp (kro K) (rmul (kro K) (Cd K m up) (Cc K m down))))));
    [|exact has_zero].
  intros m i. apply (v_scale halfi (fun K => _)). apply (v_sub (fun K => _) (fun K => _)); apply cdc; first [exact i|apply up_in|apply down_in].
Qed.
Lemma Sz_val : okv (fun K => Sz_value (kro K) (Cd K) (Cc K) (kinj K half)) build_Sz.
Proof.
  apply zero_start. unfold build_Sz, Sz_value.
  apply (v_loop1 (fun m K => rmul (kro K) (kinj K half) (radd (kro K) (num (kro K) (Cd K) (Cc K) m up) (ropp (kro K) (num (kro K) (Cd K) (Cc K) m down)))));
    [|exact has_zero].
  intros m i. apply (v_scale half (fun K => _)). apply (v_sub (fun K => _) (fun K => _)); apply has_num; first [exact i|apply up_in|apply down_in].
Qed.
Lemma L_val i : In i orbitals -> okv (fun K => L_value (kro K) (Cd K) (Cc K) (fun m m' => kinj K (levi i m m'))) (build_L i).
Proof.
  intros hi. apply zero_start. unfold build_L, L_value.
  apply (loop_val (fun s K => sum_m (kro K) (fun m => sum_m (kro K) (fun m' =>
    rmul (kro K) (rmul (kro K) (kinj K (levi i m m')) (Cd K m s)) (Cc K m' s))))); [|exact has_zero].
  intros s v H is Hv.
  apply (v_loop2 (fun _ _ => false) (fun m m' K => rmul (kro K) (rmul (kro K) (kinj K (levi i m m')) (Cd K m s)) (Cc K m' s))); [|exact Hv].
  intros m m' hm hm'.
  assert (E : im (q (inject_Z (eps i m m'))) = levi i m m').
  { cbn in hi, hm, hm'. repeat (destruct hi as [<-|hi]; [|]); [| | |destruct hi];
      (repeat (destruct hm as [<-|hm]; [|]); [| | |destruct hm]);
      (repeat (destruct hm' as [<-|hm']; [|]); [| | |destruct hm']); reflexivity. }
  rewrite E. apply (v_mul (fun K => _) (fun K => _)); [apply (v_scale (levi i m m') (fun K => _))|]; apply has_gen, in_kgens; assumption.
Qed.
Lemma squares_val (x y z : kden) A B C : has x A -> has y B -> has z C ->
  okv (fun K => square3 (kro K) (x K) (y K) (z K)) (squares A B C).
Proof.
  intros Hx Hy Hz. unfold squares, square3.
  apply (v_add (fun K => _) (fun K => _)); [apply (v_add (fun K => _) (fun K => _))|]; apply (v_mul (fun K => _) (fun K => _)); apply v_ret; assumption.
Qed.
Definition t2gv (U J : Qc) (n s2 l2 : kden) : kden := fun K => t2g_value (kro K)
  (kinj K (re (Qcdiv (U - q 3 * J)%Qc (q 2)))) (kinj K (re (q 2 * J)%Qc)) (kinj K (re (Qcdiv J (q 2)))) (kinj K (re (q (5 # 2) * J)%Qc))
  (n K) (s2 K) (l2 K).
Lemma t2g_val U J (n s2 l2 : kden) N S2 L2 : has n N -> has s2 S2 -> has l2 L2 ->
  okv (t2gv U J n s2 l2) (build_t2g U J N S2 L2).
Proof.
  intros Hn Hs Hl. unfold build_t2g, t2gv, t2g_value.
  apply (v_add (fun K => _) (fun K => _)); [apply (v_sub (fun K => _) (fun K => _)); [apply (v_sub (fun K => _) (fun K => _))|]|].
  - apply (v_mul (fun K => _) (fun K => _)); [apply (v_scale _ (fun K => _)); apply v_ret; exact Hn|].
    apply v_sub1. apply v_ret. exact Hn.
  - apply (v_scale _ (fun K => _)). apply v_ret. exact Hs.
  - apply (v_scale _ (fun K => _)). apply v_ret. exact Hl.
  - apply (v_scale _ (fun K => _)). apply v_ret. exact Hn.
Qed.
