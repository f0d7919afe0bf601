(** * C91: the example program kanamori.cpp, for every U and J.
    Vocabulary: KanSpec.v (operators of the shell), ExprSpec.v, FockSpec.v. *)
From Coq Require Import ZArith Lia QArith Qcanon Setoid Morphisms List String.
From Verif Require Import ExprModel ExprSpec ExprMap ExprEval ExprStd ExprMain ExprThrow ExprInst ExprOrder FockSpec
  PropExpr PropUnique PropHS PropFactories HeisModel HeisDen KanModel KanSpec KanDen KanVals KanLin.
Import List ListNotations.
Close Scope Qc_scope.
Close Scope Q_scope.
Close Scope Z_scope.
Close Scope string_scope.
Open Scope list_scope.

(** *** the program runs to its end *)
Definition Nv : kden := fun K => number_value (kro K) (Cd K) (Cc K).
Definition Sxv : kden := fun K => Sx_value (kro K) (Cd K) (Cc K) (kinj K half).
Definition Syv : kden := fun K => Sy_value (kro K) (Cd K) (Cc K) (kinj K halfi).
Definition Szv : kden := fun K => Sz_value (kro K) (Cd K) (Cc K) (kinj K half).
Definition Lv (i : Z) : kden := fun K => L_value (kro K) (Cd K) (Cc K) (fun m m' => kinj K (levi i m m')).
Definition S2v : kden := fun K => square3 (kro K) (Sxv K) (Syv K) (Szv K).
Definition L2v : kden := fun K => square3 (kro K) (Lv 0 K) (Lv 1 K) (Lv 2 K).

Definition main_ok (U J : Qc) (k : kan) : Prop := exists H N Sx Sy Sz Lx Ly Lz S2 L2 T,
  k = mk_kan H N [Sx; Sy; Sz] [Lx; Ly; Lz] S2 L2 T (e_sub kgo hso H T) /\
  has (HKv U J) H /\ has Nv N /\ has Sxv Sx /\ has Syv Sy /\ has Szv Sz /\
  has (Lv 0) Lx /\ has (Lv 1) Ly /\ has (Lv 2) Lz /\ has S2v S2 /\ has L2v L2 /\ has (t2gv U J Nv S2v L2v) T.
Lemma main_vals U J : okp (main_ok U J) (kanamori_main U J).
Proof.
  unfold kanamori_main.
  apply (okp_bind _ _ _ _ (HK_val U J)). intros H MH.
  apply (okp_bind _ _ _ _ N_val). intros N MN.
  apply (okp_bind _ _ _ _ Sx_val). intros Sx MSx. apply (okp_bind _ _ _ _ Sy_val). intros Sy MSy.
  apply (okp_bind _ _ _ _ Sz_val). intros Sz MSz.
  apply (okp_bind _ _ _ _ (squares_val _ _ _ _ _ _ MSx MSy MSz)). intros S2 MS2.
  apply (okp_bind _ _ _ _ (L_val 0 (or_introl eq_refl))). intros Lx MLx.
  apply (okp_bind _ _ _ _ (L_val 1 (or_intror (or_introl eq_refl)))). intros Ly MLy.
  apply (okp_bind _ _ _ _ (L_val 2 (or_intror (or_intror (or_introl eq_refl))))). intros Lz MLz.
  apply (okp_bind _ _ _ _ (squares_val _ _ _ _ _ _ MLx MLy MLz)). intros L2 ML2.
  apply (okp_bind _ _ _ _ (t2g_val U J _ _ _ _ _ _ MN MS2 ML2)). intros T MT.
  apply okp_ret. exists H, N, Sx, Sy, Sz, Lx, Ly, Lz, S2, L2, T. split; [reflexivity|].
  exact (conj MH (conj MN (conj MSx (conj MSy (conj MSz (conj MLx (conj MLy (conj MLz (conj MS2 (conj ML2 MT)))))))))).
Qed.

(** *** U = 1, J = 0 and U = 0, J = 1 *)
Definition nilb (e : kexpr) : bool := match e with [] => true | _ => false end.
(** the printed difference vanishes *)
Definition basisb (r : res kan) : bool := match r with Ok k => nilb (k_diff k) | _ => false end.
Lemma basis_10 : basisb (kanamori_main (q 1) (q 0)) = true.
Proof. vm_cast_no_check (eq_refl true). Qed.
Lemma basis_01 : basisb (kanamori_main (q 0) (q 1)) = true.
Proof. vm_cast_no_check (eq_refl true). Qed.

(** *** commutators of the generators of the symmetries *)
Definition kcomm (A B : res kexpr) : res kexpr := ksub (kmul A B) (kmul B A).
Definition isb (r : res kexpr) (e : res kexpr) : bool :=
  match ksub r e with Ok d => nilb d | _ => false end.
Definition zero_k : res kexpr := Ok [].
Definition iscale (e : res kexpr) : res kexpr := kscale (im (q 1)) e.
Definition triple (x y z : res kexpr) : bool :=
  isb (kcomm x y) (iscale z) && isb (kcomm y z) (iscale x) && isb (kcomm z x) (iscale y).
Lemma lie_S : triple build_Sx build_Sy build_Sz = true.
Proof. vm_cast_no_check (eq_refl true). Qed.
Lemma lie_L : triple (build_L 1) (build_L 0) (build_L 2) = true.
Proof. vm_cast_no_check (eq_refl true). Qed.
Lemma lie_N : forallb (fun s => isb (kcomm build_N s) zero_k) [build_Sx; build_Sy; build_Sz; build_L 0; build_L 1; build_L 2] = true.
Proof. vm_cast_no_check (eq_refl true). Qed.
Lemma lie_SL : forallb (fun s => forallb (fun l => isb (kcomm s l) zero_k) [build_L 0; build_L 1; build_L 2]) [build_Sx; build_Sy; build_Sz] = true.
Proof. vm_cast_no_check (eq_refl true). Qed.

Lemma isb_eq (u v : kden) r e : isb r e = true -> okv u r -> okv v e -> forall K, req (kro K) (u K) (v K).
Proof.
  intros E Hu Hv K. destruct (v_sub u v r e Hu Hv) as [d [Ed [_ Hd]]]. unfold isb in E. rewrite Ed in E.
  destruct d as [|x d]; [|discriminate E]. specialize (Hd K). cbn [eval_expr] in Hd.
  pose proof (ri_equiv _ (k_ring K)) as EQ. pose proof (ri_add_ext _ (k_ring K)) as AX.
  assert (X : req (kro K) (radd (kro K) (r0 (kro K)) (v K)) (radd (kro K) (radd (kro K) (u K) (ropp (kro K) (v K))) (v K)))
    by now rewrite Hd.
  rewrite (ri_add_0 _ (k_ring K)), <- (ri_add_assoc _ (k_ring K)), (ri_add_comm _ (k_ring K) (ropp (kro K) (v K))),
    (ri_opp _ (k_ring K)), add_0_r in X. symmetry. exact X.
Qed.
Lemma comm_val (u v : kden) r e : okv u r -> okv v e ->
  okv (fun K => radd (kro K) (rmul (kro K) (u K) (v K)) (ropp (kro K) (rmul (kro K) (v K) (u K)))) (kcomm r e).
Proof. intros H1 H2. unfold kcomm. apply (v_sub (fun K => _) (fun K => _)); apply (v_mul (fun K => _) (fun K => _)); assumption. Qed.
Lemma comm_zero_cm (u v : kden) r e : isb (kcomm r e) zero_k = true -> okv u r -> okv v e -> forall K, cm K (u K) (v K).
Proof.
  intros E Hu Hv K. pose proof (isb_eq _ _ _ _ E (comm_val u v r e Hu Hv) (v_ret _ _ has_zero) K) as H. cbv beta in H.
  pose proof (ri_equiv _ (k_ring K)) as EQ. pose proof (ri_add_ext _ (k_ring K)) as AX. unfold cm.
  set (a := rmul (kro K) (u K) (v K)) in *. set (b := rmul (kro K) (v K) (u K)) in *.
  assert (X : req (kro K) (radd (kro K) (radd (kro K) a (ropp (kro K) b)) b) (radd (kro K) (r0 (kro K)) b)) by now rewrite H.
  rewrite (ri_add_0 _ (k_ring K)), <- (ri_add_assoc _ (k_ring K)), (ri_add_comm _ (k_ring K) (ropp (kro K) b)),
    (ri_opp _ (k_ring K)), add_0_r in X. exact X.
Qed.
Definition cI : cx := im (q 1).
Lemma triple_cm (u v w : kden) r s t : triple r s t = true -> okv u r -> okv v s -> okv w t -> forall K,
  let S := square3 (kro K) (u K) (v K) (w K) in cm K (u K) S /\ cm K (v K) S /\ cm K (w K) S.
Proof.
  intros E Hu Hv Hw K S. unfold triple in E. apply andb_prop in E. destruct E as [E E3]. apply andb_prop in E. destruct E as [E1 E2].
  pose proof (isb_eq _ _ _ _ E1 (comm_val u v r s Hu Hv) (v_scale cI w _ Hw) K) as A1.
  pose proof (isb_eq _ _ _ _ E2 (comm_val v w s t Hv Hw) (v_scale cI u _ Hu) K) as A2.
  pose proof (isb_eq _ _ _ _ E3 (comm_val w u t r Hw Hu) (v_scale cI v _ Hv) K) as A3. cbv beta in A1, A2, A3.
  assert (C : forall x r, okv x r -> cm K (x K) (kinj K cI)).
  { intros x r' [e [_ [_ Hx]]]. eapply cm_eq; [apply Hx| |apply (cm_scalar K e cI)].
    apply (ri_equiv _ (k_ring K)). }
  pose proof (C u r Hu) as Cu. pose proof (C v s Hv) as Cv. pose proof (C w t Hw) as Cw. clear C E1 E2 E3.
  ringy K. pose proof (ri_add_comm _ (k_ring K)) as AC. pose proof (ri_add_assoc _ (k_ring K)) as AA.
  unfold S, square3. split; [|split].
  - apply (casimir K (kinj K cI)); assumption.
  - eapply cm_eq; [reflexivity| |apply (casimir K (kinj K cI) (v K) (w K) (u K) Cv Cw Cu A2 A3 A1)].
    rewrite AC, AA. reflexivity.
  - eapply cm_eq; [reflexivity| |apply (casimir K (kinj K cI) (w K) (u K) (v K) Cw Cu Cv A3 A1 A2)].
    rewrite <- AA, AC. reflexivity.
Qed.

(** the printed difference is zero *)
Lemma diff_val U J k : main_ok U J k -> has (fun K => radd (kro K) (HKv U J K) (ropp (kro K) (t2gv U J Nv S2v L2v K))) (k_diff k).
Proof.
  intros [H [N [Sx [Sy [Sz [Lx [Ly [Lz [S2 [L2 [T [-> [MH [_ [_ [_ [_ [_ [_ [_ [_ [_ MT]]]]]]]]]]]]]]]]]]]]]]. cbn [k_diff].
  apply (has_sub (HKv U J) (t2gv U J Nv S2v L2v)); assumption.
Qed.
Lemma basis_zero U J : basisb (kanamori_main U J) = true ->
  forall K, req (kro K) (radd (kro K) (HKv U J K) (ropp (kro K) (t2gv U J Nv S2v L2v K))) (r0 (kro K)).
Proof.
  intros E K. destruct (main_vals U J) as [k [Ek Mk]]. rewrite Ek in E. pose proof (diff_val U J k Mk) as [_ D].
  unfold basisb in E. destruct (k_diff k) as [|x d]; [|discriminate E]. specialize (D K). cbn [eval_expr] in D.
  pose proof (ri_equiv _ (k_ring K)) as EQ. symmetry. exact D.
Qed.
Lemma diff_zero U J K : req (kro K) (radd (kro K) (HKv U J K) (ropp (kro K) (t2gv U J Nv S2v L2v K))) (r0 (kro K)).
Proof.
  pose proof (lin_sub K U J _ _ _ _ _ _ (HK_lin K U J) (t2g_lin K U J Nv S2v L2v)) as L.
  ringy K. unfold lin in L.
  assert (Z1 := basis_zero _ _ basis_10 K). assert (Z2 := basis_zero _ _ basis_01 K).
  unfold t2gv in L, Z1, Z2 |- *. rewrite Z1, Z2 in L. rewrite L.
  rewrite <- (si_0 _ _ _ _ (k_si K)), <- !(si_mul _ _ _ _ (k_si K)), <- (si_add _ _ _ _ (k_si K)).
  assert (E : s_add hso (s_mul hso (re U) (s_zero hso)) (s_mul hso (re J) (s_zero hso)) = s_zero hso) by (cbn; f_equal; ring).
  rewrite E. reflexivity.
Qed.
Lemma HK_t2g U J K : req (kro K) (HKv U J K) (t2gv U J Nv S2v L2v K).
Proof.
  pose proof (diff_zero U J K) as H. ringy K. set (a := HKv U J K) in *. set (b := t2gv U J Nv S2v L2v K) in *.
  assert (X : req (kro K) (radd (kro K) (radd (kro K) a (ropp (kro K) b)) b) (radd (kro K) (r0 (kro K)) b)) by now rewrite H.
  rewrite (ri_add_0 _ (k_ring K)), <- (ri_add_assoc _ (k_ring K)), (ri_add_comm _ (k_ring K) (ropp (kro K) b)),
    (ri_opp _ (k_ring K)), add_0_r in X. exact X.
Qed.

(** For all values of U and J the program ends and the difference it prints is
    zero. *)
Theorem C91_identity : forall U J, exists k, kanamori_main U J = Ok k /\ k_diff k = [].
Proof.
  intros U J. destruct (main_vals U J) as [k [E M]]. exists k. split; [exact E|].
  apply (has_unique (fun K => r0 (kro K))); [|exact has_zero].
  eapply has_eq; [|apply (diff_val U J k M)]. intros K. apply (diff_zero U J K).
Qed.
Print Assumptions C91_identity.

(** The operators of the program are those of Eqs. (2), (4) and (7), in every
    ring of operators of the shell; in particular Eq. (7) holds there. *)
Theorem C91_values : forall U J, exists k Sx Sy Sz Lx Ly Lz,
  kanamori_main U J = Ok k /\ k_S k = [Sx; Sy; Sz] /\ k_L k = [Lx; Ly; Lz] /\
  forall R (ro : ring_ops R) (inj : cx -> R) (rho : gen (Z * string) -> R),
    is_ring ro -> scalar_image hso ro inj rho ->
    relations_on (on_sites (flat_map (fun m => map (fun s => SF (m, s)) spins2) orbitals)) hso ro inj rho ->
    let val := eval_expr ro inj rho in
    let cd := fun m s => rho (GFermion true (m, s)) in
    let c := fun m s => rho (GFermion false (m, s)) in
    let real := fun x : Qc => inj (x, Q2Qc 0) in
    let imag := fun x : Qc => inj (Q2Qc 0, x) in
    let HK := kanamori_value ro cd c (real U) (real (U - Q2Qc 2 * J)%Qc) (real (U - Q2Qc 3 * J)%Qc) (real J) (real (- J)%Qc) in
    let N := number_value ro cd c in
    let SX := Sx_value ro cd c (real (Q2Qc (1 # 2))) in
    let SY := Sy_value ro cd c (imag (Q2Qc (1 # 2))) in
    let SZ := Sz_value ro cd c (real (Q2Qc (1 # 2))) in
    let L := fun i => L_value ro cd c (fun m m' => imag (Q2Qc (levi_civita i m m'))) in
    let S2 := square3 ro SX SY SZ in
    let L2 := square3 ro (L 0%Z) (L 1%Z) (L 2%Z) in
    let T := t2g_value ro (real ((U - Q2Qc 3 * J) / Q2Qc 2)%Qc) (real (Q2Qc 2 * J)%Qc) (real (J / Q2Qc 2)%Qc)
      (real (Q2Qc (5 # 2) * J)%Qc) N S2 L2 in
    req ro (val (k_HK k)) HK /\ req ro (val (k_N k)) N /\
    req ro (val Sx) SX /\ req ro (val Sy) SY /\ req ro (val Sz) SZ /\
    req ro (val Lx) (L 0%Z) /\ req ro (val Ly) (L 1%Z) /\ req ro (val Lz) (L 2%Z) /\
    req ro (val (k_S2 k)) S2 /\ req ro (val (k_L2 k)) L2 /\ req ro (val (k_t2g k)) T /\
    req ro HK T.
Proof.
  intros U J. destruct (main_vals U J) as [k [E [H [N [Sx [Sy [Sz [Lx [Ly [Lz [S2 [L2 [T [-> M]]]]]]]]]]]]]].
  eexists _, Sx, Sy, Sz, Lx, Ly, Lz. split; [exact E|]. split; [reflexivity|]. split; [reflexivity|].
  intros R ro inj rho Hr SI RL'.
  assert (RL : relations_on Kk hso ro inj rho).
  { assert (X : forall g, Kk g -> on_sites ksites g) by (intros g [h1 h2]; split; [apply ksites_in; exact h1|exact h2]).
    destruct RL'. constructor; auto. }
  set (K := mk_kring R ro inj rho Hr SI RL). cbv zeta.
  destruct M as [[_ M1] [[_ M2] [[_ M3] [[_ M4] [[_ M5] [[_ M6] [[_ M7] [[_ M8] [[_ M9] [[_ M10] [_ M11]]]]]]]]]]].
  split; [exact (M1 K)|]. split; [exact (M2 K)|]. split; [exact (M3 K)|]. split; [exact (M4 K)|]. split; [exact (M5 K)|].
  split; [exact (M6 K)|]. split; [exact (M7 K)|]. split; [exact (M8 K)|]. split; [exact (M9 K)|]. split; [exact (M10 K)|].
  split; [exact (M11 K)|]. exact (HK_t2g U J K).
Qed.
Print Assumptions C91_values.

(** *** integrals of motion *)
Lemma lie_parts :
  triple build_Sx build_Sy build_Sz = true /\ triple (build_L 1) (build_L 0) (build_L 2) = true /\
  (forall s, In s [build_Sx; build_Sy; build_Sz; build_L 0; build_L 1; build_L 2] -> isb (kcomm build_N s) zero_k = true) /\
  (forall s l, In s [build_Sx; build_Sy; build_Sz] -> In l [build_L 0; build_L 1; build_L 2] -> isb (kcomm s l) zero_k = true).
Proof.
  split; [exact lie_S|]. split; [exact lie_L|]. split; [exact (proj1 (forallb_forall _ _) lie_N)|].
  intros s l i j. exact (proj1 (forallb_forall _ _) (proj1 (forallb_forall _ _) lie_SL s i) l j).
Qed.
Lemma mains_commute : forall K, let sv := [Sxv; Syv; Szv] in let lv := [Lv 0; Lv 1; Lv 2] in
  (forall x, In x (sv ++ lv) -> cm K (Nv K) (x K)) /\
  (forall s l, In s sv -> In l lv -> cm K (s K) (l K)) /\
  (forall s, In s sv -> cm K (s K) (S2v K)) /\ (forall l, In l lv -> cm K (l K) (L2v K)).
Proof.
  intros K sv lv. destruct lie_parts as [T1 [T2 [T3 T4]]].
  assert (VS : forall s, In s sv -> exists r, In r [build_Sx; build_Sy; build_Sz] /\ okv s r).
  { intros s [<-|[<-|[<-|[]]]]; [exists build_Sx; split; [now left|exact Sx_val]|exists build_Sy; split; [right; now left|exact Sy_val]|
      exists build_Sz; split; [right; right; now left|exact Sz_val]]. }
  assert (VL : forall l, In l lv -> exists r, In r [build_L 0; build_L 1; build_L 2] /\ okv l r).
  { intros l [<-|[<-|[<-|[]]]].
    - exists (build_L 0). split; [now left|apply L_val; now left].
    - exists (build_L 1). split; [right; now left|apply L_val; right; now left].
    - exists (build_L 2). split; [right; right; now left|apply L_val; right; right; now left]. }
  split; [|split; [|split]].
  - intros x i. apply in_app_iff in i. destruct i as [i|i].
    + destruct (VS x i) as [r [ir Hr]]. apply (comm_zero_cm Nv x build_N r); [|exact N_val|exact Hr].
      apply T3. change (In r ([build_Sx; build_Sy; build_Sz] ++ [build_L 0; build_L 1; build_L 2])). apply in_app_iff. left. exact ir.
    + destruct (VL x i) as [r [ir Hr]]. apply (comm_zero_cm Nv x build_N r); [|exact N_val|exact Hr].
      apply T3. change (In r ([build_Sx; build_Sy; build_Sz] ++ [build_L 0; build_L 1; build_L 2])). apply in_app_iff. right. exact ir.
  - intros s l i j. destruct (VS s i) as [r [ir Hr]]. destruct (VL l j) as [t [it Ht]].
    exact (comm_zero_cm s l r t (T4 r t ir it) Hr Ht K).
  - destruct (triple_cm Sxv Syv Szv _ _ _ T1 Sx_val Sy_val Sz_val K) as [A [B C]].
    intros s [<-|[<-|[<-|[]]]]; assumption.
  - assert (V0 := L_val 0 (or_introl eq_refl)). assert (V1 := L_val 1 (or_intror (or_introl eq_refl))).
    assert (V2 := L_val 2 (or_intror (or_intror (or_introl eq_refl)))).
    destruct (triple_cm (Lv 1) (Lv 0) (Lv 2) _ _ _ T2 V1 V0 V2 K) as [A [B C]]. ringy K.
    assert (E : req (kro K) (square3 (kro K) (Lv 1 K) (Lv 0 K) (Lv 2 K)) (L2v K)).
    { unfold L2v, square3. apply AX; [|reflexivity]. apply (ri_add_comm _ (k_ring K)). }
    intros l [<-|[<-|[<-|[]]]]; (eapply cm_eq; [reflexivity|exact E|assumption]).
Qed.

Lemma HK_commutes U J K : let sv := [Sxv; Syv; Szv] in let lv := [Lv 0; Lv 1; Lv 2] in
  forall x, In x (Nv :: S2v :: L2v :: sv ++ lv) -> cm K (x K) (HKv U J K).
Proof.
  intros sv lv. destruct (mains_commute K) as [C1 [C2 [C3 C4]]]. fold sv lv in C1, C2, C3, C4. ringy K.
  assert (Q : forall w x y z, cm K w (x K) -> cm K w (y K) -> cm K w (z K) -> cm K w (square3 (kro K) (x K) (y K) (z K))).
  { intros w x y z hx hy hz. unfold square3. apply cm_add; [apply cm_add|]; apply cm_mul; assumption. }
  assert (s0 : In Sxv sv) by now left. assert (s1 : In Syv sv) by (right; now left). assert (s2 : In Szv sv) by (right; right; now left).
  assert (l0 : In (Lv 0) lv) by now left. assert (l1 : In (Lv 1) lv) by (right; now left). assert (l2 : In (Lv 2) lv) by (right; right; now left).
  assert (NS : cm K (Nv K) (S2v K)) by (apply Q; apply C1, in_app_iff; now left).
  assert (NL : cm K (Nv K) (L2v K)) by (apply Q; apply C1, in_app_iff; now right).
  assert (SL : forall s, In s sv -> cm K (s K) (L2v K)) by (intros s i; apply Q; apply C2; assumption).
  assert (LS : forall l, In l lv -> cm K (l K) (S2v K)) by (intros l i; apply Q; apply cm_sym, C2; assumption).
  assert (SLL : cm K (S2v K) (L2v K)) by (apply cm_sym; apply Q; apply cm_sym, SL; assumption).
  (* every generator of the symmetry has values of an expression, so that it commutes with scalars *)
  assert (SC : forall x, In x (Nv :: S2v :: L2v :: sv ++ lv) -> forall c, cm K (x K) (kinj K c)).
  { destruct (main_vals U J) as [k [_ [H [N [Sx [Sy [Sz [Lx [Ly [Lz [S2 [L2 [T [_ M]]]]]]]]]]]]]].
    destruct M as [_ [M2 [M3 [M4 [M5 [M6 [M7 [M8 [M9 [M10 _]]]]]]]]]].
    assert (W : forall x e, has x e -> forall c, cm K (x K) (kinj K c))
      by (intros x e [_ h] c; eapply cm_eq; [apply h|reflexivity|apply cm_scalar]).
    intros x [<-|[<-|[<-|[<-|[<-|[<-|[<-|[<-|[<-|[]]]]]]]]]]; (eapply W; eassumption). }
  (* N, S^2 and L^2 commute with every integral *)
  assert (F : forall x, In x (Nv :: S2v :: L2v :: sv ++ lv) -> cm K (x K) (Nv K) /\ cm K (x K) (S2v K) /\ cm K (x K) (L2v K)).
  { intros x [<-|[<-|[<-|i]]].
    - split; [apply cm_refl|]. split; assumption.
    - split; [apply cm_sym; assumption|]. split; [apply cm_refl|assumption].
    - split; [apply cm_sym; assumption|]. split; [apply cm_sym; assumption|apply cm_refl].
    - split; [apply cm_sym, C1; exact i|]. apply in_app_iff in i. destruct i as [i|i].
      + split; [apply C3; exact i|apply SL; exact i].
      + split; [apply LS; exact i|apply C4; exact i]. }
  intros x i. destruct (F x i) as [f1 [f2 f3]]. pose proof (SC x i) as sc.
  eapply cm_eq; [reflexivity|symmetry; apply HK_t2g|]. unfold t2gv, t2g_value.
  apply cm_add; [apply cm_add; [apply cm_add|apply cm_opp]|].
  - apply cm_mul; [apply cm_mul; [apply sc|exact f1]|]. apply cm_add; [exact f1|]. apply cm_opp, cm_1.
  - apply cm_opp. apply cm_mul; [apply sc|exact f2].
  - apply cm_mul; [apply sc|exact f3].
  - apply cm_mul; [apply sc|exact f1].
Qed.

(** N, S^2, L^2 and all components of S and L are integrals of motion: the two
    products with H_K are stored as the same expression, for all U and J. *)
Theorem C91_integrals : forall U J, exists k, kanamori_main U J = Ok k /\
  forall X, In X (k_N k :: k_S2 k :: k_L2 k :: k_S k ++ k_L k) ->
  exists p, e_mul kgo hso (k_HK k) X = Ok p /\ e_mul kgo hso X (k_HK k) = Ok p.
Proof.
  intros U J. destruct (main_vals U J) as [k [E [H [N [Sx [Sy [Sz [Lx [Ly [Lz [S2 [L2 [T [-> M]]]]]]]]]]]]]].
  eexists. split; [exact E|]. cbn [k_HK k_N k_S k_L k_S2 k_L2 app].
  destruct M as [M1 [M2 [M3 [M4 [M5 [M6 [M7 [M8 [M9 [M10 _]]]]]]]]]].
  assert (W : forall x e, has x e -> In x [Nv; S2v; L2v; Sxv; Syv; Szv; Lv 0; Lv 1; Lv 2] ->
    exists p, e_mul kgo hso H e = Ok p /\ e_mul kgo hso e H = Ok p).
  { intros x e Hx i. destruct (has_mul _ _ _ _ M1 Hx) as [p [Ep Hp]]. destruct (has_mul _ _ _ _ Hx M1) as [p' [Ep' Hp']].
    exists p. split; [exact Ep|]. rewrite Ep'. f_equal. apply (has_unique (fun K => rmul (kro K) (x K) (HKv U J K))); [exact Hp'|].
    eapply has_eq; [|exact Hp]. intros K. pose proof (ri_equiv _ (k_ring K)) as EQ. symmetry. exact (HK_commutes U J K x i). }
  intros X h. repeat (destruct h as [<-|h]; [(eapply W; [eassumption|cbn; tauto])|]). destruct h.
Qed.
Print Assumptions C91_integrals.

(** the operators are not trivial: number of monomials for U = 4, J = 1/5 *)
Example C91_ex : match kanamori_main (q 4) (q (1 # 5)) with
  | Ok k => map (@List.length _) ([k_HK k; k_N k; k_S2 k; k_L2 k; k_t2g k; k_diff k] ++ k_S k ++ k_L k)
      = [27; 6; 27; 24; 27; 0; 6; 6; 6; 4; 4; 4]%nat
  | _ => False end.
Proof. vm_compute. reflexivity. Qed.

(** a non-zero ring of operators of the shell: its Fock space *)
Lemma fock_point (l : list (site kidx)) : FockRep.St l.
Proof. induction l as [|a l IH]; cbn; [exact tt|]. exact ((true, 0), IH). Qed.
Example C91_values_ex : exists R (ro : ring_ops R) (inj : cx -> R) (rho : gen (Z * string) -> R),
  is_ring ro /\ scalar_image hso ro inj rho /\
  relations_on (on_sites (flat_map (fun m => map (fun s => SF (m, s)) spins2) orbitals)) hso ro inj rho /\
  ~ req ro (r1 ro) (r0 ro).
Proof.
  set (l := flat_map (fun m => map (fun s => SF (m, s)) spins2) orbitals). pose proof (sd_laws _ cx_domain) as L.
  assert (HG : forall i : kidx, In (SH i) l -> s_add hso cx_half cx_half = s_one hso)
    by (intros; unfold cx_half; cbn; f_equal; now apply Qc_is_canon).
  pose proof (FockRep.rows_is_ring hso L (FockRep.St l)) as Hr.
  pose proof (FockRep.fock_scalars kio sto_k hso L cx_half l HG) as SI.
  pose proof (FockRep.fock_relations kio sto_k hso L cx_half l HG) as RL.
  eexists _, _, _, _. split; [exact Hr|]. split; [exact SI|]. split; [exact RL|].
  intros E. specialize (E (fun _ => s_one hso) (fock_point l)).
  assert (E1 : s_one hso = s_zero hso).
  { etransitivity; [symmetry; exact (FockRep.act_1 hso L (FockRep.St l) (fun _ => s_one hso) (fock_point l))|].
    etransitivity; [exact E|]. exact (FockRep.act_0 hso (FockRep.St l) (fun _ => s_one hso) (fock_point l)). }
  clear - E1. apply (f_equal fst) in E1. cbn in E1. apply (f_equal this) in E1. discriminate E1.
Qed.
