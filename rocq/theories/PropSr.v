(** * Property C98: the spin ring of examples/spin1_heisenberg.cpp.
    Vocabulary: HolSpec.v (lists, rsum), ExprSpec.v (representation). *)
From Coq Require Import ZArith List Bool Arith Lia QArith Qcanon Setoid Morphisms Permutation.
From Verif Require Import ExprModel ExprSpec ExprOrder ExprMap ExprEval ExprStd ExprMain ExprInst ExprConj ExprThrow PropExpr
  ConvSpec FockSpec PropFactories PropUnique PropConj PolySpec PolyExpr RepExample PropHS HolModel HolSpec HolProofs PropHol SrModel SrProofs.
Import ListNotations.
Close Scope Qc_scope.
Close Scope Q_scope.
Close Scope Z_scope.
Open Scope nat_scope.
Open Scope list_scope.

(** Nothing is thrown; H and the total S_z are the operators of the ring; they
    can be multiplied and the products in the two orders are the same operator;
    conj(H) does not throw and is the same operator as H when 0.5 is real *)
Theorem C98_ring : forall I (io : index_ops I) T (so : scalar_ops T) m half (idx : nat -> I),
  index_order io -> scalar_domain so -> 1 <= m -> m <> 2 ->
  forall N, exists H M HM MH,
  spin_ring io so m half idx N = Ok H /\ total_sz io so m idx N = Ok M /\
  e_mul (std_gen_ops io) so H M = Ok HM /\ e_mul (std_gen_ops io) so M H = Ok MH /\
  forall R (ro : ring_ops R) (inj : T -> R) (rho : gen I -> R), representation so ro inj rho ->
  forall sites, lists sites (fun i => i < N) ->
  let mul := rmul ro in let add := radd ro in
  let S_z := fun i => rho (GSpin m Zcomp (idx i)) in
  let S_p := fun i => rho (GSpin m Plus (idx i)) in
  let S_m := fun i => rho (GSpin m Minus (idx i)) in
  let next := fun i => if Nat.eqb (i + 1) N then 0 else i + 1 in
  req ro (eval_expr ro inj rho H)
    (rsum ro (fun i => add (mul (S_z i) (S_z (next i)))
       (mul (inj half) (add (mul (S_p i) (S_m (next i))) (mul (S_m i) (S_p (next i)))))) sites) /\
  req ro (eval_expr ro inj rho M) (rsum ro S_z sites) /\
  ((forall i j, idx i = idx j -> i = j) -> req ro (eval_expr ro inj rho HM) (eval_expr ro inj rho MH)).
Proof.
  intros I io T so m half idx Hio D Hm Hm2 N. pose proof (sd_laws _ D) as L.
  pose proof (sr_uses so m half idx N) as UP. pose proof (sz_uses so m idx N) as UQ.
  set (P := sr_p so m half idx N) in *. set (Q := sz_p so m idx N) in *.
  destruct (spins_total io so Hio D m Hm Hm2 P UP) as [H EH]. destruct (spins_total io so Hio D m Hm Hm2 Q UQ) as [M EM].
  assert (U1 : Forall (spin_m m) (uses (PMul P Q))) by (clearbody P Q; cbn [uses]; apply Forall_app; now split).
  assert (U2 : Forall (spin_m m) (uses (PMul Q P))) by (clearbody P Q; cbn [uses]; apply Forall_app; now split).
  destruct (spins_total io so Hio D m Hm Hm2 _ U1) as [HM E1]. destruct (spins_total io so Hio D m Hm Hm2 _ U2) as [MH E2].
  exists H, M, HM, MH. split; [rewrite (sr_run io so Hio D m Hm Hm2); exact EH|]. split; [rewrite (szt_run io so Hio D m Hm Hm2); exact EM|].
  split; [cbn [run] in E1; rewrite EH, EM in E1; exact E1|]. split; [cbn [run] in E2; rewrite EH, EM in E2; exact E2|].
  intros R ro inj rho [Hr SI RL'] ls Hs mul add S_z S_p S_m next. pose proof (relations_all so ro inj rho RL') as RL.
  pose proof (ri_equiv _ Hr) as EQ. pose proof (ri_mul_ext _ Hr) as MX. pose proof (ri_add_ext _ Hr) as AX.
  assert (PS : Permutation (seq 0 N) ls).
  { apply NoDup_Permutation; [apply seq_NoDup|exact (proj1 Hs)|]. intros i. rewrite (proj2 Hs), in_seq. lia. }
  assert (V1 : forall c i, req ro (meaning ro inj rho (PMono (s_one so) [GSpin m c (idx i)])) (rho (GSpin m c (idx i)))).
  { intros c i. cbn [meaning eval_mono]. now rewrite (si_1 _ _ _ _ SI), (ri_mul_1_l _ Hr), (ri_mul_1_r _ Hr). }
  assert (Z0 : req ro (meaning ro inj rho (PConst (s_zero so))) (r0 ro)) by apply (si_0 _ _ _ _ SI).
  assert (Z1 : forall x, req ro (radd ro (r0 ro) x) x) by (intros x; apply (ri_add_0 _ Hr)).
  split; [|split].
  - rewrite (sr_value io so Hio D m Hm Hm2 _ UP ro inj rho Hr SI RL P H (incl_refl _) EH).
    unfold P, sr_p. rewrite (total_r ro inj rho Hr), Z0, Z1.
    etransitivity; [|apply (msum_perm ro Hr _ _ _ PS)]. apply (msum_ext ro Hr). intros i hi. apply in_seq in hi.
    assert (NX : (i + 1) mod N = next i).
    { unfold next. destruct (Nat.eqb_spec (i + 1) N) as [->|n0]; [apply Nat.mod_same; lia|apply Nat.mod_small; lia]. }
    unfold srt_p. rewrite NX. cbn [meaning]. unfold mul, add. 
    apply AX; [apply MX; apply V1|]. apply MX; [reflexivity|]. apply AX; apply MX; apply V1.
  - rewrite (sr_value io so Hio D m Hm Hm2 _ UQ ro inj rho Hr SI RL Q M (incl_refl _) EM).
    unfold Q, sz_p. rewrite (total_r ro inj rho Hr), Z0, Z1.
    etransitivity; [|apply (msum_perm ro Hr _ _ _ PS)]. apply (msum_ext ro Hr). intros i _. apply V1.
  - intros IJ. rewrite (sr_value io so Hio D m Hm Hm2 _ U1 ro inj rho Hr SI RL _ HM (incl_refl _) E1).
    rewrite (sr_value io so Hio D m Hm Hm2 _ U2 ro inj rho Hr SI RL _ MH (incl_refl _) E2).
    exact (sr_com so m Hm Hm2 half idx ro inj rho Hr SI RL N IJ).
Qed.
Print Assumptions C98_ring.

Theorem C98_hermitian : forall I (io : index_ops I) T (so : scalar_ops T) m half (idx : nat -> I),
  index_order io -> scalar_domain so -> conj_laws so -> s_conj so half = half -> 1 <= m -> m <> 2 ->
  (forall i j, idx i = idx j -> i = j) ->
  forall N H, spin_ring io so m half idx N = Ok H ->
  exists r, e_conj (std_gen_ops io) so H = Ok r /\
  forall R (ro : ring_ops R) (inj : T -> R) (rho : gen I -> R), representation so ro inj rho ->
  req ro (eval_expr ro inj rho r) (eval_expr ro inj rho H).
Proof.
  intros I io T so m half idx Hio D CL Eh Hm Hm2 IJ N H KH.
  rewrite (sr_run io so Hio D m Hm Hm2) in KH. pose proof (sr_uses so m half idx N) as UP. set (P := sr_p so m half idx N) in *.
  pose proof (spins_consistent m Hm Hm2 _ UP) as SC. pose proof (run_built io so _ P H (incl_refl _) KH) as BH.
  assert (NH : forall c i, ~ In (GSpin 2 c i) (uses P)).
  { intros c i k. rewrite Forall_forall in UP. apply UP in k. cbn in k. congruence. }
  destruct (C12_never_throws I io T so (uses P) H Hio D SC BH (or_intror NH)) as [r Er]. exists r. split; [exact Er|].
  intros R ro inj rho [Hr SI RL']. pose proof (relations_all so ro inj rho RL') as RL. pose proof (ri_equiv _ Hr) as EQ.
  set (K := fun _ : gen I => True).
  rewrite (ev_conj io Hio so D CL ro inj rho Hr SI (uses P) SC K (fun _ _ => Logic.I) (fun _ _ _ _ _ => Logic.I) RL H r BH Er).
  rewrite (sr_value io so Hio D m Hm Hm2 _ UP ro inj rho Hr SI RL P H (incl_refl _) KH).
  pose proof (sr_value io so Hio D m Hm Hm2 _ UP (op_ring ro) (injc so inj) (rhoc rho) (op_is_ring _ Hr) (op_scalar_image so D CL ro inj rho Hr SI)
    (op_relations_on so D CL ro inj rho Hr SI K (fun _ _ => Logic.I) (fun _ _ _ _ _ => Logic.I) RL) P H (incl_refl _) KH) as V. cbn [op_ring req] in V.
  etransitivity; [exact V|]. exact (sr_herm so D m half idx ro inj rho Hr SI RL N IJ CL Eh).
Qed.
Print Assumptions C98_hermitian.

(** ** A concrete case: the program itself: spin 1, 6 sites with int indices *)
Definition sr_terms : list (list (gen Z) * Qc) := Eval vm_compute in
  match spin_ring int_index_ops double_scalar_ops 3 (hol_q 1 2) Z.of_nat 6 with Ok H => H | _ => [] end.
Example C98_ex :
  index_order int_index_ops /\ scalar_domain double_scalar_ops /\ conj_laws double_scalar_ops /\
  s_conj double_scalar_ops (hol_q 1 2) = hol_q 1 2 /\ (forall i j, Z.of_nat i = Z.of_nat j -> i = j) /\
  spin_ring int_index_ops double_scalar_ops 3 (hol_q 1 2) Z.of_nat 6 = Ok sr_terms /\
  List.length sr_terms = 18 /\ (forall N, lists (seq 0 N) (fun i => i < N)).
Proof.
  split; [apply sto_Z|]. split; [exact double_domain|]. split; [exact double_conj_laws|]. split; [reflexivity|]. split; [intros; lia|].
  split; [vm_compute; repeat f_equal; apply Qc_is_canon; reflexivity|]. split; [reflexivity|].
  intros N. split; [apply seq_NoDup|]. intros i. rewrite in_seq. lia.
Qed.
