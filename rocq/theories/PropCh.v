(** * Property C97: the Hubbard-Holstein chain of examples/hubbard_holstein_1d.cpp.
    Vocabulary: HolSpec.v (lists, rsum), ExprSpec.v (representation), PropFactories.commutator_is. *)
From Coq Require Import ZArith String List Bool Arith Lia QArith Qcanon Setoid Morphisms Permutation.
From Verif Require Import ExprModel ExprSpec ExprOrder ExprMap ExprEval ExprStd ExprMain ExprInst ExprConj ExprThrow PropExpr
  ConvSpec FockSpec PropFactories PropUnique PropConj PolySpec PolyExpr RepExample PropHS HolModel HolSpec HolProofs PropHol ChModel ChProofs.
Import ListNotations.
Close Scope Qc_scope.
Close Scope Q_scope.
Close Scope Z_scope.
Close Scope string_scope.
Open Scope nat_scope.
Open Scope list_scope.

(** nothing is thrown, and H is the operator of the Hubbard-Holstein chain with
    open ends; [links_] lists the pairs (spin projection, site) that are followed
    by another site *)
Theorem C97_hamiltonian : forall I (io : index_ops I) T (so : scalar_ops T) (idx : nat -> label -> I),
  index_order io -> scalar_domain so -> conj_laws so ->
  forall L t mu U w g, exists H,
  hubbard_holstein_1d io so idx t mu U w g L = Ok H /\
  forall R (ro : ring_ops R) (inj : T -> R) (rho : gen I -> R), representation so ro inj rho ->
  forall links_ sites,
    lists links_ (fun b : label * nat => fst b <> NoLabel /\ snd b + 1 < L) ->
    lists sites (fun i => i < L) ->
  let mul := rmul ro in let add := radd ro in let neg := fun x => ropp ro (inj x) in
  let c_dag := fun i s => rho (GFermion true (idx i s)) in
  let c := fun i s => rho (GFermion false (idx i s)) in
  let a_dag := fun i => rho (GBoson true (idx i NoLabel)) in
  let a := fun i => rho (GBoson false (idx i NoLabel)) in
  let n := fun i s => mul (c_dag i s) (c i s) in
  req ro (eval_expr ro inj rho H)
    (add (add (add (add
      (rsum ro (fun b => let '(s, i) := b in mul (neg t) (add (mul (c_dag i s) (c (i + 1) s)) (mul (c_dag (i + 1) s) (c i s)))) links_)
      (rsum ro (fun i => mul (neg mu) (add (n i Up) (n i Down))) sites))
      (rsum ro (fun i => mul (inj U) (mul (n i Up) (n i Down))) sites))
      (rsum ro (fun i => mul (inj w) (mul (a_dag i) (a i))) sites))
      (rsum ro (fun i => mul (inj g) (mul (add (n i Up) (n i Down)) (add (a_dag i) (a i)))) sites)).
Proof.
  intros I io T so idx Hio D CL N t mu U w g. pose proof (sd_laws _ D) as L.
  destruct (plain_total io so Hio D _ (ch_plain so idx t mu U w g N)) as [H EH].
  exists H. split; [rewrite (ch_run io so Hio D CL); exact EH|].
  intros R ro inj rho [Hr SI RL] lb ls Hb Hs mul add neg c_dag c a_dag a n.
  pose proof (ri_equiv _ Hr) as EQ. pose proof (ri_add_ext _ Hr) as AX. pose proof (ri_mul_ext _ Hr) as MX. pose proof (ri_opp_ext _ Hr) as OX.
  assert (PB : Permutation (ch_links N) lb).
  { apply NoDup_Permutation; [apply links_nodup|exact (proj1 Hb)|]. intros o. rewrite (proj2 Hb), links_In. reflexivity. }
  assert (PS : Permutation (seq 0 N) ls).
  { apply NoDup_Permutation; [apply seq_NoDup|exact (proj1 Hs)|]. intros i. rewrite (proj2 Hs), in_seq. lia. }
  assert (RA : forall Q, relations_on (on_sites Q) so ro inj rho).
  { intros Q. apply (relations_sub so ro inj rho (fun _ => True)); [intros; exact Logic.I|]. now apply relations_all. }
  assert (NG : forall t, req ro (inj (s_neg so t)) (ropp ro (inj t))).
  { clear t EH. intros t. rewrite <- (ri_add_0 _ Hr (inj (s_neg so t))), <- (ri_opp _ Hr (inj t)), <- (ri_add_assoc _ Hr), (ri_add_comm _ Hr (inj t)), <- (ri_add_assoc _ Hr), (ri_add_comm _ Hr _ (inj t)).
    rewrite <- (si_add _ _ _ _ SI), (sl_neg so L), (si_0 _ _ _ _ SI), (ri_add_comm _ Hr). apply (ri_add_0 _ Hr). }
  pose proof (si_1 _ _ _ _ SI) as J1. pose proof (si_0 _ _ _ _ SI) as J0.
  rewrite (run_value io Hio so D _ (plain_simple _ (ch_plain so idx t mu U w g N)) ro inj rho Hr SI (RA _) _ _ (incl_refl _) EH).
  unfold ch_p. rewrite !(total_r ro inj rho Hr). cbn [meaning]. rewrite J0, !(ri_add_0 _ Hr).
  rewrite (msum_perm ro Hr _ _ _ PB), !(msum_perm ro Hr _ _ _ PS). unfold add. apply AX; [apply AX; [apply AX; [apply AX|]|]|].
  - apply (msum_ext ro Hr). intros [s i] _. cbn [chop_p jump meaning eval_mono fst snd]. now rewrite J1, NG, !(ri_mul_1_l _ Hr), !(ri_mul_1_r _ Hr).
  - apply (msum_ext ro Hr). intros i _. cbn [cmu_p meaning eval_mono]. now rewrite J1, NG, !(ri_mul_1_l _ Hr), !(ri_mul_1_r _ Hr).
  - apply (msum_ext ro Hr). intros i _. cbn [cu_p meaning eval_mono]. rewrite J1, !(ri_mul_1_l _ Hr), !(ri_mul_1_r _ Hr). symmetry. apply (ri_mul_assoc _ Hr).
  - apply (msum_ext ro Hr). intros i _. cbn [cw_p meaning eval_mono]. rewrite J1, !(ri_mul_1_l _ Hr), !(ri_mul_1_r _ Hr). symmetry. apply (ri_mul_assoc _ Hr).
  - apply (msum_ext ro Hr). intros i _. cbn [cg_p meaning eval_mono]. rewrite J1, !(ri_mul_1_l _ Hr), !(ri_mul_1_r _ Hr). symmetry. apply (ri_mul_assoc _ Hr).
Qed.
Print Assumptions C97_hamiltonian.

(** [ch_number s] is the number of electrons with the spin projection s; it
    commutes with H, and conj(H) = H for real parameters *)
Theorem C97_checks : forall I (io : index_ops I) T (so : scalar_ops T) (idx : nat -> label -> I),
  index_order io -> scalar_domain so -> conj_laws so ->
  (forall i s i' s', idx i s = idx i' s' -> i = i' /\ s = s') ->
  forall L t mu U w g H, hubbard_holstein_1d io so idx t mu U w g L = Ok H ->
  (forall s, s <> NoLabel -> exists N, ch_number io so idx s L = Ok N /\
     (forall R (ro : ring_ops R) (inj : T -> R) (rho : gen I -> R), representation so ro inj rho ->
      forall sites, lists sites (fun i => i < L) ->
      req ro (eval_expr ro inj rho N) (rsum ro (fun i => rmul ro (rho (GFermion true (idx i s))) (rho (GFermion false (idx i s)))) sites)) /\
     commutator_is (std_gen_ops io) so H N []) /\
  (s_conj so t = t -> s_conj so mu = mu -> s_conj so U = U -> s_conj so w = w -> s_conj so g = g ->
   e_conj (std_gen_ops io) so H = Ok H /\ e_sub (std_gen_ops io) so H H = []).
Proof.
  intros I io T so idx Hio D CL IJ N t mu U w g H KH. pose proof (sd_laws _ D) as L.
  rewrite (ch_run io so Hio D CL) in KH. set (P := ch_p so idx t mu U w g N) in *.
  assert (UP : Forall plain (uses P)) by apply ch_plain.
  set (extra := flat_map (fun s => map (fun i => GFermion true (idx i s)) (seq 0 N)) [Up; Down] ++ map (fun i => GBoson true (idx i NoLabel)) (seq 0 N)).
  assert (PX : Forall (@plain I) extra).
  { apply Forall_app; split; apply Forall_forall; intros x hx.
    - apply in_flat_map in hx. destruct hx as [s [_ hx]]. apply in_map_iff in hx. destruct hx as [i [<- _]]. exact Logic.I.
    - apply in_map_iff in hx. destruct hx as [i [<- _]]. exact Logic.I. }
  assert (XF : forall B, incl extra B -> forall d s i, s <> NoLabel -> i < N -> on_sites (map site_of B) (GFermion d (idx i s))).
  { intros B IB d s i hs hi. split; [|exact Logic.I]. apply in_map_iff. exists (GFermion true (idx i s)). split; [reflexivity|].
    apply IB, in_app_iff; left. apply in_flat_map. exists s. split; [destruct s; cbn; tauto|]. apply (in_map (fun i => GFermion true (idx i s))), in_seq. lia. }
  assert (XB : forall B, incl extra B -> forall d i, i < N -> on_sites (map site_of B) (GBoson d (idx i NoLabel))).
  { intros B IB d i hi. split; [|exact Logic.I]. apply in_map_iff. exists (GBoson true (idx i NoLabel)). split; [reflexivity|].
    apply IB, in_app_iff; right. apply (in_map (fun i => GBoson true (idx i NoLabel))), in_seq. lia. }
  split.
  - intros s hs. set (Q := cn_p so idx s N). assert (UQ : Forall plain (uses Q)) by apply cn_plain.
    destruct (plain_total io so Hio D Q UQ) as [e EQ']. exists e. split; [rewrite (cn_run io so Hio D); exact EQ'|]. split.
    { intros R ro inj rho [Hr SI RL] ls Hs. pose proof (ri_equiv _ Hr) as EQ. pose proof (ri_mul_ext _ Hr) as MX. pose proof (ri_add_ext _ Hr) as AX.
      assert (PS : Permutation (seq 0 N) ls).
      { apply NoDup_Permutation; [apply seq_NoDup|exact (proj1 Hs)|]. intros i. rewrite (proj2 Hs), in_seq. lia. }
      assert (RA : forall Q, relations_on (on_sites Q) so ro inj rho).
      { intros Z. apply (relations_sub so ro inj rho (fun _ => True)); [intros; exact Logic.I|]. now apply relations_all. }
      rewrite (run_value io Hio so D _ (plain_simple _ UQ) ro inj rho Hr SI (RA _) _ _ (incl_refl _) EQ').
      unfold Q, cn_p. rewrite (total_r ro inj rho Hr). cbn [meaning]. rewrite (si_0 _ _ _ _ SI), !(ri_add_0 _ Hr), (msum_perm ro Hr _ _ _ PS).
      apply (msum_ext ro Hr). intros i _. cbn [eval_mono]. now rewrite (si_1 _ _ _ _ SI), !(ri_mul_1_l _ Hr), !(ri_mul_1_r _ Hr). }
    set (B := (uses P ++ uses Q) ++ extra).
    assert (PU : Forall (@plain I) B) by (unfold B; clearbody P Q; apply Forall_app; split; [apply Forall_app; split; assumption|exact PX]).
    pose proof (plain_simple _ PU) as GS. pose proof (plain_half so _ PU) as GH. pose proof (empty_canonical io so D B) as B0.
    assert (IX : incl extra B) by (intros x hx; apply in_app_iff; now right).
    destruct (plain_total io so Hio D (PSub (PMul P Q) (PMul Q P))) as [C EC].
    { clearbody P Q. cbn [uses]. apply Forall_app; split; apply Forall_app; split; assumption. }
    pose proof EC as EC'. cbn [run] in EC'. rewrite KH, EQ' in EC'. cbn [rbind] in EC'.
    destruct (e_mul (std_gen_ops io) so H e) as [A| |] eqn:EA; try discriminate. cbn [rbind] in EC'.
    destruct (e_mul (std_gen_ops io) so e H) as [A'| |] eqn:EB; try discriminate. cbn [rbind] in EC'.
    assert (IC : incl (uses (PSub (PMul P Q) (PMul Q P))) B).
    { unfold B. clearbody P Q. cbn [uses]. intros x hx. rewrite !in_app_iff in *. tauto. }
    exists A, A'. split; [exact EA|]. split; [exact EB|]. injection EC' as ->.
    apply (built_unique io Hio so D B GS); auto; [apply (run_built io so B _ _ IC EC)|]. intros R ro inj rho Hr SI RL.
    pose proof (ri_equiv _ Hr) as EQ. rewrite (run_value io Hio so D B GS ro inj rho Hr SI RL _ _ IC EC). cbn [eval_expr].
    exact (cn_com so idx ro inj rho _ Hr SI RL N IJ (XF B IX) (XB B IX) s t mu U w g hs).
  - intros Et Em EU Ew Eg. set (B := uses P ++ extra).
    assert (PU : Forall (@plain I) B) by (unfold B; clearbody P; apply Forall_app; split; assumption).
    pose proof (plain_simple _ PU) as GS. pose proof (plain_half so _ PU) as GH. pose proof (empty_canonical io so D B) as B0.
    assert (IX : incl extra B) by (intros x hx; apply in_app_iff; now right).
    assert (IP : incl (uses P) B) by (intros x hx; apply in_app_iff; now left).
    assert (BH : built io so B H) by (apply (run_built io so B P); [exact IP|exact KH]).
    assert (NH : forall c i, ~ In (GSpin 2 c i) B) by (intros c i k; rewrite Forall_forall in PU; exact (PU _ k)).
    pose proof (simple_consistent B GS) as SC.
    destruct (C12_never_throws I io T so B H Hio D SC BH (or_intror NH)) as [r Er].
    assert (RE : r = H).
    { apply (built_unique io Hio so D B GS); auto; [exact (b_conj io so B H r BH Er)|]. intros R ro inj rho Hr SI RL.
      set (K := on_sites (map site_of B)) in *.
      assert (AK : forall x, admissible B x -> K x) by (apply admissible_on; auto).
      assert (Kc : forall x, K x -> K (gen_conj_gen x)) by (intros [d i|d i|m c i] [h1 h2]; (split; [exact h1|exact h2])).
      assert (Ks : forall m c c' i, K (GSpin m c i) -> K (GSpin m c' i)) by (intros m c c' i [h1 h2]; split; auto).
      pose proof (ri_equiv _ Hr) as EQ.
      rewrite (ev_conj io Hio so D CL ro inj rho Hr SI B SC K AK Ks RL H r BH Er).
      rewrite (run_value io Hio so D B GS ro inj rho Hr SI RL P H IP KH).
      pose proof (run_value io Hio so D B GS (op_ring ro) (injc so inj) (rhoc rho) (op_is_ring _ Hr) (op_scalar_image so D CL ro inj rho Hr SI)
        (op_relations_on so D CL ro inj rho Hr SI K Kc Ks RL) P H IP KH) as V. cbn [op_ring req] in V.
      etransitivity; [exact V|]. exact (ch_herm so D CL idx ro inj rho K Hr SI RL N IJ (XF B IX) (XB B IX) t mu U w g Et Em EU Ew Eg). }
    split; [now rewrite Er, RE|].
    apply (built_unique io Hio so D B GS); auto.
    { apply b_sub; exact BH. }
    intros R ro inj rho Hr SI RL. pose proof (ri_equiv _ Hr) as EQ.
    rewrite (ev_sub_assign (std_gen_ops io) (std_order io Hio) so L ro Hr inj rho SI H H). cbn [eval_expr]. apply (ri_opp _ Hr).
Qed.
Print Assumptions C97_checks.

(** ** A concrete case: the program itself: its indices, its parameters, 4 sites *)
Definition ch_idx (i : nat) (s : label) : list dyn_index :=
  [DInt (Z.of_nat i); DStr (match s with Up => "up" | Down => "down" | NoLabel => "" end)%string].
Definition ch_terms : list (list (gen (list dyn_index)) * Qc) := Eval vm_compute in
  match hubbard_holstein_1d dyn_index_ops double_scalar_ops ch_idx (hol_q 1 2) (hol_q 1 1) (hol_q 2 1) (hol_q 2 1) (hol_q 1 10) 4 with Ok H => H | _ => [] end.
Example C97_ex :
  index_order dyn_index_ops /\ scalar_domain double_scalar_ops /\ conj_laws double_scalar_ops /\
  (forall i s i' s', ch_idx i s = ch_idx i' s' -> i = i' /\ s = s') /\
  hubbard_holstein_1d dyn_index_ops double_scalar_ops ch_idx (hol_q 1 2) (hol_q 1 1) (hol_q 2 1) (hol_q 2 1) (hol_q 1 10) 4 = Ok ch_terms /\
  List.length ch_terms = 12 + 8 + 4 + 4 + 16 /\
  (forall L, lists (ch_links L) (fun b : label * nat => fst b <> NoLabel /\ snd b + 1 < L) /\ lists (seq 0 L) (fun i => i < L)).
Proof.
  split; [exact sto_dyn|]. split; [exact double_domain|]. split; [exact double_conj_laws|].
  split; [intros i s i' s' E; inversion E as [[E1 E2]]; split; [lia|destruct s, s'; congruence]|].
  split; [vm_compute; repeat f_equal; apply Qc_is_canon; reflexivity|].
  split; [reflexivity|]. intros L. split.
  - split; [apply links_nodup|]. intros o. apply links_In.
  - split; [apply seq_NoDup|]. intros i. rewrite in_seq. lia.
Qed.
