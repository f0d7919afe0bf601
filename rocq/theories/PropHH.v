(** * Property C96: the Hubbard-Holstein model of examples/hubbard_holstein.cpp.
    Vocabulary: HHSpec.v, HolSpec.v, ExprSpec.v (representation), PropFactories.commutator_is. *)
From Coq Require Import ZArith String List Bool Arith Lia QArith Qcanon Setoid Morphisms Permutation.
From Verif Require Import ExprModel ExprSpec ExprOrder ExprMap ExprEval ExprStd ExprMain ExprInst ExprConj ExprThrow PropExpr
  ConvSpec FockSpec PropFactories PropUnique PropConj PolySpec PolyExpr RepExample PropHS HolModel HolSpec HolProofs PropHol HHModel HHSpec HHProofs.
Import ListNotations.
Close Scope Qc_scope.
Close Scope Q_scope.
Close Scope Z_scope.
Close Scope string_scope.
Open Scope nat_scope.
Open Scope list_scope.

(** neighbors_x and neighbors_y describe periodic boundaries, for every size *)
Theorem C96_periodic : forall N i j, i < N -> j < N -> (hh_neighbors N i j = true <-> ring_step N i j).
Proof.
  intros N i j hi hj. unfold hh_neighbors, distance, ring_step. rewrite orb_true_iff, !Nat.eqb_eq.
  assert (Q : forall a, a < N -> (a + 1) mod N = if Nat.eqb (a + 1) N then 0 else a + 1).
  { intros a ha. destruct (Nat.eqb_spec (a + 1) N) as [->|n0]; [apply Nat.mod_same; lia|apply Nat.mod_small; lia]. }
  rewrite (Q i hi), (Q j hj). destruct (Nat.eqb_spec (i + 1) N), (Nat.eqb_spec (j + 1) N); lia.
Qed.
Print Assumptions C96_periodic.
Lemma bonded_torus Nx Ny i j : rect_site Nx Ny i -> rect_site Nx Ny j -> (hh_bonded Nx Ny i j = true <-> torus_adjacent Nx Ny i j).
Proof.
  intros [a b] [c d]. unfold hh_bonded, torus_adjacent. rewrite orb_true_iff, !andb_true_iff, !Nat.eqb_eq, !C96_periodic by assumption. reflexivity.
Qed.

(** nothing is thrown, and H, N and S_z are the operators of the Hubbard-Holstein model *)
Theorem C96_hamiltonian : forall I (io : index_ops I) T (so : scalar_ops T) (idx : nat -> nat -> label -> I),
  index_order io -> scalar_domain so ->
  forall Nx Ny t U g half, exists H N Sz,
  hubbard_holstein io so idx t U g Nx Ny = Ok H /\ hh_number io so idx Nx Ny = Ok N /\ hh_spin io so idx half Nx Ny = Ok Sz /\
  forall R (ro : ring_ops R) (inj : T -> R) (rho : gen I -> R), representation so ro inj rho ->
  forall bonds_ sites orbs,
    lists bonds_ (fun b : label * ((nat * nat) * (nat * nat)) => let '(s, (i, j)) := b in
                    s <> NoLabel /\ rect_site Nx Ny i /\ rect_site Nx Ny j /\ torus_adjacent Nx Ny i j) ->
    lists sites (rect_site Nx Ny) ->
    lists orbs (fun o : label * (nat * nat) => fst o <> NoLabel /\ rect_site Nx Ny (snd o)) ->
  let mul := rmul ro in let add := radd ro in
  let c_dag := fun s (i : nat * nat) => rho (GFermion true (idx (fst i) (snd i) s)) in
  let c := fun s (i : nat * nat) => rho (GFermion false (idx (fst i) (snd i) s)) in
  let a_dag := fun i : nat * nat => rho (GBoson true (idx (fst i) (snd i) NoLabel)) in
  let a := fun i : nat * nat => rho (GBoson false (idx (fst i) (snd i) NoLabel)) in
  let n := fun s i => mul (c_dag s i) (c s i) in
  req ro (eval_expr ro inj rho H)
    (add (add (add (rsum ro (fun b => let '(s, (i, j)) := b in mul (ropp ro (inj t)) (mul (c_dag s i) (c s j))) bonds_)
                   (rsum ro (fun i => mul (inj U) (mul (n Up i) (n Down i))) sites))
              (rsum ro (fun i => mul (a_dag i) (a i)) sites))
         (rsum ro (fun o => mul (inj g) (mul (n (fst o) (snd o)) (add (a_dag (snd o)) (a (snd o))))) orbs)) /\
  req ro (eval_expr ro inj rho N) (rsum ro (fun i => add (n Up i) (n Down i)) sites) /\
  req ro (eval_expr ro inj rho Sz) (rsum ro (fun i => mul (inj half) (add (n Up i) (ropp ro (n Down i)))) sites).
Proof.
  intros I io T so idx Hio D Nx Ny t U g h. pose proof (sd_laws _ D) as L.
  destruct (plain_total io so Hio D _ (hh_plain so idx t U g Nx Ny)) as [H EH].
  destruct (plain_total io so Hio D _ (hn_plain so idx Nx Ny)) as [N EN].
  destruct (plain_total io so Hio D _ (hs_plain so idx h Nx Ny)) as [Sz ES].
  exists H, N, Sz. split; [rewrite (hh_run io so Hio D); exact EH|]. split; [rewrite (hn_run io so Hio D); exact EN|].
  split; [rewrite (hs_run io so Hio D); exact ES|].
  intros R ro inj rho [Hr SI RL] lb ls lo Hb Hs Ho mul add c_dag c a_dag a n.
  pose proof (ri_equiv _ Hr) as EQ. pose proof (ri_add_ext _ Hr) as AX. pose proof (ri_mul_ext _ Hr) as MX. pose proof (ri_opp_ext _ Hr) as OX.
  assert (PB : Permutation (hh_bonds Nx Ny) lb).
  { apply NoDup_Permutation; [apply hh_bonds_nodup|exact (proj1 Hb)|]. intros [s [i j]]. rewrite (proj2 Hb), hh_bonds_In, !hh_lattice_In. fold (rect_site Nx Ny i) (rect_site Nx Ny j).
    split; intros (h1 & h2 & h3 & h4); (split; [exact h1|split; [exact h2|split; [exact h3|]]]); now apply (bonded_torus Nx Ny i j h2 h3). }
  assert (PS : Permutation (hh_lattice Nx Ny) ls).
  { apply NoDup_Permutation; [apply hh_lattice_nodup|exact (proj1 Hs)|]. intros i. rewrite (proj2 Hs), hh_lattice_In. reflexivity. }
  assert (PO : Permutation (hh_orbitals Nx Ny) lo).
  { apply NoDup_Permutation; [apply hh_orbitals_nodup|exact (proj1 Ho)|]. intros o. rewrite (proj2 Ho), hh_orbitals_In, hh_lattice_In. reflexivity. }
  assert (RA : forall Q, relations_on (on_sites Q) so ro inj rho).
  { intros Q. apply (relations_sub so ro inj rho (fun _ => True)); [intros; exact Logic.I|]. now apply relations_all. }
  assert (NG : req ro (inj (s_neg so t)) (ropp ro (inj t))).
  { rewrite <- (ri_add_0 _ Hr (inj (s_neg so t))), <- (ri_opp _ Hr (inj t)), <- (ri_add_assoc _ Hr), (ri_add_comm _ Hr (inj t)), <- (ri_add_assoc _ Hr), (ri_add_comm _ Hr _ (inj t)).
    rewrite <- (si_add _ _ _ _ SI), (sl_neg so L), (si_0 _ _ _ _ SI), (ri_add_comm _ Hr). apply (ri_add_0 _ Hr). }
  pose proof (si_1 _ _ _ _ SI) as J1. pose proof (si_0 _ _ _ _ SI) as J0.
  split; [|split].
  - rewrite (run_value io Hio so D _ (plain_simple _ (hh_plain so idx t U g Nx Ny)) ro inj rho Hr SI (RA _) _ _ (incl_refl _) EH).
    unfold hh_p. rewrite !(total_r ro inj rho Hr). cbn [meaning]. rewrite J0, !(ri_add_0 _ Hr).
    rewrite (msum_perm ro Hr _ _ _ PB), !(msum_perm ro Hr _ _ _ PS), (msum_perm ro Hr _ _ _ PO). unfold add. apply AX; [apply AX; [apply AX|]|].
    + apply (msum_ext ro Hr). intros [s [i j]] _. cbn [hop_p meaning eval_mono fst snd]. rewrite J1, NG, !(ri_mul_1_l _ Hr), !(ri_mul_1_r _ Hr).
      symmetry. apply (ri_mul_assoc _ Hr).
    + apply (msum_ext ro Hr). intros i _. cbn [u_p meaning eval_mono fst snd]. rewrite J1, !(ri_mul_1_l _ Hr), !(ri_mul_1_r _ Hr).
      symmetry. apply (ri_mul_assoc _ Hr).
    + apply (msum_ext ro Hr). intros i _. cbn [b_p meaning eval_mono fst snd]. now rewrite J1, !(ri_mul_1_l _ Hr), !(ri_mul_1_r _ Hr).
    + apply (msum_ext ro Hr). intros [s i] _. cbn [eph_p n_p meaning eval_mono fst snd]. rewrite J1, !(ri_mul_1_l _ Hr), !(ri_mul_1_r _ Hr).
      symmetry. apply (ri_mul_assoc _ Hr).
  - rewrite (run_value io Hio so D _ (plain_simple _ (hn_plain so idx Nx Ny)) ro inj rho Hr SI (RA _) _ _ (incl_refl _) EN).
    unfold hn_p. rewrite (total_r ro inj rho Hr). cbn [meaning]. rewrite J0, !(ri_add_0 _ Hr), (msum_perm ro Hr _ _ _ PS).
    apply (msum_ext ro Hr). intros i _. cbn [nn_p meaning eval_mono fst snd]. now rewrite J1, !(ri_mul_1_l _ Hr), !(ri_mul_1_r _ Hr).
  - rewrite (run_value io Hio so D _ (plain_simple _ (hs_plain so idx h Nx Ny)) ro inj rho Hr SI (RA _) _ _ (incl_refl _) ES).
    unfold hs_p. rewrite (total_r ro inj rho Hr). cbn [meaning]. rewrite J0, !(ri_add_0 _ Hr), (msum_perm ro Hr _ _ _ PS).
    apply (msum_ext ro Hr). intros i _. cbn [sz_p meaning eval_mono fst snd]. now rewrite J1, !(ri_mul_1_l _ Hr), !(ri_mul_1_r _ Hr).
Qed.
Print Assumptions C96_hamiltonian.

(** The three checks of the program: [H, N] = 0, [H, S_z] = 0 (when 0.5 commutes
    with the scalars), and conj(H) = H when the parameters are real, so that
    conj(H) - H is the empty expression *)
Theorem C96_checks : forall I (io : index_ops I) T (so : scalar_ops T) (idx : nat -> nat -> label -> I),
  index_order io -> scalar_domain so ->
  (forall x y s x' y' s', idx x y s = idx x' y' s' -> x = x' /\ y = y' /\ s = s') ->
  forall Nx Ny t U g half H N Sz,
  hubbard_holstein io so idx t U g Nx Ny = Ok H -> hh_number io so idx Nx Ny = Ok N -> hh_spin io so idx half Nx Ny = Ok Sz ->
  commutator_is (std_gen_ops io) so H N [] /\
  ((forall x, s_mul so half x = s_mul so x half) -> commutator_is (std_gen_ops io) so H Sz []) /\
  (conj_laws so -> s_conj so t = t -> s_conj so U = U -> s_conj so g = g ->
   e_conj (std_gen_ops io) so H = Ok H /\ e_sub (std_gen_ops io) so H H = []).
Proof.
  intros I io T so idx Hio D IJ Nx Ny t U g h H N Sz KH KN KS. pose proof (sd_laws _ D) as L.
  rewrite (hh_run io so Hio D) in KH. rewrite (hn_run io so Hio D) in KN. rewrite (hs_run io so Hio D) in KS.
  set (P := hh_p so idx t U g Nx Ny) in *. set (Q := hn_p so idx Nx Ny) in *. set (S := hs_p so idx h Nx Ny) in *.
  assert (UP : Forall plain (uses P)) by apply hh_plain. assert (UQ : Forall plain (uses Q)) by apply hn_plain. assert (US : Forall plain (uses S)) by apply hs_plain.
  set (extra := flat_map (fun o => [GFermion true (at_ idx (fst o) (snd o))]) (hh_orbitals Nx Ny) ++ map (fun i => GBoson true (at_ idx NoLabel i)) (hh_lattice Nx Ny)).
  set (B := (uses P ++ uses Q) ++ (uses S ++ extra)).
  assert (PU : Forall (@plain I) B).
  { unfold B. apply Forall_app; split; [apply Forall_app; split; assumption|]. apply Forall_app; split; [exact US|]. apply Forall_app; split; apply Forall_forall; intros x hx.
    - apply in_flat_map in hx. destruct hx as [o [_ [<-|[]]]]. exact Logic.I.
    - apply in_map_iff in hx. destruct hx as [i [<- _]]. exact Logic.I. }
  pose proof (plain_simple _ PU) as GS. pose proof (plain_half so _ PU) as GH. pose proof (empty_canonical io so D B) as B0.
  assert (IP : incl (uses P) B) by (intros x hx; apply in_app_iff; left; apply in_app_iff; now left).
  assert (IQ : incl (uses Q) B) by (intros x hx; apply in_app_iff; left; apply in_app_iff; now right).
  assert (IS : incl (uses S) B) by (intros x hx; apply in_app_iff; right; apply in_app_iff; now left).
  set (K := on_sites (map site_of B)).
  assert (KF : forall d s i, s <> NoLabel -> In i (hh_lattice Nx Ny) -> K (GFermion d (at_ idx s i))).
  { intros d s i hs hi. split; [|exact Logic.I]. apply in_map_iff. exists (GFermion true (at_ idx s i)). split; [reflexivity|].
    apply in_app_iff; right; apply in_app_iff; right; apply in_app_iff; left. apply in_flat_map. exists (s, i). split; [apply hh_orbitals_In; cbn; auto|now left]. }
  assert (KB : forall d i, In i (hh_lattice Nx Ny) -> K (GBoson d (at_ idx NoLabel i))).
  { intros d i hi. split; [|exact Logic.I]. apply in_map_iff. exists (GBoson true (at_ idx NoLabel i)). split; [reflexivity|].
    apply in_app_iff; right; apply in_app_iff; right; apply in_app_iff; right. now apply (in_map (fun i => GBoson true (at_ idx NoLabel i))). }
  assert (BH : built io so B H) by (apply (run_built io so B P); [exact IP|exact KH]).
  assert (CM : forall W e, Forall plain (uses W) -> incl (uses W) B -> run (std_gen_ops io) so W = Ok e ->
    (forall R (ro : ring_ops R) inj rho, is_ring ro -> scalar_image so ro inj rho -> relations_on K so ro inj rho ->
       req ro (meaning ro inj rho (PSub (PMul P W) (PMul W P))) (r0 ro)) -> commutator_is (std_gen_ops io) so H e []).
  { intros W e UW IW EW V.
    destruct (plain_total io so Hio D (PSub (PMul P W) (PMul W P))) as [C EC].
    { clearbody P. cbn [uses]. apply Forall_app; split; apply Forall_app; split; assumption. }
    pose proof EC as EC'. cbn [run] in EC'. rewrite KH, EW in EC'. cbn [rbind] in EC'.
    destruct (e_mul (std_gen_ops io) so H e) as [A| |] eqn:EA; try discriminate. cbn [rbind] in EC'.
    destruct (e_mul (std_gen_ops io) so e H) as [A'| |] eqn:EB; try discriminate. cbn [rbind] in EC'.
    assert (IC : incl (uses (PSub (PMul P W) (PMul W P))) B) by (cbn [uses]; apply incl_app; apply incl_app; assumption).
    exists A, A'. split; [exact EA|]. split; [exact EB|]. injection EC' as ->.
    apply (built_unique io Hio so D B GS); auto; [apply (run_built io so B _ _ IC EC)|]. intros R ro inj rho Hr SI RL.
    pose proof (ri_equiv _ Hr) as EQ. rewrite (run_value io Hio so D B GS ro inj rho Hr SI RL _ _ IC EC). cbn [eval_expr]. apply V; auto. }
  split; [|split].
  - apply (CM Q N UQ IQ KN). intros R ro inj rho Hr SI RL. apply (hn_com so idx ro inj rho K Hr SI RL Nx Ny IJ KF KB).
  - intros Sh. apply (CM S Sz US IS KS). intros R ro inj rho Hr SI RL. apply (hs_com so idx ro inj rho K Hr SI RL Nx Ny IJ KF KB).
    intros x. pose proof (ri_equiv _ Hr) as EQ. rewrite <- !(si_mul _ _ _ _ SI), Sh. reflexivity.
  - intros CL Et EU Eg.
    assert (NH : forall c i, ~ In (GSpin 2 c i) B) by (intros c i k; rewrite Forall_forall in PU; exact (PU _ k)).
    pose proof (simple_consistent B GS) as SC.
    destruct (C12_never_throws I io T so B H Hio D SC BH (or_intror NH)) as [r Er].
    assert (RE : r = H).
    { apply (built_unique io Hio so D B GS); auto; [exact (b_conj io so B H r BH Er)|]. intros R ro inj rho Hr SI RL.
      fold K in RL.
      assert (AK : forall x, admissible B x -> K x) by (apply admissible_on; auto).
      assert (Kc : forall x, K x -> K (gen_conj_gen x)) by (intros [d i|d i|m c i] [h1 h2]; (split; [exact h1|exact h2])).
      assert (Ks : forall m c c' i, K (GSpin m c i) -> K (GSpin m c' i)) by (intros m c c' i [h1 h2]; split; auto).
      pose proof (ri_equiv _ Hr) as EQ.
      rewrite (ev_conj io Hio so D CL ro inj rho Hr SI B SC K AK Ks RL H r BH Er).
      rewrite (run_value io Hio so D B GS ro inj rho Hr SI RL P H IP KH).
      pose proof (run_value io Hio so D B GS (op_ring ro) (injc so inj) (rhoc rho) (op_is_ring _ Hr) (op_scalar_image so D CL ro inj rho Hr SI)
        (op_relations_on so D CL ro inj rho Hr SI K Kc Ks RL) P H IP KH) as V. cbn [op_ring req] in V.
      etransitivity; [exact V|]. apply (hh_herm so D idx ro inj rho K Hr SI RL Nx Ny IJ KF KB CL t U g Et EU Eg). }
    split; [now rewrite Er, RE|].
    apply (built_unique io Hio so D B GS); auto.
    { apply b_sub; exact BH. }
    intros R ro inj rho Hr SI RL. pose proof (ri_equiv _ Hr) as EQ.
    rewrite (ev_sub_assign (std_gen_ops io) (std_order io Hio) so L ro Hr inj rho SI H H). cbn [eval_expr]. apply (ri_opp _ Hr).
Qed.
Print Assumptions C96_checks.

(** ** A concrete case: the indices of the program and its parameters, a 3 x 2 lattice *)
Definition hh_terms : list (list (gen (list dyn_index)) * Qc) := Eval vm_compute in
  match hubbard_holstein dyn_index_ops double_scalar_ops hol_idx (hol_q 1 2) (hol_q 2 1) (hol_q 1 10) 3 2 with Ok H => H | _ => [] end.
Example C96_ex :
  index_order dyn_index_ops /\ scalar_domain double_scalar_ops /\ conj_laws double_scalar_ops /\
  (forall x y s x' y' s', hol_idx x y s = hol_idx x' y' s' -> x = x' /\ y = y' /\ s = s') /\
  (forall x y, s_mul double_scalar_ops x y = s_mul double_scalar_ops y x) /\
  hubbard_holstein dyn_index_ops double_scalar_ops hol_idx (hol_q 1 2) (hol_q 2 1) (hol_q 1 10) 3 2 = Ok hh_terms /\
  List.length hh_terms = 36 + 6 + 6 + 24 /\ List.length (hh_bonds 10 10) = 800 /\
  (forall Nx Ny, lists (hh_bonds Nx Ny) (fun b : label * ((nat * nat) * (nat * nat)) => let '(s, (i, j)) := b in
                    s <> NoLabel /\ rect_site Nx Ny i /\ rect_site Nx Ny j /\ torus_adjacent Nx Ny i j) /\
             lists (hh_lattice Nx Ny) (rect_site Nx Ny) /\ lists (hh_orbitals Nx Ny) (fun o => fst o <> NoLabel /\ rect_site Nx Ny (snd o))).
Proof.
  split; [exact sto_dyn|]. split; [exact double_domain|]. split; [exact double_conj_laws|]. split; [exact (proj1 (proj2 (proj2 (proj2 C95_ex))))|].
  split; [intros x y; apply Qcmult_comm|].
  split; [vm_compute; repeat f_equal; apply Qc_is_canon; reflexivity|].
  split; [reflexivity|]. split; [vm_compute; reflexivity|]. intros Nx Ny. split; [|split].
  - split; [apply hh_bonds_nodup|]. intros [s [i j]]. rewrite hh_bonds_In, !hh_lattice_In. fold (rect_site Nx Ny i) (rect_site Nx Ny j).
    split; intros (h1 & h2 & h3 & h4); (split; [exact h1|split; [exact h2|split; [exact h3|]]]); now apply (bonded_torus Nx Ny i j h2 h3).
  - split; [apply hh_lattice_nodup|]. intros i. apply hh_lattice_In.
  - split; [apply hh_orbitals_nodup|]. intros o. rewrite hh_orbitals_In, hh_lattice_In. reflexivity.
Qed.
