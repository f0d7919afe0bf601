(** * Property C95: the Holstein model of examples/holstein.cpp.
    Vocabulary: HolSpec.v, ExprSpec.v (representation), PropFactories.commutator_is. *)
From Coq Require Import ZArith String List Bool Arith Lia QArith Qcanon Setoid Morphisms Permutation.
From Verif Require Import ExprModel ExprSpec ExprOrder ExprMap ExprEval ExprStd ExprMain ExprInst ExprConj ExprThrow PropExpr
  ConvSpec FockSpec PropFactories PropUnique PropConj PolySpec PolyExpr RepExample PropHS HolModel HolSpec HolProofs.
Import ListNotations.
Close Scope Qc_scope.
Close Scope Q_scope.
Close Scope Z_scope.
Open Scope nat_scope.
Close Scope string_scope.
Open Scope list_scope.

(** ** The lattice *)
(** finding F45: neighbors() of two coordinates of the lattice is true exactly
    when they differ by one, so that the boundaries are open ... *)
Theorem C95_open : forall N i j, i < N -> j < N -> (neighbors N i j = true <-> one_step i j).
Proof.
  intros N i j hi hj. unfold neighbors, distance, one_step. rewrite orb_true_iff, !Nat.eqb_eq. lia.
Qed.
Print Assumptions C95_open.
(** ... and not periodic, as the comments of the example say *)
Theorem C95_not_periodic : forall N, 2 < N ->
  ~ (forall i j, i < N -> j < N -> (neighbors N i j = true <-> (i + 1) mod N = j \/ (j + 1) mod N = i)).
Proof.
  intros N hN P. assert (h : neighbors N 0 (N - 1) = true).
  { apply P; [lia|lia|]. right. replace (N - 1 + 1) with N by lia. apply Nat.mod_same. lia. }
  apply C95_open in h; [|lia|lia]. unfold one_step in h. lia.
Qed.
Print Assumptions C95_not_periodic.

Lemma bonded_adjacent N i j : is_site N i -> is_site N j -> (bonded N i j = true <-> adjacent i j).
Proof.
  intros [a b] [c d]. unfold bonded, adjacent. rewrite orb_true_iff, !andb_true_iff, !Nat.eqb_eq, !C95_open by assumption. reflexivity.
Qed.

Section Uniq.
Context {I T : Type} (io : index_ops I) (so : scalar_ops T) (Hio : index_order io) (D : scalar_domain so) (idx : nat -> nat -> label -> I).
Notation go := (std_gen_ops io).
Lemma use_plain P : Forall (@plain I) (uses P) -> exists e, run go so P = Ok e /\ built io so (uses P) e.
Proof.
  intros U. destruct (plain_total io so Hio D P U) as [e E]. exists e. split; [exact E|]. apply (run_built io so (uses P) P); [apply incl_refl|exact E].
Qed.
End Uniq.

Section Main.
Context {I T : Type} (io : index_ops I) (so : scalar_ops T) (Hio : index_order io) (D : scalar_domain so) (idx : nat -> nat -> label -> I).
Context (inj_idx : forall x y s x' y' s', idx x y s = idx x' y' s' -> x = x' /\ y = y' /\ s = s').
Notation go := (std_gen_ops io).
Lemma occ_nodup N : NoDup (occ idx N).
Proof.
  unfold occ. apply FinFun.Injective_map_NoDup; [|apply orbitals_nodup]. intros [s [x y]] [s' [x' y']] E. cbn in E.
  apply inj_idx in E. cbn in E. destruct E as (E1 & E2 & E3). now subst.
Qed.
Lemma n_used N o : In o (orbitals N) -> incl (uses (n_p so idx o)) (uses (ne_p so idx N)).
Proof. intros h. exact (proj2 (total_uses (n_p so idx) (orbitals N) (PConst (s_zero so))) o h). Qed.
Lemma occ_used N d k : In k (occ idx N) -> In (SF k) (map site_of (uses (ne_p so idx N))) /\ simple (GFermion d k).
Proof.
  intros h. split; [|exact Logic.I]. apply in_map_iff in h. destruct h as [o [<- ho]].
  apply in_map_iff. exists (GFermion true (at_ idx (fst o) (snd o))). split; [reflexivity|]. apply (n_used N o ho). cbn. auto.
Qed.
Lemma ph_used t w g N d i : In i (lattice N) -> In (SB (at_ idx NoLabel i)) (map site_of (uses (ham_p so idx t w g N))) /\ simple (GBoson d (at_ idx NoLabel i)).
Proof.
  intros h. split; [|exact Logic.I]. apply in_map_iff. exists (GBoson true (at_ idx NoLabel i)). split; [reflexivity|].
  cbn [ham_p uses]. apply in_app_iff. left. apply in_app_iff. right.
  apply (proj2 (total_uses (ph_p so idx w) (lattice N) (PConst (s_zero so))) i h). cbn. auto.
Qed.
Lemma n_in_ham t w g N : incl (uses (ne_p so idx N)) (uses (ham_p so idx t w g N)).
Proof.
  intros x hx. cbn [ham_p uses]. apply in_app_iff. right.
  assert (Q : exists o, In o (orbitals N) /\ In x (uses (n_p so idx o))).
  { assert (Q : Forall (fun x => exists o, In o (orbitals N) /\ In x (uses (n_p so idx o))) (uses (ne_p so idx N))).
    { apply total_only; [|cbn [uses]; apply Forall_nil]. intros o ho. apply Forall_forall. intros y hy. now exists o. }
    rewrite Forall_forall in Q. now apply Q. }
  destruct Q as [o [ho hx']]. apply (proj2 (total_uses (eph_p so idx g) (orbitals N) (PConst (s_zero so))) o ho).
  cbn [eph_p uses n_p] in *. apply in_app_iff. now left.
Qed.

Lemma build t w g N : let P := ham_p so idx t w g N in let Q := ne_p so idx N in
  exists H Ne C A B, run go so P = Ok H /\ run go so Q = Ok Ne /\
    e_mul go so H Ne = Ok A /\ e_mul go so Ne H = Ok B /\ run go so (PSub (PMul P Q) (PMul Q P)) = Ok C /\ C = e_sub go so A B /\
    built io so (uses P) H /\ built io so (uses P) Ne /\ built io so (uses P) C.
Proof.
  intros P Q. pose proof (ham_plain so idx t w g N) as UP. pose proof (ne_plain so idx N) as UQ. fold P in UP. fold Q in UQ.
  destruct (plain_total io so Hio D (PSub (PMul P Q) (PMul Q P))) as [C EC].
  { clearbody P Q. cbn [uses]. apply Forall_app; split; apply Forall_app; split; assumption. }
  destruct (plain_total io so Hio D P UP) as [H EH]. destruct (plain_total io so Hio D Q UQ) as [Ne EN].
  pose proof EC as EC'. cbn [run] in EC'. rewrite EH, EN in EC'. cbn [rbind] in EC'.
  destruct (e_mul go so H Ne) as [A| |] eqn:EA; try discriminate. cbn [rbind] in EC'. destruct (e_mul go so Ne H) as [B| |] eqn:EB; try discriminate. cbn [rbind] in EC'.
  exists H, Ne, C, A, B. split; [exact EH|]. split; [exact EN|]. split; [exact EA|]. split; [exact EB|]. split; [exact EC|]. split; [now inversion EC'|].
  assert (NI : incl (uses Q) (uses P)) by apply n_in_ham.
  split; [|split]; (eapply (run_built io so (uses P)); [|first [exact EH|exact EN|exact EC]]); cbn [uses]; [apply incl_refl|exact NI|].
  clearbody P Q. apply incl_app; apply incl_app; try exact NI; apply incl_refl.
Qed.
Lemma empty_canonical B : built io so B [].
Proof. apply (run_built io so B (PConst (s_zero so))); [intros ? []|]. apply (run_zero io so D). Qed.
End Main.

(** ** The theorems *)
(** nothing is thrown, and H and N_e are the operators of the Holstein model *)
Theorem C95_hamiltonian : forall I (io : index_ops I) T (so : scalar_ops T) (idx : nat -> nat -> label -> I),
  index_order io -> scalar_domain so ->
  forall N t w0 g, exists H Ne, holstein io so idx t w0 g N = Ok H /\ electrons io so idx N = Ok Ne /\
  forall R (ro : ring_ops R) (inj : T -> R) (rho : gen I -> R), representation so ro inj rho ->
  forall bonds_ sites orbs,
    lists bonds_ (fun b : label * ((nat * nat) * (nat * nat)) => let '(s, (i, j)) := b in
                    s <> NoLabel /\ is_site N i /\ is_site N j /\ adjacent i j) ->
    lists sites (is_site N) ->
    lists orbs (fun o : label * (nat * nat) => fst o <> NoLabel /\ is_site N (snd o)) ->
  let mul := rmul ro in let add := radd ro in
  let c_dag := fun s (i : nat * nat) => rho (GFermion true (idx (fst i) (snd i) s)) in
  let c := fun s (i : nat * nat) => rho (GFermion false (idx (fst i) (snd i) s)) in
  let a_dag := fun i : nat * nat => rho (GBoson true (idx (fst i) (snd i) NoLabel)) in
  let a := fun i : nat * nat => rho (GBoson false (idx (fst i) (snd i) NoLabel)) in
  req ro (eval_expr ro inj rho H)
    (add (add (rsum ro (fun b => let '(s, (i, j)) := b in mul (ropp ro (inj t)) (mul (c_dag s i) (c s j))) bonds_)
              (rsum ro (fun i => mul (inj w0) (mul (a_dag i) (a i))) sites))
         (rsum ro (fun o => mul (inj g) (mul (mul (c_dag (fst o) (snd o)) (c (fst o) (snd o))) (add (a_dag (snd o)) (a (snd o))))) orbs)) /\
  req ro (eval_expr ro inj rho Ne) (rsum ro (fun o => mul (c_dag (fst o) (snd o)) (c (fst o) (snd o))) orbs).
Proof.
  intros I io T so idx Hio D N t w g. pose proof (sd_laws _ D) as L.
  destruct (build io so Hio D idx t w g N) as (H & Ne & _ & _ & _ & EH & EN & _).
  exists H, Ne. split; [rewrite (ham_run io so Hio D); exact EH|]. split; [rewrite (ne_run io so Hio D); exact EN|].
  intros R ro inj rho [Hr SI RL] lb ls lo Hb Hs Ho mul add c_dag c a_dag a.
  pose proof (ri_equiv _ Hr) as EQ. pose proof (ri_add_ext _ Hr) as AX. pose proof (ri_mul_ext _ Hr) as MX. pose proof (ri_opp_ext _ Hr) as OX.
  assert (PB : Permutation (bonds N) lb).
  { apply NoDup_Permutation; [apply bonds_nodup|exact (proj1 Hb)|]. intros [s [i j]]. rewrite (proj2 Hb), bonds_In, !lattice_In. fold (is_site N i) (is_site N j).
    split; intros (h1 & h2 & h3 & h4); (split; [exact h1|split; [exact h2|split; [exact h3|]]]); now apply (bonded_adjacent N i j h2 h3). }
  assert (PS : Permutation (lattice N) ls).
  { apply NoDup_Permutation; [apply lattice_nodup|exact (proj1 Hs)|]. intros i. rewrite (proj2 Hs), lattice_In. reflexivity. }
  assert (PO : Permutation (orbitals N) lo).
  { apply NoDup_Permutation; [apply orbitals_nodup|exact (proj1 Ho)|]. intros o. rewrite (proj2 Ho), orbitals_In, lattice_In. reflexivity. }
  assert (RA : forall Q, relations_on (on_sites Q) so ro inj rho).
  { intros Q. apply (relations_sub so ro inj rho (fun _ => True)); [intros; exact Logic.I|]. now apply relations_all. }
  assert (NG : req ro (inj (s_neg so t)) (ropp ro (inj t))).
  { rewrite <- (ri_add_0 _ Hr (inj (s_neg so t))), <- (ri_opp _ Hr (inj t)), <- (ri_add_assoc _ Hr), (ri_add_comm _ Hr (inj t)), <- (ri_add_assoc _ Hr), (ri_add_comm _ Hr _ (inj t)).
    rewrite <- (si_add _ _ _ _ SI), (sl_neg so L), (si_0 _ _ _ _ SI), (ri_add_comm _ Hr). apply (ri_add_0 _ Hr). }
  pose proof (si_1 _ _ _ _ SI) as J1. pose proof (si_0 _ _ _ _ SI) as J0.
  split.
  - rewrite (run_value io Hio so D _ (plain_simple _ (ham_plain so idx t w g N)) ro inj rho Hr SI (RA _) _ _ (incl_refl _) EH).
    cbn [ham_p meaning]. rewrite !(total_r ro inj rho Hr). cbn [meaning]. rewrite J0, !(ri_add_0 _ Hr).
    rewrite (msum_perm ro Hr _ _ _ PB), (msum_perm ro Hr _ _ _ PS), (msum_perm ro Hr _ _ _ PO). unfold add. apply AX; [apply AX|].
    + apply (msum_ext ro Hr). intros [s [i j]] _. cbn [hop_p meaning eval_mono fst snd]. rewrite J1, NG, !(ri_mul_1_l _ Hr), !(ri_mul_1_r _ Hr).
      symmetry. apply (ri_mul_assoc _ Hr).
    + apply (msum_ext ro Hr). intros i _. cbn [ph_p meaning eval_mono fst snd]. rewrite J1, !(ri_mul_1_l _ Hr), !(ri_mul_1_r _ Hr).
      symmetry. apply (ri_mul_assoc _ Hr).
    + apply (msum_ext ro Hr). intros [s i] _. cbn [eph_p n_p meaning eval_mono fst snd]. rewrite J1, !(ri_mul_1_l _ Hr), !(ri_mul_1_r _ Hr).
      symmetry. apply (ri_mul_assoc _ Hr).
  - rewrite (run_value io Hio so D _ (plain_simple _ (ne_plain so idx N)) ro inj rho Hr SI (RA _) _ _ (incl_refl _) EN).
    unfold ne_p. rewrite (total_r ro inj rho Hr). cbn [meaning]. rewrite J0, !(ri_add_0 _ Hr), (msum_perm ro Hr _ _ _ PO).
    apply (msum_ext ro Hr). intros [s i] _. cbn [n_p meaning eval_mono fst snd]. now rewrite J1, !(ri_mul_1_l _ Hr), !(ri_mul_1_r _ Hr).
Qed.
Print Assumptions C95_hamiltonian.

(** the two checks of the program: [H, N_e] = 0, and H = conj(H) when the
    parameters are real, so that H - conj(H) is the empty expression *)
Theorem C95_checks : forall I (io : index_ops I) T (so : scalar_ops T) (idx : nat -> nat -> label -> I),
  index_order io -> scalar_domain so ->
  (forall x y s x' y' s', idx x y s = idx x' y' s' -> x = x' /\ y = y' /\ s = s') ->
  forall N t w0 g H Ne, holstein io so idx t w0 g N = Ok H -> electrons io so idx N = Ok Ne ->
  commutator_is (std_gen_ops io) so H Ne [] /\
  (conj_laws so -> s_conj so t = t -> s_conj so w0 = w0 -> s_conj so g = g ->
   e_conj (std_gen_ops io) so H = Ok H /\ e_sub (std_gen_ops io) so H H = []).
Proof.
  intros I io T so idx Hio D IJ N t w g H Ne KH KN. pose proof (sd_laws _ D) as L.
  destruct (build io so Hio D idx t w g N) as (H' & Ne' & C & A & B & EH & EN & EA & EB & EC & CE & BH & BN & BC).
  rewrite (ham_run io so Hio D), EH in KH. rewrite (ne_run io so Hio D), EN in KN. injection KH as ->. injection KN as ->.
  set (P := ham_p so idx t w g N) in *. set (U := uses P) in *.
  assert (PU : Forall (@plain I) U) by apply ham_plain. pose proof (plain_simple _ PU) as GS. pose proof (plain_half so _ PU) as GH.
  pose proof (empty_canonical io so D U) as B0.
  assert (NU : incl (uses (ne_p so idx N)) U) by (apply n_in_ham).
  split.
  - exists A, B. split; [exact EA|]. split; [exact EB|]. rewrite <- CE.
    apply (built_unique io Hio so D U GS); auto. intros R ro inj rho Hr SI RL.
    assert (V : req ro (eval_expr ro inj rho C) (meaning ro inj rho (PSub (PMul P (ne_p so idx N)) (PMul (ne_p so idx N) P)))).
    { apply (run_value io Hio so D U GS ro inj rho Hr SI RL); [|exact EC]. cbn [uses]. apply incl_app; apply incl_app; try exact NU; apply incl_refl. }
    pose proof (ri_equiv _ Hr) as EQ. rewrite V. cbn [eval_expr].
    apply (commutator_value so idx ro inj rho (on_sites (map site_of U)) Hr SI RL N (occ_nodup idx IJ N)).
    + intros d k hk. destruct (occ_used so idx N d k hk) as [h1 h2]. split; [|exact h2]. revert h1. apply incl_map. exact NU.
    + intros d i hi. exact (ph_used so idx t w g N d i hi).
  - intros CL Et Ew Eg.
    assert (NH : forall c i, ~ In (GSpin 2 c i) U) by (intros c i h; rewrite Forall_forall in PU; exact (PU _ h)).
    pose proof (simple_consistent U GS) as SC.
    destruct (C12_never_throws I io T so U H Hio D SC BH (or_intror NH)) as [r Er].
    assert (RE : r = H).
    { apply (built_unique io Hio so D U GS); auto; [exact (b_conj io so U H r BH Er)|]. intros R ro inj rho Hr SI RL.
      set (K := on_sites (map site_of U)) in *.
      assert (AK : forall g, admissible U g -> K g) by (apply admissible_on; auto).
      assert (Kc : forall g, K g -> K (gen_conj_gen g)) by (intros [d i|d i|m c i] [h1 h2]; (split; [exact h1|exact h2])).
      assert (Ks : forall m c c' i, K (GSpin m c i) -> K (GSpin m c' i)) by (intros m c c' i [h1 h2]; split; auto).
      pose proof (ri_equiv _ Hr) as EQ.
      rewrite (ev_conj io Hio so D CL ro inj rho Hr SI U SC K AK Ks RL H r BH Er).
      rewrite (run_value io Hio so D U GS ro inj rho Hr SI RL P H (incl_refl _) EH).
      pose proof (run_value io Hio so D U GS (op_ring ro) (injc so inj) (rhoc rho) (op_is_ring _ Hr) (op_scalar_image so D CL ro inj rho Hr SI)
        (op_relations_on so D CL ro inj rho Hr SI K Kc Ks RL) P H (incl_refl _) EH) as V. cbn [op_ring req] in V.
      etransitivity; [exact V|].
      apply (ham_herm so D idx ro inj rho K Hr SI RL N).
      - intros d k hk. destruct (occ_used so idx N d k hk) as [h1 h2]. split; [|exact h2]. revert h1. apply incl_map. exact NU.
      - intros d i hi. exact (ph_used so idx t w g N d i hi).
      - exact CL.
      - exact Et.
      - exact Ew.
      - exact Eg. }
    split; [now rewrite Er, RE|].
    apply (built_unique io Hio so D U GS); auto.
    { apply b_sub; exact BH. }
    intros R ro inj rho Hr SI RL. pose proof (ri_equiv _ Hr) as EQ.
    rewrite (ev_sub_assign (std_gen_ops io) (std_order io Hio) so L ro Hr inj rho SI H H). cbn [eval_expr]. apply (ri_opp _ Hr).
Qed.
Print Assumptions C95_checks.

(** ** A concrete case: the indices of the program (two coordinates and a
    label), its parameters, a 2 x 2 lattice *)
Definition hol_idx (x y : nat) (s : label) : list dyn_index :=
  [DInt (Z.of_nat x); DInt (Z.of_nat y); DStr (match s with Up => "up" | Down => "down" | NoLabel => "" end)%string].
Definition hol_q (n : Z) (d : positive) : Qc := Q2Qc (n # d).
Definition hol_terms : list (list (gen (list dyn_index)) * Qc) := Eval vm_compute in
  match holstein dyn_index_ops double_scalar_ops hol_idx (hol_q 2 1) (hol_q 1 2) (hol_q 1 10) 2 with Ok H => H | _ => [] end.
Definition hol_n : list (list (gen (list dyn_index)) * Qc) := Eval vm_compute in
  match electrons dyn_index_ops double_scalar_ops hol_idx 2 with Ok H => H | _ => [] end.
Example C95_ex :
  index_order dyn_index_ops /\ scalar_domain double_scalar_ops /\ conj_laws double_scalar_ops /\
  (forall x y s x' y' s', hol_idx x y s = hol_idx x' y' s' -> x = x' /\ y = y' /\ s = s') /\
  holstein dyn_index_ops double_scalar_ops hol_idx (hol_q 2 1) (hol_q 1 2) (hol_q 1 10) 2 = Ok hol_terms /\
  electrons dyn_index_ops double_scalar_ops hol_idx 2 = Ok hol_n /\
  List.length hol_terms = 36 /\ List.length hol_n = 8 /\ List.length (bonds 10) = 720 /\
  (forall N, lists (bonds N) (fun b : label * ((nat * nat) * (nat * nat)) => let '(s, (i, j)) := b in
                    s <> NoLabel /\ is_site N i /\ is_site N j /\ adjacent i j) /\
             lists (lattice N) (is_site N) /\ lists (orbitals N) (fun o => fst o <> NoLabel /\ is_site N (snd o))).
Proof.
  split; [exact sto_dyn|]. split; [exact double_domain|]. split; [exact double_conj_laws|]. split.
  { intros x y s x' y' s' E. inversion E as [[E1 E2 E3]]. apply Nat2Z.inj in E1, E2. destruct s, s'; try discriminate; auto. }
  split; [vm_compute; repeat f_equal; apply Qc_is_canon; reflexivity|].
  split; [vm_compute; repeat f_equal; apply Qc_is_canon; reflexivity|].
  split; [reflexivity|]. split; [reflexivity|]. split; [vm_compute; reflexivity|]. intros N. split; [|split].
  - split; [apply bonds_nodup|]. intros [s [i j]]. rewrite bonds_In, !lattice_In. fold (is_site N i) (is_site N j).
    split; intros (h1 & h2 & h3 & h4); (split; [exact h1|split; [exact h2|split; [exact h3|]]]); now apply (bonded_adjacent N i j h2 h3).
  - split; [apply lattice_nodup|]. intros i. apply lattice_In.
  - split; [apply orbitals_nodup|]. intros o. rewrite orbitals_In, lattice_In. reflexivity.
Qed.
