(** The ring of spins of any multiplicity but 2 *)
From Coq Require Import ZArith List Bool Lia Setoid Sorted Permutation Ncring Ncring_tac Cring.
From Verif Require Import ExprModel ExprSpec ExprOrder ExprMap ExprEval ExprStd ExprThrow ExprMain ExprInst ExprConj PropExpr PolyProofs
  ConvSpec FockSpec PropUnique PropConj PolySpec PolyExpr PolyOsc HolModel HolProofs SrModel.
Import ListNotations.
Close Scope Z_scope.
Open Scope nat_scope.
Open Scope list_scope.

Section Sr.
Context {I T : Type} (io : index_ops I) (so : scalar_ops T) (Hio : index_order io) (D : scalar_domain so).
Context (m : nat) (Hm : 1 <= m) (Hm2 : m <> 2).
Notation go := (std_gen_ops io).
Let L := sd_laws _ D.
Notation one := (s_one so).
Definition spin_m (g : gen I) : Prop := match g with GSpin m' _ _ => m' = m | _ => False end.
Lemma spins_consistent B : Forall spin_m B -> spin_consistent B.
Proof.
  rewrite Forall_forall. intros H. split.
  - intros c c' m' i h _. apply H in h. cbn in h. congruence.
  - intros m' c i h. apply H in h. cbn in h. lia.
Qed.
Lemma spins_admissible B g : Forall spin_m B -> admissible B g -> not_half g.
Proof.
  rewrite Forall_forall. intros H. destruct g as [d i|d i|m' c i]; cbn; auto. intros [c' h]. apply H in h. cbn in h. congruence.
Qed.
Lemma built_adm_sr B e : Forall spin_m B -> built io so B e -> Pexpr (admissible B) e.
Proof. intros H h. apply (inv_P io so B). exact (built_inv io Hio so D B (spins_consistent B H) e h). Qed.
Lemma spins_Pe B e : Forall spin_m B -> built io so B e -> Pe not_half e.
Proof.
  intros H h m1 c k. pose proof (built_adm_sr B e H h) as X. unfold Pexpr in X. rewrite Forall_forall in X. specialize (X _ k). cbn in X.
  eapply Forall_impl; [|exact X]. intros g. now apply spins_admissible.
Qed.
Lemma spins_total P : Forall spin_m (uses P) -> exists e, run go so P = Ok e.
Proof.
  pose proof (std_make_int io so L) as AM.
  induction P as [x|x m1|a IHa b IHb|a IHa b IHb|a IHa b IHb|x a IHa|a IHa x|a IHa x]; cbn [uses run]; intros U;
    try (apply Forall_app in U as [Ua Ub]; destruct (IHa Ua) as [u Eu]; destruct (IHb Ub) as [v Ev]; rewrite Eu, Ev; cbn [rbind]);
    try (destruct (IHa U) as [u Eu]; rewrite Eu; cbn [rbind]); eauto.
  - apply (e_mono_total go so _ AM). eapply Forall_impl; [|exact U]. intros [d q|d q|mu cc q]; cbn; auto. congruence.
  - apply (e_mul_total go so _ AM).
    + apply (spins_Pe (uses a)); [exact Ua|]. apply (run_built io so (uses a) a); [apply incl_refl|exact Eu].
    + apply (spins_Pe (uses b)); [exact Ub|]. apply (run_built io so (uses b) b); [apply incl_refl|exact Ev].
Qed.

(** the value of a program *)
Section Val.
Context (B : list (gen I)) (HB : Forall spin_m B).
Context {R : Type} (ro : ring_ops R) (inj : T -> R) (rho : gen I -> R).
Context (Hr : is_ring ro) (SI : scalar_image so ro inj rho) (RL : relations_on (fun _ => True) so ro inj rho).
Notation ev := (eval_expr ro inj rho).
Lemma sr_sound : alg_sound go so ro inj rho (admissible B).
Proof.
  apply (alg_sound_iff go so ro inj rho (adm (fun _ => True) B)).
  - intros g. unfold adm. tauto.
  - apply (std_sound_on io Hio so L ro inj rho Hr SI (fun _ => True) (fun _ _ _ _ _ => Logic.I) RL B (spins_consistent B HB)).
Qed.
Lemma sr_value P : forall e, incl (uses P) B -> run go so P = Ok e -> req ro (ev e) (meaning ro inj rho P).
Proof.
  pose proof (ri_equiv _ Hr) as EQ. pose proof (ri_mul_ext _ Hr) as MX. pose proof (ri_add_ext _ Hr) as AX. pose proof (ri_opp_ext _ Hr) as OX.
  assert (AC : forall y x, req ro (ev (e_add_const go so y x)) (radd ro (ev y) (inj x))).
  { intros y x. rewrite (add_const_ins go so). destruct (s_is_zero so x) eqn:Z.
    - apply (sl_is_zero _ L) in Z. subst x. now rewrite (si_0 _ _ _ _ SI), (ri_add_comm _ Hr), (ri_add_0 _ Hr).
    - rewrite (ev_ins go (std_order io Hio) so L ro Hr inj rho SI). cbn [eval_mono]. now rewrite (ri_mul_1_r _ Hr), (ri_add_comm _ Hr). }
  assert (SC : forall y x, req ro (ev (e_sub_const go so y x)) (radd ro (ev y) (ropp ro (inj x)))).
  { intros y x. assert (N : req ro (inj (s_neg so x)) (ropp ro (inj x))).
    { apply (inj_neg so L ro Hr inj rho SI). }
    rewrite (sub_const_ins go so L). destruct (s_is_zero so x) eqn:Z.
    - rewrite <- N. apply (sl_is_zero _ L) in Z. subst x. rewrite (s_neg_zero so L).
      now rewrite (si_0 _ _ _ _ SI), (ri_add_comm _ Hr), (ri_add_0 _ Hr).
    - rewrite (ev_ins go (std_order io Hio) so L ro Hr inj rho SI). cbn [eval_mono]. now rewrite (ri_mul_1_r _ Hr), (ri_add_comm _ Hr), N. }
  induction P as [x|x m1|a IHa b IHb|a IHa b IHb|a IHa b IHb|x a IHa|a IHa x|a IHa x]; intros e U E; cbn [run uses meaning] in *.
  - inversion E. apply (const_value so D ro inj rho Hr SI).
  - eapply (e_mono_sound go (std_order io Hio) so L ro Hr inj rho SI _ sr_sound); [|exact E].
    apply Forall_forall. intros g i. apply U in i. exact (proj1 (Forall_forall _ _) (admissible_self B) g i).
  - destruct (run go so a) as [x| |]; try discriminate. destruct (run go so b) as [y| |]; try discriminate. cbn in E. inversion E.
    apply incl_app_inv in U. rewrite (add_value io Hio so D ro inj rho Hr SI), (IHa x), (IHb y); try tauto; try reflexivity.
  - destruct (run go so a) as [x| |]; try discriminate. destruct (run go so b) as [y| |]; try discriminate. cbn in E. inversion E.
    apply incl_app_inv in U. rewrite (ev_sub_assign go (std_order io Hio) so L ro Hr inj rho SI), (IHa x), (IHb y); try tauto; try reflexivity.
  - destruct (run go so a) as [x| |] eqn:Ea; try discriminate. destruct (run go so b) as [y| |] eqn:Eb; try discriminate. cbn in E.
    apply incl_app_inv in U. destruct U as [Ua Ub].
    rewrite (e_mul_sound go (std_order io Hio) so L ro Hr inj rho SI _ sr_sound x y e
      (built_adm_sr B x HB (run_built io so B a x Ua Ea)) (built_adm_sr B y HB (run_built io so B b y Ub Eb)) E), (IHa x), (IHb y); try assumption; try reflexivity.
  - destruct (run go so a) as [y| |]; try discriminate. cbn in E. inversion E. rewrite (scale_value so D ro inj rho Hr SI), (IHa y); auto; reflexivity.
  - destruct (run go so a) as [y| |]; try discriminate. cbn in E. inversion E. rewrite AC, (IHa y); auto; reflexivity.
  - destruct (run go so a) as [y| |]; try discriminate. cbn in E. inversion E. rewrite SC, (IHa y); auto; reflexivity.
Qed.
End Val.

(** the programs *)
Context (half : T) (idx : nat -> I).
Notation s1 c i := (PMono one [GSpin m c (idx i)]).
Definition srt_p (N i : nat) : prog (gen I) T :=
  PAdd (PMul (s1 Zcomp i) (s1 Zcomp ((i + 1) mod N)))
    (PScale half (PAdd (PMul (s1 Plus i) (s1 Minus ((i + 1) mod N))) (PMul (s1 Minus i) (s1 Plus ((i + 1) mod N))))).
Definition sr_p (N : nat) : prog (gen I) T := total (srt_p N) (seq 0 N) (PConst (s_zero so)).
Definition sz_p (N : nat) : prog (gen I) T := total (fun i => s1 Zcomp i) (seq 0 N) (PConst (s_zero so)).
Lemma sr_ok P : Forall spin_m (uses P) -> exists e, run go so P = Ok e.
Proof. apply spins_total. Qed.
Lemma srt_run N i : sr_term io so m half idx N i = run go so (srt_p N i).
Proof.
  unfold sr_term, factory. cbn [run srt_p]. set (j := (i + 1) mod N).
  assert (E : forall c k, exists e, e_mono go so one [GSpin m c (idx k)] = Ok e) by (intros c k; apply (sr_ok (s1 c k)); repeat constructor).
  destruct (E Zcomp i) as [a Ea], (E Zcomp j) as [b Eb], (E Plus i) as [c Ec], (E Minus j) as [d Ed], (E Minus i) as [f Ef], (E Plus j) as [h Eh].
  rewrite Ea, Eb, Ec, Ed, Ef, Eh. cbn [rbind]. destruct (e_mul go so a b); cbn [rbind]; auto.
  destruct (e_mul go so c d); cbn [rbind]; auto. destruct (e_mul go so f h); reflexivity.
Qed.
Lemma sr_run N : spin_ring io so m half idx N = run go so (sr_p N).
Proof.
  unfold spin_ring, sr_p. apply accumulate_run; [apply srt_run|apply (run_zero io so D)|]. intros a. rewrite srt_run. apply sr_ok. repeat constructor.
Qed.
Lemma szt_run N : total_sz io so m idx N = run go so (sz_p N).
Proof. unfold total_sz. apply accumulate_run; [reflexivity|apply (run_zero io so D)|]. intros a. apply (sr_ok (s1 Zcomp a)). repeat constructor. Qed.
Lemma total_spins {A} (f : A -> prog (gen I) T) l : (forall a, Forall spin_m (uses (f a))) -> forall P, Forall spin_m (uses P) -> Forall spin_m (uses (total f l P)).
Proof.
  intros h. induction l as [|a l IH]; intros P hP; cbn [total fold_left]; [exact hP|]. apply IH. cbn [uses]. apply Forall_app. split; [exact hP|apply h].
Qed.
Lemma sr_uses N : Forall spin_m (uses (sr_p N)).
Proof. apply total_spins; [intros; repeat constructor|cbn [uses]; apply Forall_nil]. Qed.
Lemma sz_uses N : Forall spin_m (uses (sz_p N)).
Proof. apply total_spins; [intros; repeat constructor|cbn [uses]; apply Forall_nil]. Qed.

Section Ring.
Context {R : Type} (ro : ring_ops R) (inj : T -> R) (rho : gen I -> R).
Context (Hr : is_ring ro) (SI : scalar_image so ro inj rho) (RL : relations_on (fun _ => True) so ro inj rho).
Local Instance opsSr : @Ring_ops R (r0 ro) (r1 ro) (radd ro) (rmul ro) (rsub ro) (ropp ro) (req ro) := nc_ops ro.
Local Instance ringSr : @Ring _ _ _ _ _ _ _ _ opsSr := nc_ring ro Hr.
Local Instance eqSr : Equivalence (req ro) := ri_equiv _ Hr.
Local Instance addSr : Morphisms.Proper (Morphisms.respectful (req ro) (Morphisms.respectful (req ro) (req ro))) (radd ro) := ri_add_ext _ Hr.
Local Instance mulSr : Morphisms.Proper (Morphisms.respectful (req ro) (Morphisms.respectful (req ro) (req ro))) (rmul ro) := ri_mul_ext _ Hr.
Local Instance oppSr : Morphisms.Proper (Morphisms.respectful (req ro) (req ro)) (ropp ro) := ri_opp_ext _ Hr.
Local Notation "x == y" := (req ro x y) (at level 70) : type_scope.
Local Notation "x ⊕ y" := (radd ro x y) (at level 50, left associativity).
Local Notation "x ⊗ y" := (rmul ro x y) (at level 40, left associativity).
Notation S_ c k := (rho (GSpin m c k)).
Notation mr := (meaning ro inj rho).
Notation com := (com ro).
Definition ssum (ks : list I) : R := fold_right (fun k x => S_ Zcomp k ⊕ x) (r0 ro) ks.
Lemma diff_com c c' k k' : k <> k' -> S_ c k ⊗ S_ c' k' == S_ c' k' ⊗ S_ c k.
Proof. intros n. apply (kr_s_comm _ _ _ _ _ RL); try exact Logic.I. congruence. Qed.
Lemma ssum_out c k ks : ~ In k ks -> com (ssum ks) (S_ c k).
Proof.
  unfold HolProofs.com. induction ks as [|q ks IH]; intros n; cbn [ssum fold_right]; [non_commutative_ring|]. fold (ssum ks).
  assert (E1 : S_ Zcomp q ⊗ S_ c k == S_ c k ⊗ S_ Zcomp q) by (apply diff_com; intros ->; apply n; now left).
  assert (E2 : ssum ks ⊗ S_ c k == S_ c k ⊗ ssum ks) by (apply IH; intros ?; apply n; now right).
  transitivity (S_ Zcomp q ⊗ S_ c k ⊕ ssum ks ⊗ S_ c k); [non_commutative_ring|]. rewrite E1, E2. non_commutative_ring.
Qed.
Definition sh (c : spin_component) (x : R) : R := match c with Plus => x | Minus => ropp ro x | Zcomp => r0 ro end.
Lemma z_same c k : S_ Zcomp k ⊗ S_ c k == S_ c k ⊗ S_ Zcomp k ⊕ sh c (S_ c k).
Proof.
  destruct c; cbn [sh]; [apply (kr_s_zp _ _ _ _ _ RL); exact Logic.I|apply (kr_s_zm _ _ _ _ _ RL); exact Logic.I|non_commutative_ring].
Qed.
Lemma ssum_in c k ks : NoDup ks -> In k ks -> ssum ks ⊗ S_ c k == S_ c k ⊗ ssum ks ⊕ sh c (S_ c k).
Proof.
  induction ks as [|q ks IH]; intros nd i; [destruct i|]. cbn [ssum fold_right]. fold (ssum ks). inversion nd as [|? ? nq nk]; subst.
  transitivity (S_ Zcomp q ⊗ S_ c k ⊕ ssum ks ⊗ S_ c k); [non_commutative_ring|]. destruct i as [->|i].
  - pose proof (ssum_out c k ks nq) as E2. unfold HolProofs.com in E2. rewrite z_same, E2. non_commutative_ring.
  - assert (E1 : S_ Zcomp q ⊗ S_ c k == S_ c k ⊗ S_ Zcomp q) by (apply diff_com; intros ->; contradiction).
    rewrite E1, (IH nk i). non_commutative_ring.
Qed.
Context (N : nat) (IJ : forall i j, idx i = idx j -> i = j).
Notation sites := (map idx (seq 0 N)).
Notation n := (ssum sites).
Lemma sites_nodup : NoDup sites.
Proof. apply FinFun.Injective_map_NoDup; [exact IJ|apply seq_NoDup]. Qed.
Lemma site_In i : i < N -> In (idx i) sites.
Proof. intros h. apply in_map, in_seq. lia. Qed.
Lemma m1_value c i : mr (s1 c i) == S_ c (idx i).
Proof. cbn [meaning eval_mono]. rewrite (si_1 _ _ _ _ SI). non_commutative_ring. Qed.
Lemma inj_com x : com n (inj x).
Proof.
  unfold HolProofs.com. generalize sites as ks. induction ks as [|q ks IH]; cbn [ssum fold_right]; [non_commutative_ring|]. fold (ssum ks).
  transitivity (S_ Zcomp q ⊗ inj x ⊕ ssum ks ⊗ inj x); [non_commutative_ring|]. rewrite IH, (si_comm _ _ _ _ SI). non_commutative_ring.
Qed.
Lemma srt_com i : i < N -> com n (mr (srt_p N i)).
Proof.
  intros h. assert (hj : (i + 1) mod N < N) by (apply Nat.mod_upper_bound; lia). unfold srt_p. set (j := (i + 1) mod N) in *.
  change (com n (mr (s1 Zcomp i) ⊗ mr (s1 Zcomp j) ⊕ inj half ⊗ (mr (s1 Plus i) ⊗ mr (s1 Minus j) ⊕ mr (s1 Minus i) ⊗ mr (s1 Plus j)))).
  pose proof (fun c k hk => ssum_in c (idx k) sites sites_nodup (site_In k hk)) as E.
  apply (com_add ro Hr); [|apply (com_mul ro Hr); [apply inj_com|apply (com_add ro Hr)]].
  - apply (com_mul ro Hr); (eapply (com_ext ro Hr); [symmetry; apply m1_value|]); unfold HolProofs.com; rewrite E by assumption; cbn [sh]; non_commutative_ring.
  - unfold HolProofs.com. rewrite !m1_value. pose proof (E Plus i h) as E1. pose proof (E Minus j hj) as E2. cbn [sh] in E1, E2.
    set (x := S_ Plus (idx i)) in *. set (y := S_ Minus (idx j)) in *. set (z := n) in *. clearbody x y z.
    transitivity ((z ⊗ x) ⊗ y); [non_commutative_ring|]. rewrite E1.
    transitivity (x ⊗ (z ⊗ y) ⊕ x ⊗ y); [non_commutative_ring|]. rewrite E2. non_commutative_ring.
  - unfold HolProofs.com. rewrite !m1_value. pose proof (E Minus i h) as E1. pose proof (E Plus j hj) as E2. cbn [sh] in E1, E2.
    set (x := S_ Minus (idx i)) in *. set (y := S_ Plus (idx j)) in *. set (z := n) in *. clearbody x y z.
    transitivity ((z ⊗ x) ⊗ y); [non_commutative_ring|]. rewrite E1.
    transitivity (x ⊗ (z ⊗ y) ⊕ ropp ro (x ⊗ y)); [non_commutative_ring|]. rewrite E2. non_commutative_ring.
Qed.
Lemma sz_value : mr (sz_p N) == n.
Proof.
  unfold sz_p. rewrite (total_r ro inj rho Hr). change (mr (PConst (s_zero so))) with (inj (s_zero so)). rewrite (si_0 _ _ _ _ SI).
  induction (seq 0 N) as [|i l IH]; [cbn; non_commutative_ring|]. cbn [msum fold_right map ssum]. fold (msum ro (fun a => mr (s1 Zcomp a)) l).
  fold (ssum (map idx l)). transitivity (mr (s1 Zcomp i) ⊕ (r0 ro ⊕ msum ro (fun a => mr (s1 Zcomp a)) l)); [non_commutative_ring|]. now rewrite IH, m1_value.
Qed.
Lemma sr_com : mr (sr_p N) ⊗ mr (sz_p N) == mr (sz_p N) ⊗ mr (sr_p N).
Proof.
  rewrite sz_value. symmetry. apply (com_total ro inj rho Hr).
  - intros i h. apply in_seq in h. apply srt_com. lia.
  - change (mr (PConst (s_zero so))) with (inj (s_zero so)). apply inj_com.
Qed.

(** the conjugate *)
Section Herm.
Context (CL : conj_laws so) (EH : s_conj so half = half).
Notation mo := (meaning (op_ring ro) (injc so inj) (rhoc rho)).
Lemma sr_herm : mo (sr_p N) == mr (sr_p N).
Proof.
  assert (I1 : injc so inj one == r1 ro) by (unfold injc; rewrite (sconj_1 so D CL); apply (si_1 _ _ _ _ SI)).
  assert (I0 : injc so inj (s_zero so) == inj (s_zero so)) by (unfold injc; rewrite (sconj_0 so D CL); reflexivity).
  assert (O1 : forall c i, mo (s1 c i) == S_ (match c with Plus => Minus | Minus => Plus | Zcomp => Zcomp end) (idx i)).
  { intros c i. cbn [meaning eval_mono]. cbn [rmul r1 op_ring]. rewrite I1. unfold rhoc. cbn [gen_conj_gen]. destruct c; non_commutative_ring. }
  unfold sr_p. rewrite (total_r ro inj rho Hr), (total_o so ro inj rho Hr).
  change (mo (PConst (s_zero so))) with (injc so inj (s_zero so)). change (mr (PConst (s_zero so))) with (inj (s_zero so)). rewrite I0.
  assert (E1 : msum ro (fun a => mo (srt_p N a)) (seq 0 N) == msum ro (fun a => mr (srt_p N a)) (seq 0 N)).
  { apply (msum_ext ro Hr). intros i h. unfold srt_p. set (j := (i + 1) mod N).
    change (mo (s1 Zcomp j) ⊗ mo (s1 Zcomp i) ⊕ (mo (s1 Minus j) ⊗ mo (s1 Plus i) ⊕ mo (s1 Plus j) ⊗ mo (s1 Minus i)) ⊗ injc so inj half
         == mr (s1 Zcomp i) ⊗ mr (s1 Zcomp j) ⊕ inj half ⊗ (mr (s1 Plus i) ⊗ mr (s1 Minus j) ⊕ mr (s1 Minus i) ⊗ mr (s1 Plus j))).
    rewrite !O1, !m1_value. unfold injc. rewrite EH.
    assert (CS : forall c k, com (inj half) (S_ c k)) by (intros; unfold HolProofs.com; symmetry; apply (si_comm _ _ _ _ SI)).
    assert (C : com (inj half) (S_ Plus (idx j) ⊗ S_ Minus (idx i) ⊕ S_ Minus (idx j) ⊗ S_ Plus (idx i))).
    { apply (com_add ro Hr); apply (com_mul ro Hr); apply CS. }
    unfold HolProofs.com in C. rewrite <- C. clearbody j. destruct (Nat.eq_dec i j) as [->|ne].
    - reflexivity.
    - assert (nk : idx j <> idx i) by (intros E; apply IJ in E; congruence).
      rewrite (diff_com Zcomp Zcomp _ _ nk), (diff_com Plus Minus _ _ nk), (diff_com Minus Plus _ _ nk). non_commutative_ring. }
  cbn [radd op_ring]. now rewrite E1.
Qed.
End Herm.
End Ring.
End Sr.
