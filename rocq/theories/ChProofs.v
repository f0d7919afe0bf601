(** The Hubbard-Holstein chain: programs, value, conserved numbers, conjugate *)
From Coq Require Import ZArith List Bool Lia Setoid Sorted Permutation Ncring Ncring_tac Cring.
From Verif Require Import ExprModel ExprSpec ExprOrder ExprMap ExprEval ExprStd ExprThrow ExprMain ExprInst ExprConj PropExpr PolyProofs
  ConvSpec FockSpec PropUnique PropConj PolySpec PolyExpr PolyOsc HolModel HolProofs ChModel.
Import ListNotations.
Close Scope Z_scope.
Open Scope nat_scope.
Open Scope list_scope.

Lemma links_In L o : In o (ch_links L) <-> fst o <> NoLabel /\ snd o + 1 < L.
Proof.
  unfold ch_links. rewrite in_flat_map. split.
  - intros [s [hs h]]. apply in_map_iff in h. destruct h as [i [<- hi]]. cbn [fst snd]. apply in_seq in hi. split; [destruct hs as [<-|[<-|[]]]; discriminate|lia].
  - intros [h1 h2]. exists (fst o). split; [destruct (fst o); cbn; tauto|]. apply in_map_iff. exists (snd o). split; [now destruct o|apply in_seq; lia].
Qed.
Lemma links_nodup L : NoDup (ch_links L).
Proof.
  apply flat_nodup.
  - repeat constructor; cbn; intuition discriminate.
  - intros s _. apply FinFun.Injective_map_NoDup; [intros x y E; now inversion E|apply seq_NoDup].
  - intros s s' x _ _ h1 h2. apply in_map_iff in h1, h2. destruct h1 as [y [<- _]], h2 as [z [E _]]. now inversion E.
Qed.

Section Ch.
Context {I T : Type} (io : index_ops I) (so : scalar_ops T) (Hio : index_order io) (D : scalar_domain so) (CL : conj_laws so).
Context (idx : nat -> label -> I).
Notation go := (std_gen_ops io).
Let L := sd_laws _ D.
Notation one := (s_one so).
Notation mono1 g := (PMono one [g]).
Notation np s i := (PMono one [GFermion true (idx i s); GFermion false (idx i s)]).
Definition jump (s : label) (i j : nat) : prog (gen I) T := PMul (mono1 (GFermion true (idx i s))) (mono1 (GFermion false (idx j s))).
Definition chop_p (t : T) (o : label * nat) : prog (gen I) T :=
  PScale (s_neg so t) (PAdd (jump (fst o) (snd o) (snd o + 1)) (jump (fst o) (snd o + 1) (snd o))).
Definition cmu_p (mu : T) (i : nat) : prog (gen I) T := PScale (s_neg so mu) (PAdd (np Up i) (np Down i)).
Definition cu_p (U : T) (i : nat) : prog (gen I) T := PMul (PScale U (np Up i)) (np Down i).
Definition cw_p (w : T) (i : nat) : prog (gen I) T := PMul (PScale w (mono1 (GBoson true (idx i NoLabel)))) (mono1 (GBoson false (idx i NoLabel))).
Definition cg_p (g : T) (i : nat) : prog (gen I) T :=
  PMul (PScale g (PAdd (np Up i) (np Down i))) (PAdd (mono1 (GBoson true (idx i NoLabel))) (mono1 (GBoson false (idx i NoLabel)))).
Definition ch_p (t mu U w g : T) (N : nat) : prog (gen I) T :=
  total (cg_p g) (seq 0 N) (total (cw_p w) (seq 0 N) (total (cu_p U) (seq 0 N) (total (cmu_p mu) (seq 0 N) (total (chop_p t) (ch_links N) (PConst (s_zero so)))))).
Definition cn_p (s : label) (N : nat) : prog (gen I) T := total (fun i => np s i) (seq 0 N) (PConst (s_zero so)).

Lemma ok P : Forall plain (uses P) -> exists e, run go so P = Ok e.
Proof. apply (plain_total io so Hio D). Qed.
(** c+_i c_j + hc *)
Lemma hc_run s i j e : run go so (jump s i j) = Ok e -> e_plus_hc go so e = run go so (PAdd (jump s i j) (jump s j i)).
Proof.
  intros E. destruct (ok (jump s j i)) as [d Ed]; [repeat constructor|].
  set (B := uses (jump s i j) ++ uses (jump s j i)).
  assert (PU : Forall (@plain I) B) by (repeat constructor).
  pose proof (plain_simple _ PU) as GS. pose proof (plain_half so _ PU) as GH. pose proof (simple_consistent B GS) as SC.
  assert (I1 : incl (uses (jump s i j)) B) by (intros x hx; apply in_app_iff; now left).
  assert (I2 : incl (uses (jump s j i)) B) by (intros x hx; apply in_app_iff; now right).
  assert (Be : built io so B e) by (apply (run_built io so B _ _ I1 E)).
  assert (Bd : built io so B d) by (apply (run_built io so B _ _ I2 Ed)).
  assert (NH : forall c k, ~ In (GSpin 2 c k) B) by (intros c k h; rewrite Forall_forall in PU; exact (PU _ h)).
  destruct (C12_never_throws I io T so B e Hio D SC Be (or_intror NH)) as [r Er].
  assert (RE : r = d).
  { apply (built_unique io Hio so D B GS); auto; [exact (b_conj io so B e r Be Er)|]. intros R ro inj rho Hr SI RL.
    set (K := on_sites (map site_of B)) in *.
    assert (AK : forall x, admissible B x -> K x) by (apply admissible_on; auto).
    assert (Kc : forall x, K x -> K (gen_conj_gen x)) by (intros [x k|x k|m c k] [h1 h2]; (split; [exact h1|exact h2])).
    assert (Ks : forall m c c' k, K (GSpin m c k) -> K (GSpin m c' k)) by (intros m c c' k [h1 h2]; split; auto).
    pose proof (ri_equiv _ Hr) as EQ. pose proof (ri_mul_ext _ Hr) as MX.
    rewrite (ev_conj io Hio so D CL ro inj rho Hr SI B SC K AK Ks RL e r Be Er).
    rewrite (run_value io Hio so D B GS ro inj rho Hr SI RL _ d I2 Ed).
    pose proof (run_value io Hio so D B GS (op_ring ro) (injc so inj) (rhoc rho) (op_is_ring _ Hr) (op_scalar_image so D CL ro inj rho Hr SI)
      (op_relations_on so D CL ro inj rho Hr SI K Kc Ks RL) _ e I1 E) as V. cbn [op_ring req] in V.
    etransitivity; [exact V|]. cbn [jump meaning eval_mono]. cbn [rmul r1 op_ring].
    assert (J : req ro (injc so inj one) (r1 ro)) by (unfold injc; rewrite (sconj_1 so D CL); apply (si_1 _ _ _ _ SI)).
    rewrite J, (si_1 _ _ _ _ SI). unfold rhoc. cbn [gen_conj_gen negb]. now rewrite !(ri_mul_1_l _ Hr), !(ri_mul_1_r _ Hr). }
  subst r. set (X := jump s i j) in *. set (Y := jump s j i) in *. cbn [run]. rewrite E, Ed. unfold e_plus_hc. rewrite Er. reflexivity.
Qed.
Lemma chop_run t o : ch_hopping io so idx t o = run go so (chop_p t o).
Proof.
  destruct (ok (jump (fst o) (snd o) (snd o + 1))) as [e E]; [repeat constructor|].
  assert (E0 : run go so (chop_p t o) = rbind (e_plus_hc go so e) (fun h => Ok (e_mul_const_pre so (s_neg so t) h))).
  { rewrite (hc_run _ _ _ _ E). set (W := PAdd (jump (fst o) (snd o) (snd o + 1)) (jump (fst o) (snd o + 1) (snd o))) in *.
    unfold chop_p. fold W. clearbody W. reflexivity. }
  rewrite E0. unfold ch_hopping, factory. unfold jump in E. cbn [run] in E.
  destruct (ok (mono1 (GFermion true (idx (snd o) (fst o))))) as [x Ex]; [repeat constructor|].
  destruct (ok (mono1 (GFermion false (idx (snd o + 1) (fst o))))) as [y Ey]; [repeat constructor|].
  cbn [run] in Ex, Ey. rewrite Ex, Ey in *. cbn [rbind] in *. rewrite E. reflexivity.
Qed.
Lemma cmu_run mu i : ch_chemical io so idx mu i = run go so (cmu_p mu i).
Proof.
  unfold ch_chemical, factory_n. cbn [run cmu_p].
  destruct (ok (np Up i)) as [x Ex]; [repeat constructor|]. destruct (ok (np Down i)) as [y Ey]; [repeat constructor|].
  cbn [run] in Ex, Ey. rewrite Ex, Ey. reflexivity.
Qed.
Lemma cu_run U i : ch_coulomb io so idx U i = run go so (cu_p U i).
Proof.
  unfold ch_coulomb, factory_n. cbn [run cu_p].
  destruct (ok (np Up i)) as [x Ex]; [repeat constructor|]. destruct (ok (np Down i)) as [y Ey]; [repeat constructor|].
  cbn [run] in Ex, Ey. rewrite Ex, Ey. reflexivity.
Qed.
Lemma cw_run w i : ch_phonon io so idx w i = run go so (cw_p w i).
Proof.
  unfold ch_phonon, factory. cbn [run cw_p].
  destruct (ok (mono1 (GBoson true (idx i NoLabel)))) as [x Ex]; [repeat constructor|]. destruct (ok (mono1 (GBoson false (idx i NoLabel)))) as [y Ey]; [repeat constructor|].
  cbn [run] in Ex, Ey. rewrite Ex, Ey. reflexivity.
Qed.
Lemma cg_run g i : ch_coupling io so idx g i = run go so (cg_p g i).
Proof.
  unfold ch_coupling, factory, factory_n. cbn [run cg_p].
  destruct (ok (np Up i)) as [x Ex]; [repeat constructor|]. destruct (ok (np Down i)) as [y Ey]; [repeat constructor|].
  destruct (ok (mono1 (GBoson true (idx i NoLabel)))) as [u Eu]; [repeat constructor|]. destruct (ok (mono1 (GBoson false (idx i NoLabel)))) as [v Ev]; [repeat constructor|].
  cbn [run] in Ex, Ey, Eu, Ev. rewrite Ex, Ey, Eu, Ev. reflexivity.
Qed.
Lemma cn_run s N : ch_number io so idx s N = run go so (cn_p s N).
Proof. unfold ch_number. apply accumulate_run; [reflexivity|apply (run_zero io so D)|]. intros a. apply (ok (np s a)). repeat constructor. Qed.
Lemma ch_plain t mu U w g N : Forall plain (uses (ch_p t mu U w g N)).
Proof. unfold ch_p. repeat (apply total_only; [intros; repeat constructor|]). cbn [uses]. apply Forall_nil. Qed.
Lemma cn_plain s N : Forall plain (uses (cn_p s N)).
Proof. apply total_only; [intros; repeat constructor|cbn [uses]; apply Forall_nil]. Qed.
Lemma ch_run t mu U w g N : hubbard_holstein_1d io so idx t mu U w g N = run go so (ch_p t mu U w g N).
Proof.
  unfold hubbard_holstein_1d, ch_p.
  set (P1 := total (chop_p t) (ch_links N) (PConst (s_zero so))). set (P2 := total (cmu_p mu) (seq 0 N) P1). set (P3 := total (cu_p U) (seq 0 N) P2). set (P4 := total (cw_p w) (seq 0 N) P3).
  assert (U1 : Forall plain (uses P1)) by (apply total_only; [intros; repeat constructor|cbn [uses]; apply Forall_nil]).
  assert (U2 : Forall plain (uses P2)) by (apply total_only; [intros; repeat constructor|exact U1]).
  assert (U3 : Forall plain (uses P3)) by (apply total_only; [intros; repeat constructor|exact U2]).
  assert (U4 : Forall plain (uses P4)) by (apply total_only; [intros; repeat constructor|exact U3]).
  destruct (ok P1 U1) as [x Ex]. destruct (ok P2 U2) as [y Ey]. destruct (ok P3 U3) as [z Ez]. destruct (ok P4 U4) as [v Ev].
  rewrite (accumulate_run io so (chop_p t) (ch_hopping io so idx t) _ (chop_run t) _ _ (run_zero io so D)) by (intros a; rewrite chop_run; apply ok; repeat constructor).
  fold P1. rewrite Ex. cbn [rbind].
  rewrite (accumulate_run io so (cmu_p mu) (ch_chemical io so idx mu) _ (cmu_run mu) _ _ Ex) by (intros a; rewrite cmu_run; apply ok; repeat constructor).
  fold P2. rewrite Ey. cbn [rbind].
  rewrite (accumulate_run io so (cu_p U) (ch_coulomb io so idx U) _ (cu_run U) _ _ Ey) by (intros a; rewrite cu_run; apply ok; repeat constructor).
  fold P3. rewrite Ez. cbn [rbind].
  rewrite (accumulate_run io so (cw_p w) (ch_phonon io so idx w) _ (cw_run w) _ _ Ez) by (intros a; rewrite cw_run; apply ok; repeat constructor).
  fold P4. rewrite Ev. cbn [rbind].
  apply accumulate_run; [apply cg_run|exact Ev|]. intros a; rewrite cg_run; apply ok; repeat constructor.
Qed.

Section Ring.
Context {R : Type} (ro : ring_ops R) (inj : T -> R) (rho : gen I -> R) (K : gen I -> Prop).
Context (Hr : is_ring ro) (SI : scalar_image so ro inj rho) (RL : relations_on K so ro inj rho).
Local Instance opsCh : @Ring_ops R (r0 ro) (r1 ro) (radd ro) (rmul ro) (rsub ro) (ropp ro) (req ro) := nc_ops ro.
Local Instance ringCh : @Ring _ _ _ _ _ _ _ _ opsCh := nc_ring ro Hr.
Local Instance eqCh : Equivalence (req ro) := ri_equiv _ Hr.
Local Instance addCh : Morphisms.Proper (Morphisms.respectful (req ro) (Morphisms.respectful (req ro) (req ro))) (radd ro) := ri_add_ext _ Hr.
Local Instance mulCh : Morphisms.Proper (Morphisms.respectful (req ro) (Morphisms.respectful (req ro) (req ro))) (rmul ro) := ri_mul_ext _ Hr.
Local Instance oppCh : Morphisms.Proper (Morphisms.respectful (req ro) (req ro)) (ropp ro) := ri_opp_ext _ Hr.
Local Notation "x == y" := (req ro x y) (at level 70) : type_scope.
Local Notation "x ⊕ y" := (radd ro x y) (at level 50, left associativity).
Local Notation "x ⊗ y" := (rmul ro x y) (at level 40, left associativity).
Notation F d k := (rho (GFermion d k)).
Notation mr := (meaning ro inj rho).
Notation nsum := (nsum ro rho).
Context (N : nat).
Context (IJ : forall i s i' s', idx i s = idx i' s' -> i = i' /\ s = s').
Context (KF : forall d s i, s <> NoLabel -> i < N -> K (GFermion d (idx i s))) (KB : forall d i, i < N -> K (GBoson d (idx i NoLabel))).
(** the orbitals with the spin projection s *)
Definition chs (s : label) : list I := map (fun i => idx i s) (seq 0 N).
Lemma chs_nodup s : NoDup (chs s).
Proof. apply FinFun.Injective_map_NoDup; [|apply seq_NoDup]. intros i j E. now apply IJ in E. Qed.
Lemma chs_In s i : i < N -> In (idx i s) (chs s).
Proof. intros h. apply (in_map (fun i => idx i s)), in_seq. lia. Qed.
Lemma chs_K s d k : s <> NoLabel -> In k (chs s) -> K (GFermion d k).
Proof. intros h hk. apply in_map_iff in hk. destruct hk as [i [<- hi]]. apply in_seq in hi. apply KF; [exact h|lia]. Qed.
Lemma chs_out s s' i : s <> s' -> ~ In (idx i s') (chs s).
Proof. intros h hk. apply in_map_iff in hk. destruct hk as [j [E _]]. apply IJ in E. now destruct E. Qed.
Section Com.
Context (s : label) (hs : s <> NoLabel).
Notation n := (nsum (chs s)).
Notation com := (com ro n).
Lemma ccom_inj x : com (inj x).
Proof. apply (com_sum ro rho Hr). intros d k _. unfold HolProofs.com. symmetry. apply (si_comm _ _ _ _ SI). Qed.
Lemma ccom_boson d i : i < N -> com (rho (GBoson d (idx i NoLabel))).
Proof. intros h. apply (com_sum ro rho Hr). intros d' k hk. unfold HolProofs.com. symmetry. apply (kr_fb _ _ _ _ _ RL); [now apply (chs_K s)|now apply KB]. Qed.
Lemma clabel_dec (a b : label) : {a = b} + {a <> b}.
Proof. decide equality. Qed.
Lemma ccom_hop s' i j : s' <> NoLabel -> i < N -> j < N -> com (F true (idx i s') ⊗ F false (idx j s')).
Proof.
  intros h hi hj. destruct (clabel_dec s s') as [<-|ne].
  - apply (com_pair ro Hr).
    + apply (nsum_in so ro inj rho K Hr RL true); [intros d k; now apply (chs_K s)|apply chs_nodup|now apply chs_In].
    + apply (nsum_in so ro inj rho K Hr RL false); [intros d k; now apply (chs_K s)|apply chs_nodup|now apply chs_In].
  - apply (com_mul ro Hr).
    + apply (nsum_out so ro inj rho K Hr RL true); [now apply KF|intros d k; now apply (chs_K s)|now apply chs_out].
    + apply (nsum_out so ro inj rho K Hr RL false); [now apply KF|intros d k; now apply (chs_K s)|now apply chs_out].
Qed.
Lemma ccom_num s' i : s' <> NoLabel -> i < N -> com (inj one ⊗ (F true (idx i s') ⊗ (F false (idx i s') ⊗ r1 ro))).
Proof.
  intros h hi. apply (com_ext ro Hr) with (F true (idx i s') ⊗ F false (idx i s')); [rewrite (si_1 _ _ _ _ SI); non_commutative_ring|now apply ccom_hop].
Qed.
Lemma ccom_jump s' i j : s' <> NoLabel -> i < N -> j < N -> com (mr (jump s' i j)).
Proof.
  intros h hi hj. apply (com_ext ro Hr) with (F true (idx i s') ⊗ F false (idx j s')); [|now apply ccom_hop].
  cbn [jump meaning eval_mono]. rewrite (si_1 _ _ _ _ SI). non_commutative_ring.
Qed.
Lemma ch_com t mu U w g : com (mr (ch_p t mu U w g N)).
Proof.
  assert (nu : Up <> NoLabel) by discriminate. assert (nd : Down <> NoLabel) by discriminate.
  assert (M : forall x, com x -> com (inj one ⊗ (x ⊗ r1 ro))) by (intros x hx; apply (com_mul ro Hr); [apply ccom_inj|]; apply (com_mul ro Hr); [exact hx|apply (com_one ro Hr)]).
  unfold ch_p. apply (com_total ro inj rho Hr).
  { intros i h. apply in_seq in h. cbn [cg_p meaning eval_mono].
    apply (com_mul ro Hr); [apply (com_mul ro Hr); [apply ccom_inj|apply (com_add ro Hr); apply ccom_num; auto; lia]|apply (com_add ro Hr); apply M, ccom_boson; lia]. }
  apply (com_total ro inj rho Hr).
  { intros i h. apply in_seq in h. cbn [cw_p meaning eval_mono].
    apply (com_mul ro Hr); [apply (com_mul ro Hr); [apply ccom_inj|]|]; apply M, ccom_boson; lia. }
  apply (com_total ro inj rho Hr).
  { intros i h. apply in_seq in h. cbn [cu_p meaning eval_mono]. apply (com_mul ro Hr); [apply (com_mul ro Hr); [apply ccom_inj|]|]; apply ccom_num; auto; lia. }
  apply (com_total ro inj rho Hr).
  { intros i h. apply in_seq in h. cbn [cmu_p meaning eval_mono]. apply (com_mul ro Hr); [apply ccom_inj|]. apply (com_add ro Hr); apply ccom_num; auto; lia. }
  apply (com_total ro inj rho Hr); [|cbn [meaning]; apply ccom_inj].
  intros [s' i] h. apply links_In in h. cbn [fst snd] in h. destruct h as [h1 h2].
  change (com (inj (s_neg so t) ⊗ (mr (jump s' i (i + 1)) ⊕ mr (jump s' (i + 1) i)))).
  apply (com_mul ro Hr); [apply ccom_inj|]. apply (com_add ro Hr); apply ccom_jump; auto; lia.
Qed.
End Com.
Lemma cn_value s : mr (cn_p s N) == nsum (chs s).
Proof.
  unfold cn_p. rewrite (total_r ro inj rho Hr). change (mr (PConst (s_zero so))) with (inj (s_zero so)). rewrite (si_0 _ _ _ _ SI). unfold chs.
  clear KF KB. induction (seq 0 N) as [|i l IH]; [cbn; non_commutative_ring|]. cbn [msum fold_right map HolProofs.nsum]. fold (msum ro (fun a => mr (np s a)) l).
  fold (nsum (map (fun i => idx i s) l)).
  transitivity (mr (np s i) ⊕ (r0 ro ⊕ msum ro (fun a => mr (np s a)) l)); [non_commutative_ring|]. rewrite IH.
  cbn [meaning eval_mono]. rewrite (si_1 _ _ _ _ SI). unfold HolProofs.num. non_commutative_ring.
Qed.
Lemma cn_com s t mu U w g : s <> NoLabel -> mr (PSub (PMul (ch_p t mu U w g N) (cn_p s N)) (PMul (cn_p s N) (ch_p t mu U w g N))) == r0 ro.
Proof.
  intros hs. pose proof (ch_com s hs t mu U w g) as C1. unfold com in C1.
  change (mr (ch_p t mu U w g N) ⊗ mr (cn_p s N) ⊕ ropp ro (mr (cn_p s N) ⊗ mr (ch_p t mu U w g N)) == r0 ro).
  rewrite cn_value. set (X := mr (ch_p t mu U w g N)) in *. set (u := nsum (chs s)) in *. clearbody X u. rewrite C1. non_commutative_ring.
Qed.

(** the conjugate *)
Notation mo := (meaning (op_ring ro) (injc so inj) (rhoc rho)).
Lemma ch_herm t mu U w g : s_conj so t = t -> s_conj so mu = mu -> s_conj so U = U -> s_conj so w = w -> s_conj so g = g ->
  mo (ch_p t mu U w g N) == mr (ch_p t mu U w g N).
Proof.
  intros Et Em EU Ew Eg. pose proof (sneg_conj so D CL t Et) as En. pose proof (sneg_conj so D CL mu Em) as Enm.
  assert (I1 : injc so inj one == r1 ro) by (unfold injc; rewrite (sconj_1 so D CL); apply (si_1 _ _ _ _ SI)).
  assert (I0 : injc so inj (s_zero so) == inj (s_zero so)) by (unfold injc; rewrite (sconj_0 so D CL); reflexivity).
  pose proof (si_1 _ _ _ _ SI) as J1.
  assert (CS : forall x k, com ro (inj x) (rho k)) by (intros x k; unfold com; symmetry; apply (si_comm _ _ _ _ SI)).
  assert (CP : forall x k k', com ro (inj x) (rho k ⊗ rho k')) by (intros x k k'; apply (com_mul ro Hr); apply CS).
  assert (MN : forall s i, mr (np s i) == F true (idx i s) ⊗ F false (idx i s)) by (intros s i; cbn [meaning eval_mono]; rewrite J1; non_commutative_ring).
  assert (ON : forall s i, mo (np s i) == F true (idx i s) ⊗ F false (idx i s)).
  { intros s i. cbn [meaning eval_mono]. cbn [rmul r1 op_ring]. rewrite I1. unfold rhoc. cbn [gen_conj_gen negb]. non_commutative_ring. }
  assert (MJ : forall s i j, mr (jump s i j) == F true (idx i s) ⊗ F false (idx j s)) by (intros s i j; cbn [jump meaning eval_mono]; rewrite J1; non_commutative_ring).
  assert (OJ : forall s i j, mo (jump s i j) == F true (idx j s) ⊗ F false (idx i s)).
  { intros s i j. cbn [jump meaning eval_mono]. cbn [rmul r1 op_ring]. rewrite I1. unfold rhoc. cbn [gen_conj_gen negb]. non_commutative_ring. }
  assert (MB : forall d i, mr (mono1 (GBoson d (idx i NoLabel))) == rho (GBoson d (idx i NoLabel))) by (intros d i; cbn [meaning eval_mono]; rewrite J1; non_commutative_ring).
  assert (OB : forall d i, mo (mono1 (GBoson d (idx i NoLabel))) == rho (GBoson (negb d) (idx i NoLabel))).
  { intros d i. cbn [meaning eval_mono]. cbn [rmul r1 op_ring]. rewrite I1. unfold rhoc. cbn [gen_conj_gen]. non_commutative_ring. }
  unfold ch_p. rewrite !(total_r ro inj rho Hr), !(total_o so ro inj rho Hr). cbn [meaning]. rewrite I0.
  assert (E1 : msum ro (fun a => mo (chop_p t a)) (ch_links N) == msum ro (fun a => mr (chop_p t a)) (ch_links N)).
  { apply (msum_ext ro Hr). intros [s i] _.
    change ((mo (jump s i (i + 1)) ⊕ mo (jump s (i + 1) i)) ⊗ injc so inj (s_neg so t) == inj (s_neg so t) ⊗ (mr (jump s i (i + 1)) ⊕ mr (jump s (i + 1) i))).
    rewrite !OJ, !MJ. unfold injc. rewrite En. pose proof (com_add ro Hr _ _ _ (CP (s_neg so t) (GFermion true (idx i s)) (GFermion false (idx (i + 1) s))) (CP (s_neg so t) (GFermion true (idx (i + 1) s)) (GFermion false (idx i s)))) as C.
    unfold com in C. rewrite C. non_commutative_ring. }
  assert (E2 : msum ro (fun a => mo (cmu_p mu a)) (seq 0 N) == msum ro (fun a => mr (cmu_p mu a)) (seq 0 N)).
  { apply (msum_ext ro Hr). intros i _.
    change ((mo (np Up i) ⊕ mo (np Down i)) ⊗ injc so inj (s_neg so mu) == inj (s_neg so mu) ⊗ (mr (np Up i) ⊕ mr (np Down i))).
    rewrite !ON, !MN. unfold injc. rewrite Enm. symmetry. apply (com_add ro Hr); apply CP. }
  assert (E3 : msum ro (fun a => mo (cu_p U a)) (seq 0 N) == msum ro (fun a => mr (cu_p U a)) (seq 0 N)).
  { apply (msum_ext ro Hr). intros i h. apply in_seq in h.
    change (mo (np Down i) ⊗ (mo (np Up i) ⊗ injc so inj U) == inj U ⊗ mr (np Up i) ⊗ mr (np Down i)).
    rewrite !ON, !MN. unfold injc. rewrite EU.
    assert (ne : idx i Up <> idx i Down) by (intros E; apply IJ in E; destruct E; discriminate).
    assert (KD : forall d, K (GFermion d (idx i Down))) by (intros; apply KF; [discriminate|lia]).
    assert (KU : forall d, K (GFermion d (idx i Up))) by (intros; apply KF; [discriminate|lia]).
    assert (NC : com ro (F true (idx i Down) ⊗ F false (idx i Down)) (F true (idx i Up) ⊗ F false (idx i Up))).
    { apply (com_mul ro Hr); [exact (num_other so ro inj rho K Hr RL true _ _ (KU true) KD ne)|exact (num_other so ro inj rho K Hr RL false _ _ (KU false) KD ne)]. }
    pose proof (CP U (GFermion true (idx i Up)) (GFermion false (idx i Up))) as C1.
    pose proof (CP U (GFermion true (idx i Down)) (GFermion false (idx i Down))) as C2. unfold com in NC, C1, C2.
    set (p := F true (idx i Up) ⊗ F false (idx i Up)) in *. set (q := F true (idx i Down) ⊗ F false (idx i Down)) in *. clearbody p q.
    rewrite <- C1. transitivity ((q ⊗ inj U) ⊗ p); [non_commutative_ring|]. rewrite <- C2.
    transitivity (inj U ⊗ (q ⊗ p)); [non_commutative_ring|]. rewrite NC. non_commutative_ring. }
  assert (E4 : msum ro (fun a => mo (cw_p w a)) (seq 0 N) == msum ro (fun a => mr (cw_p w a)) (seq 0 N)).
  { apply (msum_ext ro Hr). intros i _.
    change (mo (mono1 (GBoson false (idx i NoLabel))) ⊗ (mo (mono1 (GBoson true (idx i NoLabel))) ⊗ injc so inj w)
            == inj w ⊗ mr (mono1 (GBoson true (idx i NoLabel))) ⊗ mr (mono1 (GBoson false (idx i NoLabel)))).
    rewrite !OB, !MB. unfold injc. rewrite Ew. cbn [negb].
    pose proof (CP w (GBoson true (idx i NoLabel)) (GBoson false (idx i NoLabel))) as C. unfold com in C.
    set (x := rho (GBoson true (idx i NoLabel))) in *. set (y := rho (GBoson false (idx i NoLabel))) in *. clearbody x y.
    transitivity (inj w ⊗ (x ⊗ y)); [rewrite C; non_commutative_ring|non_commutative_ring]. }
  assert (E5 : msum ro (fun a => mo (cg_p g a)) (seq 0 N) == msum ro (fun a => mr (cg_p g a)) (seq 0 N)).
  { apply (msum_ext ro Hr). intros i h. apply in_seq in h.
    change ((mo (mono1 (GBoson true (idx i NoLabel))) ⊕ mo (mono1 (GBoson false (idx i NoLabel)))) ⊗ ((mo (np Up i) ⊕ mo (np Down i)) ⊗ injc so inj g)
      == inj g ⊗ (mr (np Up i) ⊕ mr (np Down i)) ⊗ (mr (mono1 (GBoson true (idx i NoLabel))) ⊕ mr (mono1 (GBoson false (idx i NoLabel))))).
    rewrite !ON, !MN, !OB, !MB. unfold injc. rewrite Eg. cbn [negb].
    assert (FB : forall s d d', s <> NoLabel -> com ro (rho (GBoson d' (idx i NoLabel))) (F d (idx i s))).
    { intros s d d' hs. unfold com. symmetry. apply (kr_fb _ _ _ _ _ RL); [apply KF; auto; lia|apply KB; lia]. }
    assert (BS : forall d', com ro (rho (GBoson d' (idx i NoLabel))) (F true (idx i Up) ⊗ F false (idx i Up) ⊕ F true (idx i Down) ⊗ F false (idx i Down))).
    { intros d'. apply (com_add ro Hr); apply (com_mul ro Hr); apply FB; discriminate. }
    pose proof (com_add ro Hr _ _ _ (CP g (GFermion true (idx i Up)) (GFermion false (idx i Up))) (CP g (GFermion true (idx i Down)) (GFermion false (idx i Down)))) as CG.
    pose proof (CS g (GBoson true (idx i NoLabel))) as C1. pose proof (CS g (GBoson false (idx i NoLabel))) as C2.
    pose proof (BS true) as B1. pose proof (BS false) as B2. unfold com in CG, B1, B2, C1, C2.
    set (S := F true (idx i Up) ⊗ F false (idx i Up) ⊕ F true (idx i Down) ⊗ F false (idx i Down)) in *.
    set (x := rho (GBoson true (idx i NoLabel))) in *. set (y := rho (GBoson false (idx i NoLabel))) in *. clearbody S x y.
    rewrite <- CG. transitivity ((x ⊗ inj g) ⊗ S ⊕ (y ⊗ inj g) ⊗ S); [non_commutative_ring|]. rewrite <- C1, <- C2.
    transitivity (inj g ⊗ (x ⊗ S) ⊕ inj g ⊗ (y ⊗ S)); [non_commutative_ring|]. rewrite B1, B2. non_commutative_ring. }
  cbn [radd op_ring]. rewrite E1, E2, E3, E4, E5. reflexivity.
Qed.
End Ring.
End Ch.
