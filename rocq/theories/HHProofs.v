(** The Hubbard-Holstein Hamiltonian: value, conserved quantities, conjugate *)
From Coq Require Import ZArith List Bool Lia Setoid Sorted Permutation Ncring Ncring_tac Cring.
From Verif Require Import ExprModel ExprSpec ExprOrder ExprMap ExprEval ExprStd ExprThrow ExprMain ExprInst ExprConj PropExpr PolyProofs
  ConvSpec FockSpec PropUnique PolySpec PolyExpr PolyOsc HolModel HolProofs HHModel.
Import ListNotations.
Close Scope Z_scope.
Open Scope nat_scope.
Open Scope list_scope.

(** the lattice *)
Lemma hh_lattice_In Nx Ny i : In i (hh_lattice Nx Ny) <-> fst i < Nx /\ snd i < Ny.
Proof.
  unfold hh_lattice. rewrite in_flat_map. split.
  - intros [x [hx h]]. apply in_map_iff in h. destruct h as [y [<- hy]]. apply in_seq in hx, hy. cbn. lia.
  - intros [h1 h2]. exists (fst i). split; [apply in_seq; lia|]. apply in_map_iff. exists (snd i). split; [now destruct i|apply in_seq; lia].
Qed.
Lemma hh_lattice_nodup Nx Ny : NoDup (hh_lattice Nx Ny).
Proof.
  apply flat_nodup; [apply seq_NoDup| |].
  - intros a _. apply FinFun.Injective_map_NoDup; [intros x y E; now inversion E|apply seq_NoDup].
  - intros a b x _ _ h1 h2. apply in_map_iff in h1, h2. destruct h1 as [y [<- _]], h2 as [z [E _]]. now inversion E.
Qed.
Section Lists.
Context (Nx Ny : nat).
Notation lat := (hh_lattice Nx Ny).
Lemma hh_orbitals_In o : In o (hh_orbitals Nx Ny) <-> fst o <> NoLabel /\ In (snd o) lat.
Proof.
  unfold hh_orbitals. rewrite in_flat_map. split.
  - intros [s [hs h]]. apply in_map_iff in h. destruct h as [i [<- hi]]. cbn [fst snd]. split; [|exact hi]. destruct hs as [<-|[<-|[]]]; discriminate.
  - intros [h1 h2]. exists (fst o). split; [destruct (fst o); cbn; tauto|]. apply in_map_iff. exists (snd o). split; [now destruct o|exact h2].
Qed.
Lemma hh_orbitals_nodup : NoDup (hh_orbitals Nx Ny).
Proof.
  apply flat_nodup.
  - repeat constructor; cbn; intuition discriminate.
  - intros s _. apply FinFun.Injective_map_NoDup; [intros x y E; now inversion E|apply hh_lattice_nodup].
  - intros s s' x _ _ h1 h2. apply in_map_iff in h1, h2. destruct h1 as [y [<- _]], h2 as [z [E _]]. now inversion E.
Qed.
Lemma hh_bonds_In s i j : In (s, (i, j)) (hh_bonds Nx Ny) <-> s <> NoLabel /\ In i lat /\ In j lat /\ hh_bonded Nx Ny i j = true.
Proof.
  unfold hh_bonds. rewrite in_flat_map. split.
  - intros [s' [hs h]]. apply in_flat_map in h. destruct h as [i' [hi h]]. apply in_flat_map in h. destruct h as [j' [hj h]].
    destruct (hh_bonded Nx Ny i' j') eqn:E; [|destruct h]. destruct h as [h|[]]. inversion h; subst. split; auto. destruct hs as [<-|[<-|[]]]; discriminate.
  - intros (h1 & h2 & h3 & h4). exists s. split; [destruct s; cbn; tauto|]. apply in_flat_map. exists i. split; [exact h2|].
    apply in_flat_map. exists j. split; [exact h3|]. rewrite h4. now left.
Qed.
Lemma hh_bonds_nodup : NoDup (hh_bonds Nx Ny).
Proof.
  apply flat_nodup; [repeat constructor; cbn; intuition discriminate| |].
  - intros s _. apply flat_nodup; [apply hh_lattice_nodup| |].
    + intros i _. apply flat_nodup; [apply hh_lattice_nodup| |].
      * intros j _. destruct (hh_bonded Nx Ny i j); repeat constructor; intros [].
      * intros j j' x _ _ h1 h2. destruct (hh_bonded Nx Ny i j), (hh_bonded Nx Ny i j'); cbn in h1, h2; try tauto. destruct h1 as [<-|[]], h2 as [h2|[]]. now inversion h2.
    + intros i i' x _ _ h1 h2. apply in_flat_map in h1, h2. destruct h1 as [j [_ h1]], h2 as [j' [_ h2]].
      destruct (hh_bonded Nx Ny i j), (hh_bonded Nx Ny i' j'); cbn in h1, h2; try tauto. destruct h1 as [<-|[]], h2 as [h2|[]]. now inversion h2.
  - intros s s' x _ _ h1 h2. apply in_flat_map in h1, h2. destruct h1 as [i [_ h1]], h2 as [i' [_ h2]]. apply in_flat_map in h1, h2.
    destruct h1 as [j [_ h1]], h2 as [j' [_ h2]].
    destruct (hh_bonded Nx Ny i j), (hh_bonded Nx Ny i' j'); cbn in h1, h2; try tauto. destruct h1 as [<-|[]], h2 as [h2|[]]. now inversion h2.
Qed.
Lemma hh_neighbors_sym N i j : hh_neighbors N i j = hh_neighbors N j i.
Proof. unfold hh_neighbors, distance. now rewrite (Nat.add_comm (i - j)). Qed.
Lemma hh_bonded_sym i j : hh_bonded Nx Ny i j = hh_bonded Nx Ny j i.
Proof. unfold hh_bonded. now rewrite (hh_neighbors_sym _ (fst i)), (hh_neighbors_sym _ (snd i)), (Nat.eqb_sym (fst i)), (Nat.eqb_sym (snd i)). Qed.
Lemma hh_swap_bonds : Permutation (hh_bonds Nx Ny) (map swap (hh_bonds Nx Ny)).
Proof.
  apply NoDup_Permutation; [apply hh_bonds_nodup| |].
  - apply FinFun.Injective_map_NoDup; [|apply hh_bonds_nodup]. intros [s [i j]] [s' [i' j']] E. now inversion E.
  - intros [s [i j]]. rewrite in_map_iff. split.
    + intros h. exists (s, (j, i)). split; [reflexivity|]. apply hh_bonds_In. apply hh_bonds_In in h. rewrite hh_bonded_sym. tauto.
    + intros [[s' [i' j']] [E h]]. inversion E; subst. apply hh_bonds_In. apply hh_bonds_In in h. rewrite hh_bonded_sym. tauto.
Qed.
End Lists.

Section HH.
Context {I T : Type} (io : index_ops I) (so : scalar_ops T) (Hio : index_order io) (D : scalar_domain so).
Context (idx : nat -> nat -> label -> I).
Notation go := (std_gen_ops io).
Let L := sd_laws _ D.
Notation one := (s_one so).
Notation "s @ i" := (at_ idx s i) (at level 20).
Notation mono1 g := (PMono one [g]).
Notation np s i := (PMono one [GFermion true (s @ i); GFermion false (s @ i)]).
Definition u_p (U : T) (i : nat * nat) : prog (gen I) T := PMul (PScale U (np Up i)) (np Down i).
Definition b_p (i : nat * nat) : prog (gen I) T := PMul (mono1 (GBoson true (NoLabel @ i))) (mono1 (GBoson false (NoLabel @ i))).
Definition nn_p (i : nat * nat) : prog (gen I) T := PAdd (np Up i) (np Down i).
Definition sz_p (h : T) (i : nat * nat) : prog (gen I) T := PScale h (PSub (np Up i) (np Down i)).
Definition hh_p (t U g : T) (Nx Ny : nat) : prog (gen I) T :=
  total (eph_p so idx g) (hh_orbitals Nx Ny) (total b_p (hh_lattice Nx Ny) (total (u_p U) (hh_lattice Nx Ny)
    (total (hop_p so idx t) (hh_bonds Nx Ny) (PConst (s_zero so))))).
Definition hn_p (Nx Ny : nat) : prog (gen I) T := total nn_p (hh_lattice Nx Ny) (PConst (s_zero so)).
Definition hs_p (h : T) (Nx Ny : nat) : prog (gen I) T := total (sz_p h) (hh_lattice Nx Ny) (PConst (s_zero so)).

Lemma u_run U i : coulomb io so idx U i = run go so (u_p U i).
Proof.
  unfold coulomb, factory_n. cbn [run u_p].
  destruct (plain_total io so Hio D (np Up i)) as [x Ex]; [repeat constructor|].
  destruct (plain_total io so Hio D (np Down i)) as [y Ey]; [repeat constructor|].
  cbn [run] in Ex, Ey. rewrite Ex, Ey. reflexivity.
Qed.
Lemma b_run i : hh_phonon io so idx i = run go so (b_p i).
Proof.
  unfold hh_phonon, factory. cbn [run b_p].
  destruct (plain_total io so Hio D (mono1 (GBoson true (NoLabel @ i)))) as [x Ex]; [repeat constructor|].
  destruct (plain_total io so Hio D (mono1 (GBoson false (NoLabel @ i)))) as [y Ey]; [repeat constructor|].
  cbn [run] in Ex, Ey. rewrite Ex, Ey. reflexivity.
Qed.
Lemma hh_plain t U g Nx Ny : Forall plain (uses (hh_p t U g Nx Ny)).
Proof.
  unfold hh_p. apply total_only; [intros; repeat constructor|]. apply total_only; [intros; repeat constructor|].
  apply total_only; [intros; repeat constructor|]. apply total_only; [intros; repeat constructor|]. cbn [uses]. apply Forall_nil.
Qed.
Lemma hn_plain Nx Ny : Forall plain (uses (hn_p Nx Ny)).
Proof. apply total_only; [intros; repeat constructor|cbn [uses]; apply Forall_nil]. Qed.
Lemma hs_plain h Nx Ny : Forall plain (uses (hs_p h Nx Ny)).
Proof. apply total_only; [intros; repeat constructor|cbn [uses]; apply Forall_nil]. Qed.
Lemma hh_run t U g Nx Ny : hubbard_holstein io so idx t U g Nx Ny = run go so (hh_p t U g Nx Ny).
Proof.
  unfold hubbard_holstein, hh_p.
  set (P1 := total (hop_p so idx t) (hh_bonds Nx Ny) (PConst (s_zero so))). set (P2 := total (u_p U) (hh_lattice Nx Ny) P1). set (P3 := total b_p (hh_lattice Nx Ny) P2).
  assert (U1 : Forall plain (uses P1)) by (apply total_only; [intros; repeat constructor|cbn [uses]; apply Forall_nil]).
  assert (U2 : Forall plain (uses P2)) by (apply total_only; [intros; repeat constructor|exact U1]).
  assert (U3 : Forall plain (uses P3)) by (apply total_only; [intros; repeat constructor|exact U2]).
  destruct (plain_total io so Hio D P1 U1) as [x Ex]. destruct (plain_total io so Hio D P2 U2) as [y Ey]. destruct (plain_total io so Hio D P3 U3) as [z Ez].
  rewrite (accumulate_run io so (hop_p so idx t) (hopping io so idx t) _ (hop_run io so Hio D idx t) _ _ (run_zero io so D))
    by (intros a; rewrite (hop_run io so Hio D); apply (plain_total io so Hio D); repeat constructor).
  fold P1. rewrite Ex. cbn [rbind].
  rewrite (accumulate_run io so (u_p U) (coulomb io so idx U) _ (u_run U) _ _ Ex) by (intros a; rewrite u_run; apply (plain_total io so Hio D); repeat constructor).
  fold P2. rewrite Ey. cbn [rbind].
  rewrite (accumulate_run io so b_p (hh_phonon io so idx) _ b_run _ _ Ey) by (intros a; rewrite b_run; apply (plain_total io so Hio D); repeat constructor).
  fold P3. rewrite Ez. cbn [rbind].
  apply accumulate_run; [apply (eph_run io so Hio D)|exact Ez|]. intros a; rewrite (eph_run io so Hio D); apply (plain_total io so Hio D); repeat constructor.
Qed.
Lemma hn_run Nx Ny : hh_number io so idx Nx Ny = run go so (hn_p Nx Ny).
Proof.
  unfold hh_number. apply accumulate_run; [reflexivity|apply (run_zero io so D)|]. intros a. apply (plain_total io so Hio D (nn_p a)). repeat constructor.
Qed.
Lemma hs_run h Nx Ny : hh_spin io so idx h Nx Ny = run go so (hs_p h Nx Ny).
Proof.
  unfold hh_spin. apply (accumulate_run io so (sz_p h)).
  - intros i. unfold factory_n. cbn [run sz_p]. destruct (e_mono go so one [GFermion true (Up @ i); GFermion false (Up @ i)]); cbn [rbind]; auto.
    destruct (e_mono go so one [GFermion true (Down @ i); GFermion false (Down @ i)]); reflexivity.
  - apply (run_zero io so D).
  - intros i. destruct (plain_total io so Hio D (np Up i)) as [x Ex]; [repeat constructor|].
    destruct (plain_total io so Hio D (np Down i)) as [y Ey]; [repeat constructor|].
    cbn [run] in Ex, Ey. unfold factory_n. rewrite Ex. cbn [rbind]. rewrite Ey. cbn [rbind]. eauto.
Qed.

Section Ring.
Context {R : Type} (ro : ring_ops R) (inj : T -> R) (rho : gen I -> R) (K : gen I -> Prop).
Context (Hr : is_ring ro) (SI : scalar_image so ro inj rho) (RL : relations_on K so ro inj rho).
Local Instance opsHH : @Ring_ops R (r0 ro) (r1 ro) (radd ro) (rmul ro) (rsub ro) (ropp ro) (req ro) := nc_ops ro.
Local Instance ringHH : @Ring _ _ _ _ _ _ _ _ opsHH := nc_ring ro Hr.
Local Instance eqHH : Equivalence (req ro) := ri_equiv _ Hr.
Local Instance addHH : Morphisms.Proper (Morphisms.respectful (req ro) (Morphisms.respectful (req ro) (req ro))) (radd ro) := ri_add_ext _ Hr.
Local Instance mulHH : Morphisms.Proper (Morphisms.respectful (req ro) (Morphisms.respectful (req ro) (req ro))) (rmul ro) := ri_mul_ext _ Hr.
Local Instance oppHH : Morphisms.Proper (Morphisms.respectful (req ro) (req ro)) (ropp ro) := ri_opp_ext _ Hr.
Local Notation "x == y" := (req ro x y) (at level 70) : type_scope.
Local Notation "x ⊕ y" := (radd ro x y) (at level 50, left associativity).
Local Notation "x ⊗ y" := (rmul ro x y) (at level 40, left associativity).
Notation F d k := (rho (GFermion d k)).
Notation mr := (meaning ro inj rho).
Notation num := (num ro rho).
Notation nsum := (nsum ro rho).
Context (Nx Ny : nat).
Notation lat := (hh_lattice Nx Ny).
Context (IJ : forall x y s x' y' s', idx x y s = idx x' y' s' -> x = x' /\ y = y' /\ s = s').
Context (KF : forall d s i, s <> NoLabel -> In i lat -> K (GFermion d (s @ i))) (KB : forall d i, In i lat -> K (GBoson d (NoLabel @ i))).
(** the orbitals with the spin projection s *)
Definition occs (s : label) : list I := map (fun i => s @ i) lat.
Lemma at_inj s i s' i' : s @ i = s' @ i' -> s = s' /\ i = i'.
Proof. destruct i, i'. unfold at_. intros E. apply IJ in E. cbn in E. destruct E as (E1 & E2 & E3). subst. auto. Qed.
Lemma occs_nodup s : NoDup (occs s).
Proof. apply FinFun.Injective_map_NoDup; [|apply hh_lattice_nodup]. intros i j E. now apply at_inj in E. Qed.
Lemma occs_K s d k : s <> NoLabel -> In k (occs s) -> K (GFermion d k).
Proof. intros h hk. apply in_map_iff in hk. destruct hk as [i [<- hi]]. now apply KF. Qed.
Lemma occs_out s s' i : s <> s' -> ~ In (s' @ i) (occs s).
Proof. intros h hk. apply in_map_iff in hk. destruct hk as [j [E _]]. apply at_inj in E. now destruct E. Qed.

Section Com.
Context (s : label) (hs : s <> NoLabel).
Notation n := (nsum (occs s)).
Notation com := (com ro n).
Lemma hcom_inj x : com (inj x).
Proof. apply (com_sum ro rho Hr). intros d k _. unfold HolProofs.com. symmetry. apply (si_comm _ _ _ _ SI). Qed.
Lemma hcom_boson d i : In i lat -> com (rho (GBoson d (NoLabel @ i))).
Proof. intros h. apply (com_sum ro rho Hr). intros d' k hk. unfold HolProofs.com. symmetry. apply (kr_fb _ _ _ _ _ RL); [now apply (occs_K s)|now apply KB]. Qed.
Lemma label_dec (a b : label) : {a = b} + {a <> b}.
Proof. decide equality. Qed.
Lemma hcom_hop s' i j : s' <> NoLabel -> In i lat -> In j lat -> com (F true (s' @ i) ⊗ F false (s' @ j)).
Proof.
  intros h hi hj. destruct (label_dec s s') as [<-|ne].
  - apply (com_pair ro Hr).
    + apply (nsum_in so ro inj rho K Hr RL true); [intros d k; now apply (occs_K s)|apply occs_nodup|now apply (in_map (fun i => s @ i))].
    + apply (nsum_in so ro inj rho K Hr RL false); [intros d k; now apply (occs_K s)|apply occs_nodup|now apply (in_map (fun i => s @ i))].
  - apply (com_mul ro Hr).
    + apply (nsum_out so ro inj rho K Hr RL true); [now apply KF|intros d k; now apply (occs_K s)|now apply occs_out].
    + apply (nsum_out so ro inj rho K Hr RL false); [now apply KF|intros d k; now apply (occs_K s)|now apply occs_out].
Qed.
Lemma hcom_num s' i : s' <> NoLabel -> In i lat -> com (inj one ⊗ (F true (s' @ i) ⊗ (F false (s' @ i) ⊗ r1 ro))).
Proof.
  intros h hi. apply (com_ext ro Hr) with (F true (s' @ i) ⊗ F false (s' @ i)); [rewrite (si_1 _ _ _ _ SI); non_commutative_ring|now apply hcom_hop].
Qed.
Lemma hh_com t U g : com (mr (hh_p t U g Nx Ny)).
Proof.
  assert (M : forall x, com x -> com (inj one ⊗ (x ⊗ r1 ro))) by (intros x hx; apply (com_mul ro Hr); [apply hcom_inj|]; apply (com_mul ro Hr); [exact hx|apply (com_one ro Hr)]).
  unfold hh_p. apply (com_total ro inj rho Hr).
  { intros [s' i] h. apply hh_orbitals_In in h. cbn [fst snd] in h. destruct h as [h1 h2]. cbn [eph_p n_p meaning eval_mono fst snd].
    apply (com_mul ro Hr); [apply (com_mul ro Hr); [apply hcom_inj|now apply hcom_num]|apply (com_add ro Hr); apply M, hcom_boson, h2]. }
  apply (com_total ro inj rho Hr).
  { intros i h. cbn [b_p meaning eval_mono]. apply (com_mul ro Hr); apply M, hcom_boson, h. }
  apply (com_total ro inj rho Hr).
  { intros i h. cbn [u_p meaning eval_mono]. apply (com_mul ro Hr); [apply (com_mul ro Hr); [apply hcom_inj|]|]; now apply hcom_num. }
  apply (com_total ro inj rho Hr); [|cbn [meaning]; apply hcom_inj].
  intros [s' [i j]] h. apply hh_bonds_In in h. destruct h as (h1 & h2 & h3 & _). cbn [hop_p meaning eval_mono fst snd].
  apply (com_ext ro Hr) with (inj (s_neg so t) ⊗ (F true (s' @ i) ⊗ F false (s' @ j))).
  - rewrite (si_1 _ _ _ _ SI). non_commutative_ring.
  - apply (com_mul ro Hr); [apply hcom_inj|]. now apply hcom_hop.
Qed.
End Com.

Lemma hn_value : mr (hn_p Nx Ny) == nsum (occs Up) ⊕ nsum (occs Down).
Proof.
  unfold hn_p. rewrite (total_r ro inj rho Hr). cbn [meaning]. rewrite (si_0 _ _ _ _ SI). unfold occs.
  clear KF KB. induction lat as [|i l IH]; [cbn; non_commutative_ring|]. cbn [msum fold_right map HolProofs.nsum]. fold (msum ro (fun a => mr (nn_p a)) l).
  fold (nsum (map (fun i => Up @ i) l)). fold (nsum (map (fun i => Down @ i) l)).
  transitivity (mr (nn_p i) ⊕ (r0 ro ⊕ msum ro (fun a => mr (nn_p a)) l)); [non_commutative_ring|]. rewrite IH.
  cbn [nn_p meaning eval_mono]. rewrite (si_1 _ _ _ _ SI). unfold HolProofs.num. non_commutative_ring.
Qed.
Lemma hs_value h : mr (hs_p h Nx Ny) == inj h ⊗ (nsum (occs Up) ⊕ ropp ro (nsum (occs Down))).
Proof.
  unfold hs_p. rewrite (total_r ro inj rho Hr). cbn [meaning]. rewrite (si_0 _ _ _ _ SI). unfold occs.
  clear KF KB. induction lat as [|i l IH]; [cbn; non_commutative_ring|]. cbn [msum fold_right map HolProofs.nsum]. fold (msum ro (fun a => mr (sz_p h a)) l).
  fold (nsum (map (fun i => Up @ i) l)). fold (nsum (map (fun i => Down @ i) l)).
  transitivity (mr (sz_p h i) ⊕ (r0 ro ⊕ msum ro (fun a => mr (sz_p h a)) l)); [non_commutative_ring|]. rewrite IH.
  cbn [sz_p meaning eval_mono]. rewrite (si_1 _ _ _ _ SI). unfold HolProofs.num. non_commutative_ring.
Qed.
Lemma hn_com t U g : mr (PSub (PMul (hh_p t U g Nx Ny) (hn_p Nx Ny)) (PMul (hn_p Nx Ny) (hh_p t U g Nx Ny))) == r0 ro.
Proof.
  assert (nu : Up <> NoLabel) by discriminate. assert (nd : Down <> NoLabel) by discriminate.
  pose proof (hh_com Up nu t U g) as C1. pose proof (hh_com Down nd t U g) as C2. unfold com in C1, C2.
  change (mr (hh_p t U g Nx Ny) ⊗ mr (hn_p Nx Ny) ⊕ ropp ro (mr (hn_p Nx Ny) ⊗ mr (hh_p t U g Nx Ny)) == r0 ro).
  rewrite hn_value. set (X := mr (hh_p t U g Nx Ny)) in *. set (u := nsum (occs Up)) in *. set (d := nsum (occs Down)) in *. clearbody X u d.
  transitivity (X ⊗ u ⊕ X ⊗ d ⊕ ropp ro (u ⊗ X ⊕ d ⊗ X)); [non_commutative_ring|]. rewrite C1, C2. non_commutative_ring.
Qed.
Lemma total_inj {A} (f : A -> prog (gen I) T) l y : (forall a, In a l -> com ro (inj y) (mr (f a))) ->
  forall P, com ro (inj y) (mr P) -> com ro (inj y) (mr (total f l P)).
Proof. intros h P. apply (com_total ro inj rho Hr). exact h. Qed.
Lemma gen_inj y g : com ro (inj y) (rho g).
Proof. unfold com. symmetry. apply (si_comm _ _ _ _ SI). Qed.
(** a scalar that commutes with the scalars of H commutes with H *)
Lemma scal_com y t U g : (forall x, inj y ⊗ inj x == inj x ⊗ inj y) -> com ro (inj y) (mr (hh_p t U g Nx Ny)).
Proof.
  intros S. assert (M : forall x a, com ro (inj y) x -> com ro (inj y) (inj a ⊗ (x ⊗ r1 ro))).
  { intros x a hx. apply (com_mul ro Hr); [apply S|]. apply (com_mul ro Hr); [exact hx|apply (com_one ro Hr)]. }
  assert (M2 : forall g1 g2 : gen I, com ro (inj y) (inj one ⊗ (rho g1 ⊗ (rho g2 ⊗ r1 ro)))).
  { intros g1 g2. apply (com_mul ro Hr); [apply S|]. apply (com_mul ro Hr); [apply gen_inj|]. apply (com_mul ro Hr); [apply gen_inj|apply (com_one ro Hr)]. }
  unfold hh_p. apply total_inj.
  { intros a _. cbn [eph_p n_p meaning eval_mono]. apply (com_mul ro Hr); [apply (com_mul ro Hr); [apply S|apply M2]|apply (com_add ro Hr); apply M, gen_inj]. }
  apply total_inj.
  { intros a _. cbn [b_p meaning eval_mono]. apply (com_mul ro Hr); apply M, gen_inj. }
  apply total_inj.
  { intros a _. cbn [u_p meaning eval_mono]. apply (com_mul ro Hr); [apply (com_mul ro Hr); [apply S|apply M2]|apply M2]. }
  apply total_inj; [|cbn [meaning]; apply S].
  intros a _. cbn [hop_p meaning eval_mono]. apply (com_mul ro Hr); [apply (com_mul ro Hr); [apply S|apply M, gen_inj]|apply M, gen_inj].
Qed.
Lemma hs_com h t U g : (forall x, inj h ⊗ inj x == inj x ⊗ inj h) ->
  mr (PSub (PMul (hh_p t U g Nx Ny) (hs_p h Nx Ny)) (PMul (hs_p h Nx Ny) (hh_p t U g Nx Ny))) == r0 ro.
Proof.
  intros S. pose proof (scal_com h t U g S) as C3.
  assert (nu : Up <> NoLabel) by discriminate. assert (nd : Down <> NoLabel) by discriminate.
  pose proof (hh_com Up nu t U g) as C1. pose proof (hh_com Down nd t U g) as C2. unfold com in C1, C2, C3.
  change (mr (hh_p t U g Nx Ny) ⊗ mr (hs_p h Nx Ny) ⊕ ropp ro (mr (hs_p h Nx Ny) ⊗ mr (hh_p t U g Nx Ny)) == r0 ro).
  rewrite hs_value. set (X := mr (hh_p t U g Nx Ny)) in *. set (u := nsum (occs Up)) in *. set (d := nsum (occs Down)) in *. clearbody X u d.
  transitivity ((X ⊗ inj h) ⊗ (u ⊕ ropp ro d) ⊕ ropp ro (inj h ⊗ (u ⊗ X ⊕ ropp ro (d ⊗ X)))); [non_commutative_ring|]. rewrite C1, C2, <- C3. non_commutative_ring.
Qed.

(** the conjugate *)
Section Herm.
Context (CL : conj_laws so).
Notation mo := (meaning (op_ring ro) (injc so inj) (rhoc rho)).
Lemma hh_herm t U g : s_conj so t = t -> s_conj so U = U -> s_conj so g = g -> mo (hh_p t U g Nx Ny) == mr (hh_p t U g Nx Ny).
Proof.
  intros Et EU Eg. pose proof (sneg_conj so D CL t Et) as En.
  assert (I1 : injc so inj one == r1 ro) by (unfold injc; rewrite (sconj_1 so D CL); apply (si_1 _ _ _ _ SI)).
  assert (I0 : injc so inj (s_zero so) == inj (s_zero so)) by (unfold injc; rewrite (sconj_0 so D CL); reflexivity).
  pose proof (si_1 _ _ _ _ SI) as J1. pose proof (com_si so ro inj rho Hr SI) as CS.
  unfold hh_p. rewrite !(total_r ro inj rho Hr), !(total_o so ro inj rho Hr). cbn [meaning]. rewrite I0.
  assert (E1 : msum ro (fun a => mo (hop_p so idx t a)) (hh_bonds Nx Ny) == msum ro (fun a => mr (hop_p so idx t a)) (hh_bonds Nx Ny)).
  { transitivity (msum ro (fun a => mr (hop_p so idx t a)) (map swap (hh_bonds Nx Ny))); [|symmetry; apply (msum_perm ro Hr), hh_swap_bonds].
    rewrite msum_map. apply (msum_ext ro Hr). intros [s [i j]] _. cbn [swap hop_p fst snd meaning eval_mono].
    cbn [rmul r1 op_ring]. rewrite I1, J1. unfold injc, rhoc. rewrite En. cbn [gen_conj_gen negb].
    pose proof (CS (s_neg so t) (GFermion true (s @ j))) as C1. pose proof (CS (s_neg so t) (GFermion false (s @ i))) as C2.
    transitivity (F true (s @ j) ⊗ (F false (s @ i) ⊗ inj (s_neg so t))); [non_commutative_ring|]. rewrite <- C2.
    transitivity ((F true (s @ j) ⊗ inj (s_neg so t)) ⊗ F false (s @ i)); [non_commutative_ring|]. rewrite <- C1. non_commutative_ring. }
  assert (E2 : msum ro (fun a => mo (u_p U a)) lat == msum ro (fun a => mr (u_p U a)) lat).
  { apply (msum_ext ro Hr). intros i hi. cbn [u_p meaning eval_mono]. cbn [rmul r1 op_ring]. rewrite I1, J1. unfold injc, rhoc. rewrite EU. cbn [gen_conj_gen negb].
    assert (ne : Up @ i <> Down @ i) by (intros E; apply at_inj in E; destruct E; discriminate).
    assert (KD : forall d, K (GFermion d (Down @ i))) by (intros; apply KF; [discriminate|exact hi]).
    assert (KU : forall d, K (GFermion d (Up @ i))) by (intros; apply KF; [discriminate|exact hi]).
    pose proof (num_other so ro inj rho K Hr RL true (Up @ i) (Down @ i) (KU true) KD ne) as N1.
    pose proof (num_other so ro inj rho K Hr RL false (Up @ i) (Down @ i) (KU false) KD ne) as N2. unfold HolProofs.num in N1, N2.
    pose proof (CS U (GFermion true (Up @ i))) as C1. pose proof (CS U (GFermion false (Up @ i))) as C2.
    pose proof (CS U (GFermion true (Down @ i))) as C3. pose proof (CS U (GFermion false (Down @ i))) as C4.
    set (p := F true (Up @ i)) in *. set (q := F false (Up @ i)) in *. set (r := F true (Down @ i)) in *. set (s := F false (Down @ i)) in *.
    transitivity ((r ⊗ s ⊗ p) ⊗ q ⊗ inj U); [non_commutative_ring|]. rewrite N1.
    transitivity (p ⊗ (r ⊗ s ⊗ q) ⊗ inj U); [non_commutative_ring|]. rewrite N2.
    transitivity (p ⊗ q ⊗ r ⊗ (s ⊗ inj U)); [non_commutative_ring|]. rewrite <- C4.
    transitivity (p ⊗ q ⊗ (r ⊗ inj U) ⊗ s); [non_commutative_ring|]. rewrite <- C3.
    transitivity (p ⊗ (q ⊗ inj U) ⊗ r ⊗ s); [non_commutative_ring|]. rewrite <- C2.
    transitivity ((p ⊗ inj U) ⊗ q ⊗ r ⊗ s); [non_commutative_ring|]. rewrite <- C1. non_commutative_ring. }
  assert (E3 : msum ro (fun a => mo (b_p a)) lat == msum ro (fun a => mr (b_p a)) lat).
  { apply (msum_ext ro Hr). intros i _. cbn [b_p meaning eval_mono]. cbn [rmul r1 op_ring]. rewrite I1, J1. unfold rhoc. cbn [gen_conj_gen negb]. non_commutative_ring. }
  assert (E4 : msum ro (fun a => mo (eph_p so idx g a)) (hh_orbitals Nx Ny) == msum ro (fun a => mr (eph_p so idx g a)) (hh_orbitals Nx Ny)).
  { apply (msum_ext ro Hr). intros [s i] h. apply hh_orbitals_In in h. cbn [fst snd] in h. destruct h as [h1 h2]. cbn [eph_p n_p meaning eval_mono fst snd]. cbn [rmul radd r1 op_ring].
    rewrite I1, J1. unfold injc, rhoc. rewrite Eg. cbn [gen_conj_gen negb].
    pose proof (CS g (GBoson true (NoLabel @ i))) as C1. pose proof (CS g (GBoson false (NoLabel @ i))) as C2.
    pose proof (CS g (GFermion true (s @ i))) as C3. pose proof (CS g (GFermion false (s @ i))) as C4.
    assert (FB : forall d d', F d (s @ i) ⊗ rho (GBoson d' (NoLabel @ i)) == rho (GBoson d' (NoLabel @ i)) ⊗ F d (s @ i)).
    { intros d d'. apply (kr_fb _ _ _ _ _ RL); [now apply KF|now apply KB]. }
    set (x := rho (GBoson true (NoLabel @ i))) in *. set (y := rho (GBoson false (NoLabel @ i))) in *.
    set (p := F true (s @ i)) in *. set (q := F false (s @ i)) in *. set (z := x ⊕ y).
    assert (Zp : z ⊗ p == p ⊗ z).
    { unfold z. transitivity (x ⊗ p ⊕ y ⊗ p); [non_commutative_ring|]. unfold x, y, p. rewrite <- !FB. non_commutative_ring. }
    assert (Zq : z ⊗ q == q ⊗ z).
    { unfold z. transitivity (x ⊗ q ⊕ y ⊗ q); [non_commutative_ring|]. unfold x, y, q. rewrite <- !FB. non_commutative_ring. }
    assert (Gz : inj g ⊗ z == z ⊗ inj g).
    { unfold z. transitivity (inj g ⊗ x ⊕ inj g ⊗ y); [non_commutative_ring|]. rewrite C1, C2. non_commutative_ring. }
    transitivity (z ⊗ p ⊗ q ⊗ inj g); [unfold z; non_commutative_ring|]. rewrite Zp.
    transitivity (p ⊗ (z ⊗ q) ⊗ inj g); [non_commutative_ring|]. rewrite Zq.
    transitivity (p ⊗ q ⊗ (z ⊗ inj g)); [non_commutative_ring|]. rewrite <- Gz.
    transitivity (p ⊗ (q ⊗ inj g) ⊗ z); [non_commutative_ring|]. rewrite <- C4.
    transitivity ((p ⊗ inj g) ⊗ q ⊗ z); [non_commutative_ring|]. rewrite <- C3. unfold z. non_commutative_ring. }
  cbn [radd op_ring]. rewrite E1, E2, E3, E4. reflexivity.
Qed.
End Herm.
End Ring.
End HH.
