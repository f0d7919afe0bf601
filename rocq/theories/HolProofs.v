(** The Holstein Hamiltonian: value, conservation of the number of electrons *)
From Coq Require Import ZArith List Bool Lia Setoid Sorted Permutation Ncring Ncring_tac Cring.
From Verif Require Import ExprModel ExprSpec ExprOrder ExprMap ExprEval ExprStd ExprThrow ExprMain ExprInst ExprConj PropExpr PolyProofs
  ConvSpec FockSpec PropUnique PolySpec PolyExpr PolyOsc HolModel.
Import ListNotations.
Close Scope Z_scope.
Open Scope nat_scope.
Open Scope list_scope.

(** the lattice *)
Lemma lattice_In N i : In i (lattice N) <-> fst i < N /\ snd i < N.
Proof.
  unfold lattice. rewrite in_flat_map. split.
  - intros [x [hx h]]. apply in_map_iff in h. destruct h as [y [<- hy]]. apply in_seq in hx, hy. cbn. lia.
  - intros [h1 h2]. exists (fst i). split; [apply in_seq; lia|]. apply in_map_iff. exists (snd i). split; [now destruct i|apply in_seq; lia].
Qed.
Lemma flat_nodup {A B} (f : A -> list B) l : NoDup l -> (forall a, In a l -> NoDup (f a)) ->
  (forall a b x, In a l -> In b l -> In x (f a) -> In x (f b) -> a = b) -> NoDup (flat_map f l).
Proof.
  induction l as [|a l IH]; intros N F X; cbn; [constructor|]. inversion N as [|? ? na Nl]; subst.
  assert (K : NoDup (flat_map f l)) by (apply IH; auto; [intros; apply F; now right|intros b c x hb hc; apply X; now right]).
  assert (Y : forall x, In x (f a) -> ~ In x (flat_map f l)).
  { intros x hx h. apply in_flat_map in h. destruct h as [b [hb h]]. apply na. now rewrite (X a b x (or_introl eq_refl) (or_intror hb) hx h). }
  specialize (F a (or_introl eq_refl)). revert F Y. generalize (f a). induction l0 as [|y l0 IH0]; intros F Y; cbn; [exact K|].
  inversion F; subst. constructor; [|apply IH0; auto; intros x hx; apply Y; now right].
  intros h. apply in_app_iff in h. destruct h as [h|h]; [contradiction|]. exact (Y y (or_introl eq_refl) h).
Qed.
Lemma lattice_nodup N : NoDup (lattice N).
Proof.
  apply flat_nodup; [apply seq_NoDup| |].
  - intros a _. apply FinFun.Injective_map_NoDup; [intros x y E; now inversion E|apply seq_NoDup].
  - intros a b x _ _ h1 h2. apply in_map_iff in h1, h2. destruct h1 as [y [<- _]], h2 as [z [E _]]. now inversion E.
Qed.
Lemma orbitals_In N o : In o (orbitals N) <-> fst o <> NoLabel /\ In (snd o) (lattice N).
Proof.
  unfold orbitals. rewrite in_flat_map. split.
  - intros [s [hs h]]. apply in_map_iff in h. destruct h as [i [<- hi]]. cbn [fst snd]. split; [|exact hi]. destruct hs as [<-|[<-|[]]]; discriminate.
  - intros [h1 h2]. exists (fst o). split; [destruct (fst o); cbn; tauto|]. apply in_map_iff. exists (snd o). split; [now destruct o|exact h2].
Qed.
Lemma orbitals_nodup N : NoDup (orbitals N).
Proof.
  apply flat_nodup.
  - repeat constructor; cbn; intuition discriminate.
  - intros s _. apply FinFun.Injective_map_NoDup; [intros x y E; now inversion E|apply lattice_nodup].
  - intros s s' x _ _ h1 h2. apply in_map_iff in h1, h2. destruct h1 as [y [<- _]], h2 as [z [E _]]. now inversion E.
Qed.
Lemma bonds_In N s i j : In (s, (i, j)) (bonds N) <-> s <> NoLabel /\ In i (lattice N) /\ In j (lattice N) /\ bonded N i j = true.
Proof.
  unfold bonds. rewrite in_flat_map. split.
  - intros [s' [hs h]]. apply in_flat_map in h. destruct h as [i' [hi h]]. apply in_flat_map in h. destruct h as [j' [hj h]].
    destruct (bonded N i' j') eqn:E; [|destruct h]. destruct h as [h|[]]. inversion h; subst. split; auto. destruct hs as [<-|[<-|[]]]; discriminate.
  - intros (h1 & h2 & h3 & h4). exists s. split; [destruct s; cbn; tauto|]. apply in_flat_map. exists i. split; [exact h2|].
    apply in_flat_map. exists j. split; [exact h3|]. rewrite h4. now left.
Qed.


Section Hol.
Context {I T : Type} (io : index_ops I) (so : scalar_ops T) (Hio : index_order io) (D : scalar_domain so).
Notation go := (std_gen_ops io).
Let L := sd_laws _ D.
Notation one := (s_one so).

(** no generator of a spin *)
Definition plain (g : gen I) : Prop := match g with GSpin _ _ _ => False | _ => True end.
Lemma plain_simple B : Forall plain B -> Forall simple B.
Proof. intros H. eapply Forall_impl; [|exact H]. intros [d k|d k|m c k]; cbn; tauto. Qed.
Lemma plain_half B : Forall plain B -> half_if_spins so B.
Proof. rewrite Forall_forall. intros H m c k h. destruct (H _ h). Qed.
Lemma plain_sites B m : Forall plain B -> Forall (on_sites (map site_of B)) m -> Forall plain m.
Proof.
  intros H K. eapply Forall_impl; [|exact K]. intros g [h1 h2]. apply in_map_iff in h1. destruct h1 as [b [E h]].
  rewrite Forall_forall in H. specialize (H b h). destruct b as [d k|d k|mu c k], g as [d' k'|d' k'|mu' c' k']; cbn in *; try discriminate; auto.
Qed.
Lemma plain_Pe B e : Forall plain B -> built io so B e -> Pe not_half e.
Proof.
  intros H Bt m c k. eapply Forall_impl; [|apply (plain_sites B m H), (built_on io Hio so D B (plain_simple B H) e Bt m c k)].
  intros [d q|d q|mu cc q]; cbn; tauto.
Qed.
Lemma plain_total P : Forall plain (uses P) -> exists e, run go so P = Ok e.
Proof.
  pose proof (std_make_int io so L) as AM.
  induction P as [x|x m|a IHa b IHb|a IHa b IHb|a IHa b IHb|x a IHa|a IHa x|a IHa x]; cbn [uses run]; intros U;
    try (apply Forall_app in U as [Ua Ub]; destruct (IHa Ua) as [u Eu]; destruct (IHb Ub) as [v Ev]; rewrite Eu, Ev; cbn [rbind]);
    try (destruct (IHa U) as [u Eu]; rewrite Eu; cbn [rbind]); eauto.
  - apply (e_mono_total go so _ AM). eapply Forall_impl; [|exact U]. intros [d q|d q|mu cc q]; cbn; tauto.
  - apply (e_mul_total go so _ AM).
    + apply (plain_Pe (uses a)); [exact Ua|]. apply (run_built io so (uses a) a); [apply incl_refl|exact Eu].
    + apply (plain_Pe (uses b)); [exact Ub|]. apply (run_built io so (uses b) b); [apply incl_refl|exact Ev].
Qed.

(** a loop with += as one program *)
Definition total {A} (f : A -> prog (gen I) T) (l : list A) (P : prog (gen I) T) : prog (gen I) T := fold_left (fun Q a => PAdd Q (f a)) l P.
Lemma accumulate_run {A} (f : A -> prog (gen I) T) (term : A -> res (list (list (gen I) * T))) l :
  (forall a, term a = run go so (f a)) -> forall P h, run go so P = Ok h ->
  (forall a, exists e, term a = Ok e) ->
  accumulate io so l term h = run go so (total f l P).
Proof.
  intros F. induction l as [|a l IH]; intros P h E X; cbn [accumulate total fold_left]; [now rewrite E|].
  destruct (X a) as [e Ee]. rewrite Ee. cbn [rbind]. apply (IH (PAdd P (f a))); [|exact X]. cbn [run]. rewrite E, <- F, Ee. reflexivity.
Qed.
Lemma total_uses {A} (f : A -> prog (gen I) T) l : forall P, incl (uses P) (uses (total f l P)) /\ forall a, In a l -> incl (uses (f a)) (uses (total f l P)).
Proof.
  induction l as [|a l IH]; intros P; cbn [total fold_left]; [split; [apply incl_refl|intros ? []]|].
  destruct (IH (PAdd P (f a))) as [h1 h2]. cbn [uses] in h1. split.
  - intros x hx. apply h1. apply in_app_iff. now left.
  - intros b [<-|hb]; [intros x hx; apply h1; apply in_app_iff; now right|now apply h2].
Qed.
Lemma total_only {A} (f : A -> prog (gen I) T) (Q : gen I -> Prop) l : (forall a, In a l -> Forall Q (uses (f a))) -> forall P, Forall Q (uses P) -> Forall Q (uses (total f l P)).
Proof.
  induction l as [|a l IH]; intros F P U; cbn [total fold_left]; [exact U|]. apply IH; [intros b hb; apply F; now right|].
  cbn [uses]. apply Forall_app. split; [exact U|]. apply F. now left.
Qed.

(** programs *)
Context (idx : nat -> nat -> label -> I).
Notation "s @ i" := (at_ idx s i) (at level 20).
Notation mono1 g := (PMono one [g]).
Definition hop_p (t : T) (b : label * ((nat * nat) * (nat * nat))) : prog (gen I) T :=
  PMul (PScale (s_neg so t) (mono1 (GFermion true (fst b @ fst (snd b))))) (mono1 (GFermion false (fst b @ snd (snd b)))).
Definition ph_p (w : T) (i : nat * nat) : prog (gen I) T :=
  PMul (PScale w (mono1 (GBoson true (NoLabel @ i)))) (mono1 (GBoson false (NoLabel @ i))).
Definition n_p (o : label * (nat * nat)) : prog (gen I) T := PMono one [GFermion true (fst o @ snd o); GFermion false (fst o @ snd o)].
Definition eph_p (g : T) (o : label * (nat * nat)) : prog (gen I) T :=
  PMul (PScale g (n_p o)) (PAdd (mono1 (GBoson true (NoLabel @ snd o))) (mono1 (GBoson false (NoLabel @ snd o)))).
Definition ham_p (t w g : T) (N : nat) : prog (gen I) T :=
  PAdd (PAdd (total (hop_p t) (bonds N) (PConst (s_zero so))) (total (ph_p w) (lattice N) (PConst (s_zero so)))) (total (eph_p g) (orbitals N) (PConst (s_zero so))).
Definition ne_p (N : nat) : prog (gen I) T := total n_p (orbitals N) (PConst (s_zero so)).

Lemma run_zero : run go so (PConst (s_zero so)) = Ok [].
Proof. cbn [run]. unfold e_const. rewrite (proj2 (sl_is_zero so L _) eq_refl). reflexivity. Qed.
Lemma plain_ok P : Forall plain (uses P) -> exists e, run go so P = Ok e.
Proof. apply plain_total. Qed.
Lemma hop_run t b : hopping io so idx t b = run go so (hop_p t b).
Proof.
  unfold hopping, factory. cbn [run hop_p].
  destruct (plain_ok (mono1 (GFermion true (fst b @ fst (snd b))))) as [x Ex]; [repeat constructor|].
  destruct (plain_ok (mono1 (GFermion false (fst b @ snd (snd b))))) as [y Ey]; [repeat constructor|].
  cbn [run] in Ex, Ey. rewrite Ex, Ey. reflexivity.
Qed.
Lemma ph_run w i : phonon io so idx w i = run go so (ph_p w i).
Proof.
  unfold phonon, factory. cbn [run ph_p].
  destruct (plain_ok (mono1 (GBoson true (NoLabel @ i)))) as [x Ex]; [repeat constructor|].
  destruct (plain_ok (mono1 (GBoson false (NoLabel @ i)))) as [y Ey]; [repeat constructor|].
  cbn [run] in Ex, Ey. rewrite Ex, Ey. reflexivity.
Qed.
Lemma eph_run g o : coupling io so idx g o = run go so (eph_p g o).
Proof.
  unfold coupling, factory, factory_n. cbn [run eph_p n_p].
  destruct (plain_ok (n_p o)) as [n En]; [repeat constructor|].
  destruct (plain_ok (mono1 (GBoson true (NoLabel @ snd o)))) as [x Ex]; [repeat constructor|].
  destruct (plain_ok (mono1 (GBoson false (NoLabel @ snd o)))) as [y Ey]; [repeat constructor|].
  cbn [run n_p] in En, Ex, Ey. rewrite En, Ex, Ey. reflexivity.
Qed.
Lemma hop_plain t b : Forall plain (uses (hop_p t b)).
Proof. repeat constructor. Qed.
Lemma ph_plain w i : Forall plain (uses (ph_p w i)).
Proof. repeat constructor. Qed.
Lemma n_plain o : Forall plain (uses (n_p o)).
Proof. repeat constructor. Qed.
Lemma eph_plain g o : Forall plain (uses (eph_p g o)).
Proof. repeat constructor. Qed.
Lemma ham_plain t w g N : Forall plain (uses (ham_p t w g N)).
Proof.
  cbn [ham_p uses]. apply Forall_app. split; [apply Forall_app; split|]; apply total_only; try (cbn [uses]; apply Forall_nil); intros; [apply hop_plain|apply ph_plain|apply eph_plain].
Qed.
Lemma ne_plain N : Forall plain (uses (ne_p N)).
Proof. apply total_only; [intros; apply n_plain|cbn [uses]; apply Forall_nil]. Qed.
Lemma ham_run t w g N : holstein io so idx t w g N = run go so (ham_p t w g N).
Proof.
  unfold holstein. cbn [ham_p run].
  rewrite (accumulate_run (hop_p t) (hopping io so idx t) (bonds N) (hop_run t) _ _ run_zero) by (intros a; rewrite hop_run; apply plain_total, hop_plain).
  rewrite (accumulate_run (ph_p w) (phonon io so idx w) (lattice N) (ph_run w) _ _ run_zero) by (intros a; rewrite ph_run; apply plain_total, ph_plain).
  rewrite (accumulate_run (eph_p g) (coupling io so idx g) (orbitals N) (eph_run g) _ _ run_zero) by (intros a; rewrite eph_run; apply plain_total, eph_plain).
  destruct (plain_total (total (hop_p t) (bonds N) (PConst (s_zero so)))) as [x Ex]; [apply total_only; [intros; apply hop_plain|cbn [uses]; apply Forall_nil]|].
  destruct (plain_total (total (ph_p w) (lattice N) (PConst (s_zero so)))) as [y Ey]; [apply total_only; [intros; apply ph_plain|cbn [uses]; apply Forall_nil]|].
  destruct (plain_total (total (eph_p g) (orbitals N) (PConst (s_zero so)))) as [z Ez]; [apply total_only; [intros; apply eph_plain|cbn [uses]; apply Forall_nil]|].
  rewrite Ex, Ey, Ez. reflexivity.
Qed.
Lemma ne_run N : electrons io so idx N = run go so (ne_p N).
Proof.
  unfold electrons. apply accumulate_run; [reflexivity|apply run_zero|]. intros a. apply (plain_total (n_p a)), n_plain.
Qed.

(** the number of electrons in a ring with the relations *)
Section Ring.
Context {R : Type} (ro : ring_ops R) (inj : T -> R) (rho : gen I -> R) (K : gen I -> Prop).
Context (Hr : is_ring ro) (SI : scalar_image so ro inj rho) (RL : relations_on K so ro inj rho).
Local Instance opsH : @Ring_ops R (r0 ro) (r1 ro) (radd ro) (rmul ro) (rsub ro) (ropp ro) (req ro) := nc_ops ro.
Local Instance ringH : @Ring _ _ _ _ _ _ _ _ opsH := nc_ring ro Hr.
Local Instance eqH : Equivalence (req ro) := ri_equiv _ Hr.
Local Instance addH : Morphisms.Proper (Morphisms.respectful (req ro) (Morphisms.respectful (req ro) (req ro))) (radd ro) := ri_add_ext _ Hr.
Local Instance mulH : Morphisms.Proper (Morphisms.respectful (req ro) (Morphisms.respectful (req ro) (req ro))) (rmul ro) := ri_mul_ext _ Hr.
Local Instance oppH : Morphisms.Proper (Morphisms.respectful (req ro) (req ro)) (ropp ro) := ri_opp_ext _ Hr.
Local Notation "x == y" := (req ro x y) (at level 70) : type_scope.
Notation "x ⊕ y" := (radd ro x y) (at level 50, left associativity).
Notation "x ⊗ y" := (rmul ro x y) (at level 40, left associativity).
Notation F d k := (rho (GFermion d k)).

Definition num (k : I) : R := F true k ⊗ F false k.
Definition nsum (ks : list I) : R := fold_right (fun k x => num k ⊕ x) (r0 ro) ks.
Definition shift (d : bool) (x : R) : R := if d then x else ropp ro x.

Lemma num_other d k k' : K (GFermion d k) -> (forall d', K (GFermion d' k')) -> k <> k' -> num k' ⊗ F d k == F d k ⊗ num k'.
Proof.
  intros h h' n0. unfold num.
  pose proof (kr_c_anti _ _ _ _ _ RL d true k k' h (h' true) n0) as A1. pose proof (kr_c_anti _ _ _ _ _ RL d false k k' h (h' false) n0) as A2.
  transitivity (ropp ro (F true k' ⊗ ropp ro (F false k' ⊗ F d k))); [non_commutative_ring|]. rewrite <- A2.
  transitivity (ropp ro (F true k' ⊗ F d k) ⊗ F false k'); [non_commutative_ring|]. rewrite <- A1. non_commutative_ring.
Qed.
Lemma num_same d k : (forall d', K (GFermion d' k)) -> num k ⊗ F d k == F d k ⊗ num k ⊕ shift d (F d k).
Proof.
  intros h. unfold num, shift. pose proof (kr_c_sq _ _ _ _ _ RL d k (h d)) as Q. pose proof (kr_c_cdag _ _ _ _ _ RL k (h false) (h true)) as E.
  destruct d.
  - assert (X : F false k ⊗ F true k == r1 ro ⊕ ropp ro (F true k ⊗ F false k)).
    { transitivity ((F false k ⊗ F true k ⊕ F true k ⊗ F false k) ⊕ ropp ro (F true k ⊗ F false k)); [non_commutative_ring|]. now rewrite E. }
    transitivity (F true k ⊗ (F false k ⊗ F true k)); [non_commutative_ring|]. rewrite X.
    transitivity (F true k ⊕ ropp ro ((F true k ⊗ F true k) ⊗ F false k)); [non_commutative_ring|]. symmetry.
    transitivity ((F true k ⊗ F true k) ⊗ F false k ⊕ F true k); [non_commutative_ring|]. rewrite Q. non_commutative_ring.
  - assert (X : F false k ⊗ F true k == r1 ro ⊕ ropp ro (F true k ⊗ F false k)).
    { transitivity ((F false k ⊗ F true k ⊕ F true k ⊗ F false k) ⊕ ropp ro (F true k ⊗ F false k)); [non_commutative_ring|]. now rewrite E. }
    transitivity (F true k ⊗ (F false k ⊗ F false k)); [non_commutative_ring|]. rewrite Q. symmetry.
    transitivity ((F false k ⊗ F true k) ⊗ F false k ⊕ ropp ro (F false k)); [non_commutative_ring|]. rewrite X.
    transitivity (ropp ro (F true k ⊗ (F false k ⊗ F false k))); [non_commutative_ring|]. rewrite Q. non_commutative_ring.
Qed.
Lemma nsum_out d k ks : K (GFermion d k) -> (forall d' k', In k' ks -> K (GFermion d' k')) -> ~ In k ks -> nsum ks ⊗ F d k == F d k ⊗ nsum ks.
Proof.
  intros h. induction ks as [|q ks IH]; intros A n0; cbn [nsum fold_right]; [non_commutative_ring|]. fold (nsum ks).
  assert (E1 : num q ⊗ F d k == F d k ⊗ num q) by (apply num_other; [exact h|intros; apply A; now left|intros ->; apply n0; now left]).
  assert (E2 : nsum ks ⊗ F d k == F d k ⊗ nsum ks) by (apply IH; [intros; apply A; now right|intros ?; apply n0; now right]).
  transitivity (num q ⊗ F d k ⊕ nsum ks ⊗ F d k); [non_commutative_ring|]. rewrite E1, E2. non_commutative_ring.
Qed.
Lemma nsum_in d k ks : (forall d' k', In k' ks -> K (GFermion d' k')) -> NoDup ks -> In k ks -> nsum ks ⊗ F d k == F d k ⊗ nsum ks ⊕ shift d (F d k).
Proof.
  induction ks as [|q ks IH]; intros A nd i; cbn [nsum fold_right]; [destruct i|]. fold (nsum ks). inversion nd as [|? ? nq nk]; subst.
  transitivity (num q ⊗ F d k ⊕ nsum ks ⊗ F d k); [non_commutative_ring|].
  destruct i as [->|i].
  - assert (E1 := num_same d k (fun d' => A d' k (or_introl eq_refl))).
    assert (E2 : nsum ks ⊗ F d k == F d k ⊗ nsum ks) by (apply nsum_out; auto; [apply A; now left|intros; apply A; now right]).
    rewrite E1, E2. non_commutative_ring.
  - assert (E1 : num q ⊗ F d k == F d k ⊗ num q) by (apply num_other; [apply A; now right|intros; apply A; now left|intros ->; contradiction]).
    assert (E2 : nsum ks ⊗ F d k == F d k ⊗ nsum ks ⊕ shift d (F d k)) by (apply IH; auto; intros; apply A; now right).
    rewrite E1, E2. non_commutative_ring.
Qed.

(** commuting with n *)
Section Com.
Context (n : R).
Definition com (x : R) : Prop := n ⊗ x == x ⊗ n.
Lemma com_ext x y : x == y -> com x -> com y.
Proof. unfold com. intros E h. now rewrite <- E. Qed.
Lemma com_add x y : com x -> com y -> com (x ⊕ y).
Proof. unfold com. intros h1 h2. transitivity (n ⊗ x ⊕ n ⊗ y); [non_commutative_ring|]. rewrite h1, h2. non_commutative_ring. Qed.
Lemma com_mul x y : com x -> com y -> com (x ⊗ y).
Proof.
  unfold com. intros h1 h2. transitivity ((n ⊗ x) ⊗ y); [non_commutative_ring|]. rewrite h1.
  transitivity (x ⊗ (n ⊗ y)); [non_commutative_ring|]. rewrite h2. non_commutative_ring.
Qed.
Lemma com_one : com (r1 ro).
Proof. unfold com. non_commutative_ring. Qed.
Lemma com_zero : com (r0 ro).
Proof. unfold com. non_commutative_ring. Qed.
Lemma com_pair x y : n ⊗ x == x ⊗ n ⊕ x -> n ⊗ y == y ⊗ n ⊕ ropp ro y -> com (x ⊗ y).
Proof.
  unfold com. intros h1 h2. transitivity ((n ⊗ x) ⊗ y); [non_commutative_ring|]. rewrite h1.
  transitivity (x ⊗ (n ⊗ y) ⊕ x ⊗ y); [non_commutative_ring|]. rewrite h2. non_commutative_ring.
Qed.
Lemma com_total {A} (f : A -> prog (gen I) T) l : (forall a, In a l -> com (meaning ro inj rho (f a))) ->
  forall P, com (meaning ro inj rho P) -> com (meaning ro inj rho (total f l P)).
Proof.
  induction l as [|a l IH]; intros h P hP; cbn [total fold_left]; [exact hP|]. apply IH; [intros; apply h; now right|].
  cbn [meaning]. apply com_add; [exact hP|]. apply h. now left.
Qed.
End Com.

Lemma n_total l : forall P, meaning ro inj rho (total n_p l P) == meaning ro inj rho P ⊕ nsum (map (fun o => fst o @ snd o) l).
Proof.
  induction l as [|o l IH]; intros P; cbn [total fold_left map nsum fold_right]; [non_commutative_ring|].
  fold (nsum (map (fun o => fst o @ snd o) l)). fold (total n_p l (PAdd P (n_p o))). rewrite IH. cbn [meaning n_p eval_mono]. rewrite (si_1 _ _ _ _ SI). unfold num. non_commutative_ring.
Qed.
Definition occ (N : nat) : list I := map (fun o => fst o @ snd o) (orbitals N).
Lemma ne_value N : meaning ro inj rho (ne_p N) == nsum (occ N).
Proof. unfold ne_p. rewrite n_total. cbn [meaning]. rewrite (si_0 _ _ _ _ SI). fold (occ N). non_commutative_ring. Qed.

Context (N : nat) (Inj : NoDup (occ N)) (KF : forall d k, In k (occ N) -> K (GFermion d k)) (KB : forall d i, In i (lattice N) -> K (GBoson d (NoLabel @ i))).
Notation n := (nsum (occ N)).
Lemma com_sum y ks : (forall d k, In k ks -> com y (F d k)) -> com (nsum ks) y.
Proof.
  induction ks as [|k ks IH]; intros h; cbn [nsum fold_right]; [unfold com; non_commutative_ring|]. fold (nsum ks).
  assert (E1 := com_mul y _ _ (h true k (or_introl eq_refl)) (h false k (or_introl eq_refl))).
  assert (E2 : com (nsum ks) y) by (apply IH; intros; apply h; now right).
  unfold com in *. transitivity (F true k ⊗ F false k ⊗ y ⊕ nsum ks ⊗ y); [unfold num; non_commutative_ring|]. rewrite <- E1, E2. unfold num. non_commutative_ring.
Qed.
Lemma com_inj x : com n (inj x).
Proof. apply com_sum. intros d k _. unfold com. symmetry. apply (si_comm _ _ _ _ SI). Qed.
Lemma com_boson d i : In i (lattice N) -> com n (rho (GBoson d (NoLabel @ i))).
Proof. intros h. apply com_sum. intros d' k hk. unfold com. symmetry. apply (kr_fb _ _ _ _ _ RL); [now apply KF|now apply KB]. Qed.
Lemma com_hop k k' : In k (occ N) -> In k' (occ N) -> com n (F true k ⊗ F false k').
Proof. intros h h'. apply com_pair; [exact (nsum_in true k _ (fun d q hq => KF d q hq) Inj h)|exact (nsum_in false k' _ (fun d q hq => KF d q hq) Inj h')]. Qed.
Lemma occ_In s i : s <> NoLabel -> In i (lattice N) -> In (s @ i) (occ N).
Proof. intros h1 h2. apply in_map_iff. exists (s, i). split; [reflexivity|]. apply orbitals_In. cbn. auto. Qed.

Lemma ham_com t w g : com n (meaning ro inj rho (ham_p t w g N)).
Proof.
  assert (Z : com n (meaning ro inj rho (PConst (s_zero so)))) by (cbn [meaning]; apply com_inj).
  assert (M : forall x, com n x -> com n (inj one ⊗ (x ⊗ r1 ro))) by (intros x hx; apply com_mul; [apply com_inj|]; apply com_mul; [exact hx|apply com_one]).
  cbn [ham_p meaning]. apply com_add; [apply com_add|]; apply com_total; try exact Z.
  - intros [s [i j]] h. apply bonds_In in h. destruct h as (h1 & h2 & h3 & _). cbn [hop_p meaning eval_mono fst snd].
    apply com_ext with (inj (s_neg so t) ⊗ (F true (s @ i) ⊗ F false (s @ j))).
    + rewrite (si_1 _ _ _ _ SI). non_commutative_ring.
    + apply com_mul; [apply com_inj|]. apply com_hop; now apply occ_In.
  - intros i h. cbn [ph_p meaning eval_mono]. apply com_mul; [apply com_mul; [apply com_inj|]|]; apply M, com_boson, h.
  - intros [s i] h. apply orbitals_In in h. cbn [fst snd] in h. destruct h as [h1 h2]. cbn [eph_p n_p meaning eval_mono fst snd].
    apply com_mul; [apply com_mul; [apply com_inj|]|apply com_add; apply M, com_boson, h2].
    apply com_ext with (F true (s @ i) ⊗ F false (s @ i)); [rewrite (si_1 _ _ _ _ SI); non_commutative_ring|]. apply com_hop; now apply occ_In.
Qed.
Lemma commutator_value t w g :
  meaning ro inj rho (PSub (PMul (ham_p t w g N) (ne_p N)) (PMul (ne_p N) (ham_p t w g N))) == r0 ro.
Proof.
  change (meaning ro inj rho (ham_p t w g N) ⊗ meaning ro inj rho (ne_p N) ⊕ ropp ro (meaning ro inj rho (ne_p N) ⊗ meaning ro inj rho (ham_p t w g N)) == r0 ro).
  rewrite ne_value. pose proof (ham_com t w g) as C. unfold com in C. rewrite C. non_commutative_ring.
Qed.

(** the Hermitian conjugate: the value in the opposite ring *)
Section Herm.
Context (CL : conj_laws so).
Notation mr := (meaning ro inj rho).
Notation mo := (meaning (op_ring ro) (injc so inj) (rhoc rho)).
Definition msum {A} (v : A -> R) (l : list A) : R := fold_right (fun a x => v a ⊕ x) (r0 ro) l.
Lemma total_r {A} (f : A -> prog (gen I) T) l : forall P, mr (total f l P) == mr P ⊕ msum (fun a => mr (f a)) l.
Proof.
  induction l as [|a l IH]; intros P; cbn [total fold_left msum fold_right]; [non_commutative_ring|].
  fold (msum (fun b => mr (f b)) l). fold (total f l (PAdd P (f a))). rewrite IH. cbn [meaning]. non_commutative_ring.
Qed.
Lemma total_o {A} (f : A -> prog (gen I) T) l : forall P, mo (total f l P) == mo P ⊕ msum (fun a => mo (f a)) l.
Proof.
  induction l as [|a l IH]; intros P; cbn [total fold_left msum fold_right]; [non_commutative_ring|].
  fold (msum (fun b => mo (f b)) l). fold (total f l (PAdd P (f a))). rewrite IH. cbn [meaning]. cbn [radd op_ring]. non_commutative_ring.
Qed.
Lemma msum_ext {A} (u v : A -> R) l : (forall a, In a l -> u a == v a) -> msum u l == msum v l.
Proof.
  induction l as [|a l IH]; intros h; cbn [msum fold_right]; [reflexivity|]. fold (msum u l). fold (msum v l).
  rewrite (h a (or_introl eq_refl)), IH; [reflexivity|intros; apply h; now right].
Qed.
Lemma msum_perm {A} (v : A -> R) l l' : Permutation l l' -> msum v l == msum v l'.
Proof.
  induction 1; cbn [msum fold_right]; try reflexivity.
  - fold (msum v l). fold (msum v l'). now rewrite IHPermutation.
  - fold (msum v l). non_commutative_ring.
  - now transitivity (msum v l').
Qed.
Lemma msum_map {A B} (v : B -> R) (f : A -> B) l : msum v (map f l) = msum (fun a => v (f a)) l.
Proof. induction l as [|a l IH]; [reflexivity|]. cbn [map msum fold_right]. unfold msum in IH. now rewrite IH. Qed.

Definition swap (b : label * ((nat * nat) * (nat * nat))) := (fst b, (snd (snd b), fst (snd b))).
Lemma bonds_nodup : NoDup (bonds N).
Proof.
  apply flat_nodup; [repeat constructor; cbn; intuition discriminate| |].
  - intros s _. apply flat_nodup; [apply lattice_nodup| |].
    + intros i _. apply flat_nodup; [apply lattice_nodup| |].
      * intros j _. destruct (bonded N i j); repeat constructor; intros [].
      * intros j j' x _ _ h1 h2. destruct (bonded N i j), (bonded N i j'); cbn in h1, h2; try tauto. destruct h1 as [<-|[]], h2 as [h2|[]]. now inversion h2.
    + intros i i' x _ _ h1 h2. apply in_flat_map in h1, h2. destruct h1 as [j [_ h1]], h2 as [j' [_ h2]].
      destruct (bonded N i j), (bonded N i' j'); cbn in h1, h2; try tauto. destruct h1 as [<-|[]], h2 as [h2|[]]. now inversion h2.
  - intros s s' x _ _ h1 h2. apply in_flat_map in h1, h2. destruct h1 as [i [_ h1]], h2 as [i' [_ h2]]. apply in_flat_map in h1, h2.
    destruct h1 as [j [_ h1]], h2 as [j' [_ h2]].
    destruct (bonded N i j), (bonded N i' j'); cbn in h1, h2; try tauto. destruct h1 as [<-|[]], h2 as [h2|[]]. now inversion h2.
Qed.
Lemma neighbors_sym i j : neighbors N i j = neighbors N j i.
Proof. unfold neighbors, distance. now rewrite (Nat.add_comm (i - j)). Qed.
Lemma bonded_sym i j : bonded N i j = bonded N j i.
Proof. unfold bonded. now rewrite (neighbors_sym (fst i)), (neighbors_sym (snd i)), (Nat.eqb_sym (fst i)), (Nat.eqb_sym (snd i)). Qed.
Lemma swap_bonds : Permutation (bonds N) (map swap (bonds N)).
Proof.
  apply NoDup_Permutation; [apply bonds_nodup| |].
  - apply FinFun.Injective_map_NoDup; [|apply bonds_nodup]. intros [s [i j]] [s' [i' j']] E. now inversion E.
  - intros [s [i j]]. rewrite in_map_iff. split.
    + intros h. exists (s, (j, i)). split; [reflexivity|]. apply bonds_In. apply bonds_In in h. rewrite bonded_sym. tauto.
    + intros [[s' [i' j']] [E h]]. inversion E; subst. apply bonds_In. apply bonds_In in h. rewrite bonded_sym. tauto.
Qed.

Lemma sneg_conj t : s_conj so t = t -> s_conj so (s_neg so t) = s_neg so t.
Proof.
  intros E. assert (Q : s_add so (s_conj so (s_neg so t)) t = s_zero so).
  { rewrite <- E at 2. rewrite <- (cl_add _ CL), (sl_add_comm so L), (sl_neg so L). apply (sconj_0 so D CL). }
  set (c := s_conj so (s_neg so t)) in *.
  transitivity (s_add so c (s_add so t (s_neg so t))); [now rewrite (sl_neg so L), (sl_add_comm so L), (sl_add_0 so L)|].
  rewrite (sl_add_assoc so L), Q. apply (sl_add_0 so L).
Qed.
Lemma com_si x g : inj x ⊗ rho g == rho g ⊗ inj x.
Proof. symmetry. apply (si_comm _ _ _ _ SI). Qed.

Lemma ham_herm t w g : s_conj so t = t -> s_conj so w = w -> s_conj so g = g -> mo (ham_p t w g N) == mr (ham_p t w g N).
Proof.
  intros Et Ew Eg. pose proof (sneg_conj t Et) as En.
  assert (I1 : injc so inj one == r1 ro) by (unfold injc; rewrite (sconj_1 so D CL); apply (si_1 _ _ _ _ SI)).
  assert (I0 : injc so inj (s_zero so) == inj (s_zero so)) by (unfold injc; rewrite (sconj_0 so D CL); reflexivity).
  pose proof (si_1 _ _ _ _ SI) as J1.
  cbn [ham_p meaning]. cbn [radd op_ring]. rewrite !total_r, !total_o. cbn [meaning]. rewrite I0.
  assert (E1 : msum (fun a => mo (hop_p t a)) (bonds N) == msum (fun a => mr (hop_p t a)) (bonds N)).
  { transitivity (msum (fun a => mr (hop_p t a)) (map swap (bonds N))); [|symmetry; apply msum_perm, swap_bonds]. rewrite msum_map. apply msum_ext. intros [s [i j]] _. cbn [swap hop_p fst snd meaning eval_mono].
    cbn [rmul r1 op_ring]. rewrite I1, J1. unfold injc, rhoc. rewrite En. cbn [gen_conj_gen negb].
    pose proof (com_si (s_neg so t) (GFermion true (s @ j))) as C1. pose proof (com_si (s_neg so t) (GFermion false (s @ i))) as C2.
    transitivity (F true (s @ j) ⊗ (F false (s @ i) ⊗ inj (s_neg so t))); [non_commutative_ring|]. rewrite <- C2.
    transitivity ((F true (s @ j) ⊗ inj (s_neg so t)) ⊗ F false (s @ i)); [non_commutative_ring|]. rewrite <- C1. non_commutative_ring. }
  assert (E2 : msum (fun a => mo (ph_p w a)) (lattice N) == msum (fun a => mr (ph_p w a)) (lattice N)).
  { apply msum_ext. intros i _. cbn [ph_p meaning eval_mono]. cbn [rmul r1 op_ring]. rewrite I1, J1. unfold injc, rhoc. rewrite Ew. cbn [gen_conj_gen negb].
    pose proof (com_si w (GBoson true (NoLabel @ i))) as C1. pose proof (com_si w (GBoson false (NoLabel @ i))) as C2.
    set (x := rho (GBoson true (NoLabel @ i))) in *. set (y := rho (GBoson false (NoLabel @ i))) in *.
    transitivity (x ⊗ (y ⊗ inj w)); [non_commutative_ring|]. rewrite <- C2. transitivity ((x ⊗ inj w) ⊗ y); [non_commutative_ring|]. rewrite <- C1. non_commutative_ring. }
  assert (E3 : msum (fun a => mo (eph_p g a)) (orbitals N) == msum (fun a => mr (eph_p g a)) (orbitals N)).
  { apply msum_ext. intros [s i] h. apply orbitals_In in h. cbn [fst snd] in h. destruct h as [h1 h2]. cbn [eph_p n_p meaning eval_mono fst snd]. cbn [rmul radd r1 op_ring].
    rewrite I1, J1. unfold injc, rhoc. rewrite Eg. cbn [gen_conj_gen negb].
    pose proof (com_si g (GBoson true (NoLabel @ i))) as C1. pose proof (com_si g (GBoson false (NoLabel @ i))) as C2.
    pose proof (com_si g (GFermion true (s @ i))) as C3. pose proof (com_si g (GFermion false (s @ i))) as C4.
    assert (FB : forall d d', F d (s @ i) ⊗ rho (GBoson d' (NoLabel @ i)) == rho (GBoson d' (NoLabel @ i)) ⊗ F d (s @ i)).
    { intros d d'. apply (kr_fb _ _ _ _ _ RL); [apply KF; now apply occ_In|now apply KB]. }
    set (x := rho (GBoson true (NoLabel @ i))) in *. set (y := rho (GBoson false (NoLabel @ i))) in *.
    set (p := F true (s @ i)) in *. set (q := F false (s @ i)) in *. set (z := x ⊕ y).
    assert (Zp : z ⊗ p == p ⊗ z).
    { unfold z. transitivity (x ⊗ p ⊕ y ⊗ p); [non_commutative_ring|]. unfold x, y, p. rewrite <- !FB. non_commutative_ring. }
    assert (Zq : z ⊗ q == q ⊗ z).
    { unfold z. transitivity (x ⊗ q ⊕ y ⊗ q); [non_commutative_ring|]. unfold x, y, q. rewrite <- !FB. non_commutative_ring. }
    assert (Gz : inj g ⊗ z == z ⊗ inj g).
    { unfold z. transitivity (inj g ⊗ x ⊕ inj g ⊗ y); [non_commutative_ring|]. rewrite C1, C2. non_commutative_ring. }
    transitivity (z ⊗ p ⊗ q ⊗ inj g); [unfold z; non_commutative_ring|]. rewrite Zp.
    transitivity (p ⊗ (z ⊗ q) ⊗ inj g); [non_commutative_ring|]. rewrite Zq.
    transitivity (p ⊗ q ⊗ (z ⊗ inj g)); [non_commutative_ring|]. rewrite <- Gz.
    transitivity (p ⊗ (q ⊗ inj g) ⊗ z); [non_commutative_ring|]. rewrite <- C4.
    transitivity ((p ⊗ inj g) ⊗ q ⊗ z); [non_commutative_ring|]. rewrite <- C3. unfold z. non_commutative_ring. }
  rewrite E1, E2, E3. reflexivity.
Qed.
End Herm.
End Ring.
End Hol.
