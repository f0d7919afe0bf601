(** * Property C15: the relations between factory operators.
    Vocabulary: ExprSpec.v. *)
From Coq Require Import String ZArith Bool Lia QArith Qcanon List Sorted Setoid Morphisms.
From Verif Require Import ExprModel ExprSpec ExprOrder ExprMap ExprEval ExprStd ExprCanon ExprMain
  ExprHom ExprMerge ExprThrow ExprInst.
Import ListNotations.
Close Scope Qc_scope.
Close Scope Q_scope.
Close Scope string_scope.
Open Scope nat_scope.
Open Scope list_scope.

(** ** C15: the relations of the factory operators, as stored expressions *)
Definition commutator_is {G S} (o : gen_ops G) (so : scalar_ops S) (x y r : @emap G S) : Prop :=
  exists p q, e_mul o so x y = Ok p /\ e_mul o so y x = Ok q /\ e_sub o so p q = r.
Definition anticommutator_is {G S} (o : gen_ops G) (so : scalar_ops S) (x y r : @emap G S) : Prop :=
  exists p q, e_mul o so x y = Ok p /\ e_mul o so y x = Ok q /\ e_add o so p q = r.
(** the expression 1*g *)
Definition gen_expr {I S} (so : scalar_ops S) (g : gen I) : @emap (gen I) S := [([g], s_one so)].

Section C15.
Context {I S : Type} (io : index_ops I) (so : scalar_ops S) (Hio : index_order io) (D : scalar_domain so).
Notation O := (std_gen_ops io).
Notation X := (gen_expr (I:=I) so).
Notation one := (s_one so).
Let L := sd_laws _ D.

Lemma mk_1 : s_make so (VInt 1) = Some one.
Proof. rewrite (sl_make_int _ L). simpl. now rewrite (s_add_0_r so L). Qed.
Lemma mk_m1 : s_make so (VInt (-1)) = Some (s_neg so one).
Proof. rewrite (sl_make_int _ L). simpl. now rewrite (s_add_0_r so L). Qed.
Lemma mk_0 : s_make so (VInt 0) = Some (s_zero so).
Proof. rewrite (sl_make_int _ L). reflexivity. Qed.
Lemma mk_m2 : s_make so (VInt (-2)) = Some (s_neg so (s_add so one one)).
Proof. rewrite (sl_make_int _ L). simpl. now rewrite (s_add_0_r so L). Qed.
Lemma one_nz : s_is_zero so one = false.
Proof. apply (s_is_zero_false so L). apply (sd_const _ D (VInt 1)); auto using mk_1. Qed.
Lemma neg_isz x : s_is_zero so (s_neg so x) = s_is_zero so x.
Proof.
  destruct (s_is_zero so x) eqn:E.
  - apply (sl_is_zero _ L) in E. subst. rewrite (s_neg_zero so L). now apply (sl_is_zero _ L).
  - apply (s_is_zero_false so L). intros K. apply (proj1 (s_neg_zero_iff so L _)) in K.
    apply (s_is_zero_false so L) in E. auto.
Qed.
Lemma two_nz : s_is_zero so (s_add so one one) = false.
Proof.
  rewrite <- neg_isz. apply (s_is_zero_false so L). apply (sd_const _ D (VInt (-2))); auto using mk_m2.
Qed.
Lemma neg_r x : s_add so (s_neg so x) x = s_zero so.
Proof. rewrite (sl_add_comm _ L). apply (sl_neg _ L). Qed.

Lemma eq_refl' i : i_eq io i i = true. Proof. now apply (sto_eq _ _ _ Hio). Qed.
Lemma lt_irr i : i_lt io i i = false. Proof. apply (sto_irrefl _ _ _ Hio). Qed.
Lemma gt_irr i : i_gt io i i = false. Proof. rewrite (sto_gt _ _ _ Hio). apply lt_irr. Qed.
Lemma lt_facts i j : i_lt io i j = true ->
  i_lt io j i = false /\ i_gt io i j = false /\ i_gt io j i = true /\ i_eq io i j = false /\ i_eq io j i = false.
Proof.
  intros h. rewrite !(sto_gt _ _ _ Hio).
  assert (N : i_lt io j i = false).
  { destruct (i_lt io j i) eqn:E; auto. pose proof (sto_trans _ _ _ Hio _ _ _ h E) as K. rewrite lt_irr in K. discriminate. }
  assert (NE : i <> j) by (intros ->; rewrite lt_irr in h; discriminate).
  repeat split; auto.
  - destruct (i_eq io i j) eqn:E; auto. apply (sto_eq _ _ _ Hio) in E. contradiction.
  - destruct (i_eq io j i) eqn:E; auto. apply (sto_eq _ _ _ Hio) in E. congruence.
Qed.
Lemma trich i j : i <> j -> i_lt io i j = true \/ i_lt io j i = true.
Proof. intros n. destruct (sto_total _ _ _ Hio i j) as [E|[E|E]]; auto; contradiction. Qed.

Ltac facts H := destruct (lt_facts _ _ H) as [? [? [? [? ?]]]].
Ltac crunch :=
  repeat (progress (cbn;
    unfold gen_eqb, gen_ltb, gen_gtb, gen_equal, gen_less, gen_greater, gen_swap, gen_simplify, gen_reduce,
      base_equal, base_less, base_greater, gen_index, algebra_id, comp_eqb, comp_code, bool_gtb, b2z,
      add_entry, sub_entry, store_monomial, process_f, swap_at in *;
    cbn;
    repeat match goal with
    | H : i_lt io _ _ = _ |- _ => rewrite !H
    | H : i_gt io _ _ = _ |- _ => rewrite !H
    | H : i_eq io _ _ = _ |- _ => rewrite !H
    | H : Nat.eqb _ _ = _ |- _ => rewrite !H
    | H : Nat.ltb _ _ = _ |- _ => rewrite !H
    | H : s_make so _ = Some _ |- _ => rewrite !H
    | H : s_is_zero so _ = _ |- _ => rewrite !H
    end;
    rewrite ?eq_refl', ?lt_irr, ?gt_irr, ?Nat.eqb_refl, ?Nat.ltb_irrefl, ?mk_1, ?mk_m1, ?mk_0, ?mk_m2,
      ?(sl_mul_1_l _ L), ?(sl_mul_1_r _ L), ?neg_isz, ?one_nz, ?two_nz, ?(s_is_zero_zero so L),
      ?(sl_neg _ L), ?neg_r, ?(s_sub_diag so L), ?(s_sub_0_l so L), ?(s_neg_neg so L), ?(s_neg_zero so L),
      ?(s_mul_neg_l so L), ?(s_mul_neg_r so L), ?(sl_sub _ L))).
Ltac go_ := eexists; eexists; split; [crunch; reflexivity|split; [crunch; reflexivity|crunch; reflexivity]].

Theorem C15_factories : forall g, factory O so g = Ok (X g).
Proof. intros g. unfold factory, e_mono. rewrite one_nz. reflexivity. Qed.


(** generators that swap trivially commute *)
Lemma comm_trivial g h : gen_gtb io g h = false -> gen_gtb io h g = true ->
  gen_swap io h g = (VInt 1, mk_linfun (VInt 0) []) -> gen_simplify io g h = None ->
  gen_eqb io h g = false ->
  commutator_is O so (X g) (X h) [] /\ commutator_is O so (X h) (X g) [].
Proof.
  intros H1 H2 H3 H4 H5.
  assert (S1 : e_mul O so (X g) (X h) = Ok [([g; h], one)]).
  { cbn. rewrite H1, H4. cbn. rewrite (sl_mul_1_l _ L), one_nz, H5. reflexivity. }
  assert (S2 : e_mul O so (X h) (X g) = Ok [([g; h], one)]).
  { cbn. rewrite H2, H3. unfold process_f. cbn. rewrite mk_1. cbn. rewrite !(sl_mul_1_l _ L), one_nz, H5. reflexivity. }
  assert (S3 : e_sub O so [([g; h], one)] [([g; h], one)] = []).
  { unfold e_sub, e_sub_assign, sub_entry. cbn [fold_left fst snd map_find map_assign map_erase].
    rewrite (sto_irrefl _ _ _ (mono_sto O (std_order io Hio))), (s_sub_diag so L), (s_is_zero_zero so L).
    cbn [map_erase]. rewrite (sto_irrefl _ _ _ (mono_sto O (std_order io Hio))). reflexivity. }
  split; eexists; eexists; (split; [eassumption|split; [eassumption|exact S3]]).
Qed.

Ltac triv :=
  cbn -[Nat.ltb Nat.eqb]; unfold gen_gtb, gen_eqb, gen_swap, gen_simplify; cbn -[Nat.ltb Nat.eqb];
  unfold base_equal, base_less, base_greater; cbn -[Nat.ltb Nat.eqb];
  rewrite ?eq_refl', ?lt_irr, ?gt_irr, ?Nat.eqb_refl; cbn -[Nat.ltb Nat.eqb];
  repeat match goal with H : _ = _ :> bool |- _ => rewrite ?H; clear H end; cbn -[Nat.ltb Nat.eqb]; try reflexivity.

Theorem C15_bosons : forall i j,
  commutator_is O so (X (GBoson false i)) (X (GBoson true i)) (e_const so one) /\
  (forall d, commutator_is O so (X (GBoson d i)) (X (GBoson d i)) []) /\
  (i <> j -> forall d d', commutator_is O so (X (GBoson d i)) (X (GBoson d' j)) []).
Proof.
  intros i j. unfold e_const. rewrite one_nz. split; [|split].
  - go_.
  - intros []; go_.
  - intros n. destruct (trich i j n) as [H|H]; facts H; intros [] [];
      first [solve [apply (comm_trivial (GBoson _ i) (GBoson _ j)); triv]
            |solve [apply (comm_trivial (GBoson _ j) (GBoson _ i)); triv]].
Qed.

(** a a+ is stored as 1 + a+ a *)
Lemma boson_reorder i : e_mul O so (X (GBoson false i)) (X (GBoson true i)) = Ok [([], one); ([GBoson true i; GBoson false i], one)].
Proof. crunch. reflexivity. Qed.

(** spins: different sites.  (Sites with the same index but different
    multiplicities, one of which is 2, are excluded: see C16.) *)
Theorem C15_spin_sites : forall m m' c c' i j,
  i <> j \/ (m <> m' /\ m <> 2 /\ m' <> 2) ->
  commutator_is O so (X (GSpin m c i)) (X (GSpin m' c' j)) [].
Proof.
  intros m m' c c' i j H.
  destruct (Nat.lt_trichotomy m m') as [M|[M|M]].
  - assert (E1 : Nat.eqb m m' = false) by (apply Nat.eqb_neq; lia).
    assert (E1' : Nat.eqb m' m = false) by (apply Nat.eqb_neq; lia).
    assert (E2 : Nat.ltb m m' = true) by now apply Nat.ltb_lt.
    assert (E3 : Nat.ltb m' m = false) by (apply Nat.ltb_ge; lia).
    apply (comm_trivial (GSpin m c i) (GSpin m' c' j)); triv.
    + now rewrite andb_false_r.
    + destruct H as [H|[_ [H _]]].
      * destruct (trich i j H) as [K|K]; facts K; triv.
      * apply Nat.eqb_neq in H. rewrite H, orb_true_r. reflexivity.
  - subst m'. destruct H as [H|[H _]]; [|contradiction].
    destruct (trich i j H) as [K|K]; facts K.
    + apply (comm_trivial (GSpin m c i) (GSpin m c' j)); destruct c, c'; triv.
    + apply (comm_trivial (GSpin m c' j) (GSpin m c i)); destruct c, c'; triv.
  - assert (E1 : Nat.eqb m m' = false) by (apply Nat.eqb_neq; lia).
    assert (E1' : Nat.eqb m' m = false) by (apply Nat.eqb_neq; lia).
    assert (E2 : Nat.ltb m' m = true) by now apply Nat.ltb_lt.
    assert (E3 : Nat.ltb m m' = false) by (apply Nat.ltb_ge; lia).
    apply (comm_trivial (GSpin m' c' j) (GSpin m c i)); triv.
    + now rewrite andb_false_r.
    + destruct H as [H|[_ [_ H]]].
      * destruct (trich i j H) as [K|K]; facts K; triv.
      * apply Nat.eqb_neq in H. rewrite H, orb_true_r. reflexivity.
Qed.

Theorem C15_mixed : forall d d' m c i j,
  commutator_is O so (X (GFermion d i)) (X (GBoson d' j)) [] /\
  commutator_is O so (X (GFermion d i)) (X (GSpin m c j)) [] /\
  commutator_is O so (X (GBoson d i)) (X (GSpin m c j)) [].
Proof.
  intros d d' m c i j. split; [|split].
  - apply (comm_trivial (GFermion d i) (GBoson d' j)); reflexivity.
  - apply (comm_trivial (GFermion d i) (GSpin m c j)); reflexivity.
  - apply (comm_trivial (GBoson d i) (GSpin m c j)); reflexivity.
Qed.

(** spins: one site *)
Theorem C15_spin_site : forall m i,
  (m = 2 -> forall p q, q <> 0%Z -> s_make so (VRat p q) <> None) ->
  commutator_is O so (X (GSpin m Plus i)) (X (GSpin m Minus i)) [([GSpin m Zcomp i], s_add so one one)] /\
  commutator_is O so (X (GSpin m Zcomp i)) (X (GSpin m Plus i)) (X (GSpin m Plus i)) /\
  commutator_is O so (X (GSpin m Zcomp i)) (X (GSpin m Minus i)) (e_neg so (X (GSpin m Minus i))).
Proof.
  intros m i Hm. destruct (Nat.eqb m 2) eqn:E2.
  - assert (N2 : m = 2) by now apply Nat.eqb_eq. subst m.
    destruct (s_make so (VRat 1 2)) as [h|] eqn:Eh; [|exfalso; eapply (Hm eq_refl 1%Z 2%Z); eauto; lia].
    destruct (s_make so (VRat (-1) 2)) as [h'|] eqn:Em; [|exfalso; eapply (Hm eq_refl (-1)%Z 2%Z); eauto; lia].
    assert (NH : h' = s_neg so h).
    { pose proof (sl_make_rat _ L _ _ _ Eh) as K1. pose proof (sl_make_rat _ L _ _ _ Em) as K2.
      simpl in K1, K2. rewrite !(s_add_0_r so L) in K1, K2.
      apply (s_neg_unique so L).
      destruct (sd_nzd _ D (s_add so one one) (s_add so h h')) as [Z|Z]; auto.
      - rewrite (sl_dist_r _ L), !(sl_mul_1_l _ L).
        transitivity (s_add so (s_add so h h) (s_add so h' h')).
        + rewrite !(sl_add_assoc _ L). f_equal. rewrite <- !(sl_add_assoc _ L). f_equal. apply (sl_add_comm _ L).
        + rewrite K1, K2. apply (sl_neg _ L).
      - exfalso. pose proof two_nz as T. rewrite Z, (s_is_zero_zero so L) in T. discriminate. }
    subst h'.
    assert (HZ : s_is_zero so h = false).
    { apply (s_is_zero_false so L). apply (sd_const _ D (VRat 1 2)); auto. }
    assert (HH : s_add so h h = one).
    { pose proof (sl_make_rat _ L _ _ _ Eh) as K. simpl in K. now rewrite !(s_add_0_r so L) in K. }
    split; [|split].
    + go_.
    + eexists; eexists; split; [crunch; reflexivity|split; [crunch; reflexivity|]].
      crunch. rewrite ?HH. crunch. reflexivity.
    + eexists; eexists; split; [crunch; reflexivity|split; [crunch; reflexivity|]].
      crunch. rewrite <- ?(s_neg_add so L), ?HH. crunch. reflexivity.
  - split; [|split]; go_.
Qed.

(*FERM*)
Theorem C15_fermions : forall i j,
  (forall d, anticommutator_is O so (X (GFermion d i)) (X (GFermion (negb d) i)) (e_const so one)) /\
  (forall d, anticommutator_is O so (X (GFermion d i)) (X (GFermion d i)) []) /\
  (i <> j -> forall d d', anticommutator_is O so (X (GFermion d i)) (X (GFermion d' j)) []).
Proof.
  intros i j. unfold e_const. rewrite one_nz. split; [|split].
  - intros []; simpl negb; go_.
  - intros []; go_.
  - intros n. destruct (trich i j n) as [H|H]; facts H; intros [] []; go_.
Qed.
End C15.
Print Assumptions C15_fermions.
Print Assumptions C15_bosons.
Print Assumptions C15_spin_site.
Print Assumptions C15_spin_sites.
Print Assumptions C15_mixed.

(** S_+ = S_x + i S_y, S_- = S_x - i S_y with (exact) complex scalars *)
Definition cx_i : cx := (Q2Qc 0, Q2Qc 1).
Theorem C15_SxSy : forall I (io : index_ops I) m i, index_order io ->
  exists sx sy, factory_Sx io m i = Ok sx /\ factory_Sy io m i = Ok sy /\
    e_add (std_gen_ops io) cx_scalar_ops sx (e_mul_const_pre cx_scalar_ops cx_i sy) =
      gen_expr cx_scalar_ops (GSpin m Plus i) /\
    e_sub (std_gen_ops io) cx_scalar_ops sx (e_mul_const_pre cx_scalar_ops cx_i sy) =
      gen_expr cx_scalar_ops (GSpin m Minus i).
Proof.
  intros I io m i Hio. pose proof (lt_irr io Hio i) as Hi. pose proof (eq_refl' io Hio i) as He.
  unfold factory_Sx, factory_Sy. rewrite !(C15_factories io cx_scalar_ops cx_domain). cbn [rbind].
  assert (O1 : mono_lt (std_gen_ops io) [GSpin m Plus i] [GSpin m Minus i] = true).
  { apply (mono_lt_before io Hio). right. split; auto. apply lb_here. apply gb_s_pm. }
  pose proof (sto_irrefl _ _ _ (mono_sto (std_gen_ops io) (std_order io Hio))) as IRR.
  assert (O2 : mono_lt (std_gen_ops io) [GSpin m Minus i] [GSpin m Plus i] = false).
  { destruct (mono_lt (std_gen_ops io) [GSpin m Minus i] [GSpin m Plus i]) eqn:E; auto.
    pose proof (sto_trans _ _ _ (mono_sto (std_gen_ops io) (std_order io Hio)) _ _ _ O1 E) as K.
    now rewrite IRR in K. }
  eexists; eexists. split; [reflexivity|]. split; [reflexivity|].
  unfold gen_expr, e_add, e_sub, e_add_assign, e_sub_assign, add_entry, sub_entry, e_mul_const_pre.
  set (g1 := [GSpin m Plus i]) in *. set (g2 := [GSpin m Minus i]) in *. 
  repeat (progress (cbn [fold_left fst snd map_find map_emplace map_assign map_erase map];
    rewrite ?O1, ?O2, ?IRR;
    repeat match goal with
    | |- context [s_is_zero cx_scalar_ops ?t] =>
        first [change (s_is_zero cx_scalar_ops t) with true | change (s_is_zero cx_scalar_ops t) with false]
    end)).
  assert (E : forall a b c d : Qc, a = c -> b = d -> (a, b) = (c, d)) by (intros; congruence).
  split; repeat f_equal; apply E; apply Qc_is_canon; vm_compute; reflexivity.
Qed.
Print Assumptions C15_SxSy.
