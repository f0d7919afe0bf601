(** * Properties C01-C09, C11, C14-C18, C58: polynomial expressions.
    Vocabulary: ExprSpec.v.  [std_gen_ops io] is the union of the fermion,
    boson and spin algebras with indices compared by [io]. *)
From Coq Require Import String ZArith Bool Lia QArith Qcanon List Sorted Setoid Morphisms.
From Verif Require Import ExprModel ExprSpec ExprOrder ExprMap ExprEval ExprStd ExprCanon ExprMain
  ExprHom ExprMerge ExprThrow ExprInst.
Import ListNotations.
Close Scope Qc_scope.
Close Scope Q_scope.
Close Scope string_scope.
Open Scope nat_scope.
Open Scope list_scope.

(** ** C01: generators *)
Theorem C01_generator_order : forall I (io : index_ops I), index_order io ->
  strict_total_order (gen_eqb io) (gen_ltb io) (gen_gtb io) /\
  (forall g h, gen_ltb io g h = true <-> gen_before io g h).
Proof.
  intros I io H. split; [now apply gen_sto|]. intros g h. symmetry. now apply gen_before_ltb.
Qed.
Print Assumptions C01_generator_order.

(** The index types of the library are totally ordered: tuples of ints and
    strings, and dynamic index sequences. *)
Theorem C01_index_orders :
  index_order int_index_ops /\ index_order string_index_ops /\ index_order unit_index_ops /\
  index_order dyn_index_ops /\
  (forall A B (oa : index_ops A) (ob : index_ops B), index_order oa -> index_order ob ->
     index_order (tuple_index_ops oa ob)).
Proof.
  repeat split; try apply sto_Z; try apply sto_string; try apply sto_unit; try apply sto_dyn;
    try (apply sto_tuple; assumption).
Qed.
Print Assumptions C01_index_orders.

Notation ioN := dyn_index_ops.
Notation dint z := [DInt z].
Definition cdag (z : Z) : gen (list dyn_index) := GFermion true (dint z).
Definition cann (z : Z) : gen (list dyn_index) := GFermion false (dint z).
Definition adag (z : Z) : gen (list dyn_index) := GBoson true (dint z).
Definition aann (z : Z) : gen (list dyn_index) := GBoson false (dint z).
Definition spin (m : nat) (c : spin_component) (z : Z) : gen (list dyn_index) := GSpin m c (dint z).
Notation go := (std_gen_ops ioN).

Example C01_example :
  map (gen_ltb ioN (cann 3)) [cdag 1; cann 2; cann 4; adag 0; spin 2 Plus 0] =
  [false; true; false; true; true].
Proof. reflexivity. Qed.

(** ** C02: monomials *)
Theorem C02_monomial_order : forall I (io : index_ops I), index_order io ->
  strict_total_order (mono_eqb (std_gen_ops io)) (mono_lt (std_gen_ops io)) (mono_gt (std_gen_ops io)) /\
  (forall m n, mono_lt (std_gen_ops io) m n = true <-> mono_before io m n).
Proof.
  intros I io H. split; [now apply mono_sto, gen_sto|]. intros. now apply mono_lt_before.
Qed.
Print Assumptions C02_monomial_order.

Theorem C02_is_ordered : forall I (io : index_ops I), index_order io -> forall m,
  is_ordered (std_gen_ops io) m = true <->
  (forall pre g h post, m = pre ++ g :: h :: post -> ~ gen_before io h g).
Proof.
  intros I io H m. induction m as [|g m IH].
  - split; auto. intros _ pre g h post E. destruct pre; discriminate.
  - destruct m as [|h m].
    + split; auto. intros _ pre g' h' post E. destruct pre as [|? [|? ?]]; discriminate.
    + change (is_ordered (std_gen_ops io) (g :: h :: m)) with
        (negb (gen_ltb io h g) && is_ordered (std_gen_ops io) (h :: m)).
      rewrite andb_true_iff, IH, negb_true_iff. split.
      * intros [h1 h2] [|x pre] g' h' post E; simpl in E; inversion E; subst.
        -- intros K. apply (gen_before_ltb io H) in K. congruence.
        -- eapply h2; eauto.
      * intros K. split.
        -- destruct (gen_ltb io h g) eqn:E; auto. apply (gen_before_ltb io H) in E.
           exfalso. eapply (K [] g h m); eauto.
        -- intros pre g' h' post E. apply (K (g :: pre) g' h' post). simpl. now rewrite E.
Qed.
Print Assumptions C02_is_ordered.

(** Any user-defined algebra whose generators are totally ordered. *)
Theorem C02_any_algebra : forall G (go : gen_ops G),
  strict_total_order (g_eq go) (g_lt go) (g_gt go) ->
  strict_total_order (mono_eqb go) (mono_lt go) (mono_gt go).
Proof. intros. now apply mono_sto. Qed.
Print Assumptions C02_any_algebra.

(** ** C03: every reachable expression is in canonical form *)
Theorem C03_canonical_form : forall I (io : index_ops I) S (so : scalar_ops S) B e,
  index_order io -> scalar_domain so -> spin_consistent B ->
  built io so B e -> canonical_expr io so e.
Proof.
  intros I io S so B e Hio D HB H. eapply inv_canonical; eauto.
  eapply built_inv; eauto.
Qed.
Print Assumptions C03_canonical_form.

(** in particular two different entries have different monomials *)
Theorem C03_no_duplicates : forall I (io : index_ops I) S (so : scalar_ops S) B e,
  index_order io -> scalar_domain so -> spin_consistent B ->
  built io so B e -> NoDup (map fst e).
Proof.
  intros I io S so B e Hio D HB H.
  destruct (C03_canonical_form I io S so B e Hio D HB H) as [K _].
  induction K as [|a l h IH hd]; constructor; auto.
  intros i. rewrite Forall_forall in hd. apply hd in i.
  apply (mono_lt_before io Hio) in i.
  rewrite (sto_irrefl _ _ _ (mono_sto _ (std_order io Hio))) in i. discriminate.
Qed.
Print Assumptions C03_no_duplicates.


(** 2 S_-(1) S_+(1) c_2 c_1 c^+_1 s_-(0) s_+(0), with S of spin 3/2 and s of
    spin 1/2: eight monomials; a product of three spin-1 ladder operators *)
Definition ex_mono : list (gen (list dyn_index)) :=
  [spin 4 Minus 1; spin 4 Plus 1; cann 2; cann 1; cdag 1; spin 2 Minus 0; spin 2 Plus 0].
Lemma ex_consistent : spin_consistent ex_mono.
Proof.
  split.
  - intros c c' m i h1 h2. simpl in h1, h2.
    repeat (destruct h1 as [h1|h1]; [inversion h1; subst; clear h1|]); try contradiction;
    repeat (destruct h2 as [h2|h2]; [inversion h2; subst; clear h2; try reflexivity|]); contradiction.
  - intros m c i h. simpl in h.
    repeat (destruct h as [h|h]; [inversion h; subst; lia|]). contradiction.
Qed.
Example C03_example : exists e,
  e_mono go rational_scalar_ops (Q2Qc (2 # 1)) ex_mono = Ok e /\
  built ioN rational_scalar_ops ex_mono e /\
  map (fun p => (fst p, this (snd p))) e =
  [([cann 2; spin 4 Zcomp 1], (-2 # 1)%Q);
   ([cann 2; spin 2 Zcomp 0; spin 4 Zcomp 1], (4 # 1)%Q);
   ([cann 2; spin 4 Plus 1; spin 4 Minus 1], (1 # 1)%Q);
   ([cdag 1; cann 2; cann 1; spin 4 Zcomp 1], (-2 # 1)%Q);
   ([cann 2; spin 2 Zcomp 0; spin 4 Plus 1; spin 4 Minus 1], (-2 # 1)%Q);
   ([cdag 1; cann 2; cann 1; spin 2 Zcomp 0; spin 4 Zcomp 1], (4 # 1)%Q);
   ([cdag 1; cann 2; cann 1; spin 4 Plus 1; spin 4 Minus 1], (1 # 1)%Q);
   ([cdag 1; cann 2; cann 1; spin 2 Zcomp 0; spin 4 Plus 1; spin 4 Minus 1], (-2 # 1)%Q)].
Proof.
  destruct (e_mono go rational_scalar_ops (Q2Qc (2 # 1)) ex_mono) as [e| |] eqn:E;
    [|vm_compute in E; discriminate|vm_compute in E; discriminate].
  exists e. split; [reflexivity|]. split.
  - eapply b_mono; [|exact E]. apply incl_refl.
  - vm_compute in E. injection E as <-. reflexivity.
Qed.

(** ** C04: + and - are coefficient-wise *)
Theorem C04_add_coefficients : forall I (io : index_ops I) S (so : scalar_ops S) a b m x y,
  index_order io -> scalar_laws so -> canonical_expr io so a -> canonical_expr io so b ->
  coeff_is so a m x -> coeff_is so b m y ->
  coeff_is so (e_add (std_gen_ops io) so a b) m (s_add so x y).
Proof.
  intros I io S so a b m x y Hio L Ha Hb Hx Hy. pose proof (std_order io Hio) as Hgo.
  apply (canonical_wf io Hio) in Ha, Hb. destruct Ha as [Ha _], Hb as [Hb _].
  apply (coef_spec (std_gen_ops io) Hgo so) in Hx, Hy; auto.
  apply (coef_spec (std_gen_ops io) Hgo so); [now apply fold_ins_sorted|].
  unfold e_add. rewrite (coef_add_assign _ Hgo _ L) by auto. now rewrite Hx, Hy.
Qed.
Print Assumptions C04_add_coefficients.

Theorem C04_sub_coefficients : forall I (io : index_ops I) S (so : scalar_ops S) a b m x y,
  index_order io -> scalar_laws so -> canonical_expr io so a -> canonical_expr io so b ->
  coeff_is so a m x -> coeff_is so b m y ->
  coeff_is so (e_sub (std_gen_ops io) so a b) m (s_sub so x y).
Proof.
  intros I io S so a b m x y Hio L Ha Hb Hx Hy. pose proof (std_order io Hio) as Hgo.
  apply (canonical_wf io Hio) in Ha, Hb. destruct Ha as [Ha _], Hb as [Hb _].
  apply (coef_spec (std_gen_ops io) Hgo so) in Hx, Hy; auto.
  apply (coef_spec (std_gen_ops io) Hgo so).
  - unfold e_sub. rewrite (sub_assign_add _ _ L). now apply fold_ins_sorted.
  - unfold e_sub. rewrite (coef_sub_assign _ Hgo _ L) by auto. now rewrite Hx, Hy.
Qed.
Print Assumptions C04_sub_coefficients.

(** Equality of canonical expressions is equality of all coefficients. *)
Theorem C04_equality : forall I (io : index_ops I) S (so : scalar_ops S) a b,
  index_order io -> scalar_laws so -> canonical_expr io so a -> canonical_expr io so b ->
  (forall m x, coeff_is so a m x <-> coeff_is so b m x) -> a = b.
Proof.
  intros I io S so a b Hio L Ha Hb H. pose proof (std_order io Hio) as Hgo.
  apply (canonical_wf io Hio) in Ha, Hb. destruct Ha as [a1 a2], Hb as [b1 b2].
  apply (coef_ext (std_gen_ops io) Hgo so L); auto. intros m. symmetry.
  apply (coef_spec (std_gen_ops io) Hgo so); auto. apply (H m).
  apply (coef_spec (std_gen_ops io) Hgo so); auto.
Qed.
Print Assumptions C04_equality.

(** hence the additive group laws hold with respect to == *)
Theorem C04_group_laws : forall I (io : index_ops I) S (so : scalar_ops S) a b c,
  index_order io -> scalar_laws so ->
  canonical_expr io so a -> canonical_expr io so b -> canonical_expr io so c ->
  let add := e_add (std_gen_ops io) so in let sub := e_sub (std_gen_ops io) so in
  add a b = add b a /\ add (add a b) c = add a (add b c) /\ add a [] = a /\ add [] a = a /\
  sub a a = [] /\ sub a b = add a (e_neg so b) /\ sub (add a b) b = a.
Proof.
  intros I io S so a b c Hio L Ha Hb Hc add sub. pose proof (std_order io Hio) as Hgo.
  apply (canonical_wf io Hio) in Ha, Hb, Hc. destruct Ha as [a1 a2], Hb as [b1 b2], Hc as [c1 c2].
  assert (AS : forall x y, msorted (std_gen_ops io) x -> msorted (std_gen_ops io) (add x y))
    by (intros; now apply fold_ins_sorted).
  assert (AN : forall x y, nonzero so x -> nonzero so y -> nonzero so (add x y))
    by (intros; now apply fold_ins_nonzero).
  assert (AC : forall x y m, msorted (std_gen_ops io) x -> msorted (std_gen_ops io) y ->
     coef (std_gen_ops io) so (add x y) m =
     s_add so (coef (std_gen_ops io) so x m) (coef (std_gen_ops io) so y m))
    by (intros; now apply (coef_add_assign _ Hgo _ L)).
  assert (SA : forall x y, sub x y = add x (neg_map so y)) by (intros; apply (sub_assign_add _ _ L)).
  assert (NS : forall x, msorted (std_gen_ops io) x -> msorted (std_gen_ops io) (neg_map so x))
    by (intros; now apply neg_map_sorted).
  assert (NN : forall x, nonzero so x -> nonzero so (@neg_map (gen I) S so x))
    by (intros; now apply (neg_nonzero _ L)).
  repeat split; auto.
  - apply (coef_ext _ Hgo so L); auto. intros m. rewrite !AC by auto. apply (sl_add_comm _ L).
  - apply (coef_ext _ Hgo so L); auto. intros m. rewrite !AC by auto. symmetry. apply (sl_add_assoc _ L).
  - apply (coef_ext _ Hgo so L); auto.
    + apply AS. constructor.
    + apply AN; auto. intros ? ? [].
    + intros m. rewrite AC by (auto; constructor). apply (sl_add_0 _ L).
  - apply (coef_ext _ Hgo so L); auto; rewrite ?SA; auto; [constructor|intros ? ? []|].
    intros m. rewrite AC by auto. rewrite (coef_neg _ _ L). apply (sl_neg _ L).
  - rewrite SA. apply (coef_ext _ Hgo so L); auto. intros m. rewrite !AC by auto.
    rewrite (coef_neg _ _ L), <- (sl_add_assoc _ L), (sl_neg _ L). apply (s_add_0_r so L).
Qed.
Print Assumptions C04_group_laws.

(** operator== of expressions decides equality *)
Theorem C04_eqb : forall I (io : index_ops I) S (eqS : S -> S -> bool),
  index_order io -> (forall x y, eqS x y = true <-> x = y) ->
  forall a b, e_eqb (std_gen_ops io) eqS a b = true <-> a = b.
Proof.
  intros I io S eqS Hio HS. pose proof (mono_sto _ (std_order io Hio)) as Hm.
  induction a as [|[m x] a IH]; intros [|[n y] b]; simpl; try (split; congruence).
  rewrite !andb_true_iff, (sto_eq _ _ _ Hm), HS, IH. split.
  - intros [[-> ->] ->]; auto.
  - intros E; inversion E; auto.
Qed.
Print Assumptions C04_eqb.

(** ** C05: the merging operator+ / operator- for different scalar types *)
Theorem C05_heterogeneous_add : forall I (io : index_ops I) S1 S2 S3
  (o1 : scalar_ops S1) (o2 : scalar_ops S2) (o3 : scalar_ops S3) (f1 : S1 -> S3) (f2 : S2 -> S3),
  index_order io -> scalar_laws o3 ->
  f1 (s_zero o1) = s_zero o3 -> f2 (s_zero o2) = s_zero o3 ->
  (forall x, x <> s_zero o1 -> f1 x <> s_zero o3) ->
  (forall x, x <> s_zero o2 -> f2 x <> s_zero o3) ->
  forall a b, canonical_expr io o1 a -> canonical_expr io o2 b ->
  e_merge (std_gen_ops io) (fun x y => s_add o3 (f1 x) (f2 y)) (s_zero o1) (s_zero o2) (s_is_zero o3) a b =
  e_add (std_gen_ops io) o3 (map (fun p => (fst p, f1 (snd p))) a) (map (fun p => (fst p, f2 (snd p))) b).
Proof.
  intros I io S1 S2 S3 o1 o2 o3 f1 f2 Hio L z1 z2 n1 n2 a b Ha Hb. pose proof (std_order io Hio) as Hgo.
  apply (canonical_wf io Hio) in Ha, Hb. destruct Ha as [a1 a2], Hb as [b1 b2].
  destruct (e_merge_char (std_gen_ops io) Hgo o3 L (fun x y => s_add o3 (f1 x) (f2 y))
    (s_zero o1) (s_zero o2) f1 f2 (s_add o3)) with (a := a) (b := b) as [h1 [h2 h3]]; auto.
  - apply (sl_add_0 _ L).
  - intros x hx. rewrite z2, (s_add_0_r o3 L). auto.
  - intros x hx. rewrite z1, (sl_add_0 _ L). auto.
  - apply (coef_ext _ Hgo o3 L); auto.
    + apply fold_ins_sorted; auto. now apply map_sorted.
    + apply fold_ins_nonzero; auto.
      * intros m c i. apply in_map_iff in i. destruct i as [[n x] [E i]]. injection E as <- <-. simpl. eauto.
      * intros m c i. apply in_map_iff in i. destruct i as [[n x] [E i]]. injection E as <- <-. simpl. eauto.
    + intros m. rewrite h3. unfold e_add. rewrite (coef_add_assign _ Hgo _ L); auto using map_sorted.
Qed.
Print Assumptions C05_heterogeneous_add.

Theorem C05_heterogeneous_sub : forall I (io : index_ops I) S1 S2 S3
  (o1 : scalar_ops S1) (o2 : scalar_ops S2) (o3 : scalar_ops S3) (f1 : S1 -> S3) (f2 : S2 -> S3),
  index_order io -> scalar_laws o3 ->
  f1 (s_zero o1) = s_zero o3 -> f2 (s_zero o2) = s_zero o3 ->
  (forall x, x <> s_zero o1 -> f1 x <> s_zero o3) ->
  (forall x, x <> s_zero o2 -> f2 x <> s_zero o3) ->
  forall a b, canonical_expr io o1 a -> canonical_expr io o2 b ->
  e_merge (std_gen_ops io) (fun x y => s_sub o3 (f1 x) (f2 y)) (s_zero o1) (s_zero o2) (s_is_zero o3) a b =
  e_sub (std_gen_ops io) o3 (map (fun p => (fst p, f1 (snd p))) a) (map (fun p => (fst p, f2 (snd p))) b).
Proof.
  intros I io S1 S2 S3 o1 o2 o3 f1 f2 Hio L z1 z2 n1 n2 a b Ha Hb. pose proof (std_order io Hio) as Hgo.
  apply (canonical_wf io Hio) in Ha, Hb. destruct Ha as [a1 a2], Hb as [b1 b2].
  destruct (e_merge_char (std_gen_ops io) Hgo o3 L (fun x y => s_sub o3 (f1 x) (f2 y))
    (s_zero o1) (s_zero o2) f1 f2 (s_sub o3)) with (a := a) (b := b) as [h1 [h2 h3]]; auto.
  - apply (s_sub_diag o3 L).
  - intros x hx. rewrite z2, (sl_sub _ L), (s_neg_zero o3 L), (s_add_0_r o3 L). auto.
  - intros x hx. rewrite z1, (s_sub_0_l o3 L). intros E. apply (n2 x hx).
    now apply (proj1 (s_neg_zero_iff o3 L _)).
  - assert (N2 : nonzero o3 (map (fun p => (fst p, f2 (snd p))) b)).
    { intros m c i. apply in_map_iff in i. destruct i as [[n x] [E i]]. injection E as <- <-. simpl. eauto. }
    apply (coef_ext _ Hgo o3 L); auto.
    + unfold e_sub. rewrite (sub_assign_add _ _ L). apply fold_ins_sorted; auto. now apply map_sorted.
    + unfold e_sub. rewrite (sub_assign_add _ _ L). apply fold_ins_nonzero; auto.
      * intros m c i. apply in_map_iff in i. destruct i as [[n x] [E i]]. injection E as <- <-. simpl. eauto.
      * now apply (neg_nonzero _ L).
    + intros m. rewrite h3. unfold e_sub. rewrite (coef_sub_assign _ Hgo _ L); auto using map_sorted.
Qed.
Print Assumptions C05_heterogeneous_sub.

(** (3 c^+_1 - 2) + (1/2 c^+_1 + 2): the constants cancel *)
Example C05_example :
  map (fun p => (fst p, this (snd p)))
  (e_merge go (fun (x : Z) (y : Qc) => (qcz x + y)%Qc) 0%Z (Q2Qc 0) (s_is_zero rational_scalar_ops)
    [([], (-2)%Z); ([cdag 1], 3%Z)] [([], Q2Qc (2 # 1)); ([cdag 1], Q2Qc (1 # 2)); ([cdag 2], Q2Qc 1)])
  = [([cdag 1], (7 # 2)%Q); ([cdag 2], 1%Q)].
Proof. reflexivity. Qed.

(** ** C06: scalars act coefficient-wise *)
Theorem C06_scalar_arithmetic : forall I (io : index_ops I) S (so : scalar_ops S) a z,
  index_order io -> scalar_domain so -> canonical_expr io so a ->
  let G := std_gen_ops io in
  (forall m x, coeff_is so a m x ->
     coeff_is so (e_mul_const_post so a z) m (s_mul so x z) /\
     coeff_is so (e_mul_const_pre so z a) m (s_mul so z x) /\
     coeff_is so (e_neg so a) m (s_neg so x) /\
     (m <> [] -> coeff_is so (e_add_const G so a z) m x /\ coeff_is so (e_add_assign_const G so a z) m x /\
                 coeff_is so (e_sub_const G so a z) m x /\ coeff_is so (e_const_sub G so z a) m (s_neg so x)) /\
     (m = [] -> coeff_is so (e_add_const G so a z) m (s_add so x z) /\
                coeff_is so (e_add_assign_const G so a z) m (s_add so x z) /\
                coeff_is so (e_sub_const G so a z) m (s_sub so x z) /\
                coeff_is so (e_const_sub G so z a) m (s_sub so z x))) /\
  e_mul_const_post so a (s_zero so) = [] /\ e_mul_const_pre so (s_zero so) a = [] /\
  e_const_sub G so z a = e_neg so (e_sub_const G so a z).
Proof.
  intros I io S so a z Hio D Ha G; subst G. pose proof (std_order io Hio) as Hgo.
  pose proof (sd_laws _ D) as L.
  apply (canonical_wf io Hio) in Ha. destruct Ha as [a1 a2].
  assert (MS : forall f : S -> S, msorted (std_gen_ops io) (map (fun p => (fst p, f (snd p))) a)).
  { intros f. unfold msorted. rewrite map_map. exact a1. }
  assert (SE : forall e m x, msorted (std_gen_ops io) e -> (coeff_is so e m x <-> coef (std_gen_ops io) so e m = x)).
  { intros e m x h. symmetry. apply (coef_spec _ Hgo so); auto. }
  assert (Z0 : forall x, s_is_zero so x = true -> x = s_zero so) by (intros x; apply (sl_is_zero _ L)).
  assert (NG : e_const_sub (std_gen_ops io) so z a = e_neg so (e_sub_const (std_gen_ops io) so a z)).
  { unfold e_const_sub. rewrite add_const_ins, (sub_const_ins _ _ L).
    assert (E1 : map (fun p => (fst p, s_sub so (s_zero so) (snd p))) a = neg_map so a).
    { apply map_ext. intros [m x]. simpl. now rewrite (s_sub_0_l so L). }
    match goal with |- context [add_entry _ _ _ ?x] => change x with (map (fun p : list (gen I) * S => (fst p, s_sub so (s_zero so) (snd p))) a) end.
    rewrite E1. destruct (s_is_zero so z) eqn:Z; [reflexivity|].
    change (e_neg so (add_entry (std_gen_ops io) so ([], s_neg so z) a)) with (neg_map so (add_entry (std_gen_ops io) so ([], s_neg so z) a)).
    assert (NZ : nonzero so (add_entry (std_gen_ops io) so ([], s_neg so z) a)).
    { apply (ins_nonzero _ _ L); auto. intros E. apply (proj1 (s_neg_zero_iff so L _)) in E.
      apply (s_is_zero_false so L) in Z. contradiction. }
    apply (coef_ext _ Hgo so L).
    - apply ins_sorted; auto. now apply neg_map_sorted.
    - apply neg_map_sorted. now apply ins_sorted.
    - apply (ins_nonzero _ _ L); [now apply (neg_nonzero _ L)|now apply (s_is_zero_false so L)].
    - now apply (neg_nonzero _ L).
    - intros m. rewrite (coef_neg _ _ L), !(coef_ins _ Hgo _ L) by (auto; now apply neg_map_sorted).
      destruct (mono_dec (std_gen_ops io) Hgo m []) as [->|n].
      + rewrite (coef_neg _ _ L), (s_neg_add so L), (s_neg_neg so L). reflexivity.
      + now rewrite (coef_neg _ _ L). }
  assert (AI : forall c, msorted (std_gen_ops io) (add_entry (std_gen_ops io) so ([], c) a)) by (intros; now apply ins_sorted).
  split; [|split; [|split]].
  - intros m x Hx. apply (SE a m x a1) in Hx. subst x. split; [|split; [|split; [|split]]].
    + unfold e_mul_const_post. destruct (s_is_zero so z) eqn:Z.
      * apply Z0 in Z. subst z. right. rewrite (s_mul_0_r so L). split; auto.
      * apply SE; [apply (MS (fun y => s_mul so y z))|]. apply (coef_map (std_gen_ops io) so (fun y => s_mul so y z)). apply (s_mul_0_l so L).
    + unfold e_mul_const_pre. destruct (s_is_zero so z) eqn:Z.
      * apply Z0 in Z. subst z. right. rewrite (s_mul_0_l so L). split; auto.
      * apply SE; [apply (MS (fun y => s_mul so z y))|]. apply (coef_map (std_gen_ops io) so (fun y => s_mul so z y)). apply (s_mul_0_r so L).
    + apply SE; [apply MS|]. apply (coef_neg _ _ L).
    + intros n.
      assert (K : coeff_is so (e_add_const (std_gen_ops io) so a z) m (coef (std_gen_ops io) so a m)).
      { rewrite add_const_ins. destruct (s_is_zero so z); [now apply SE|]. apply SE; auto.
        rewrite (coef_ins _ Hgo _ L) by auto. destruct (mono_dec (std_gen_ops io) Hgo m []); congruence. }
      assert (K2 : coef (std_gen_ops io) so (e_sub_const (std_gen_ops io) so a z) m = coef (std_gen_ops io) so a m /\ msorted (std_gen_ops io) (e_sub_const (std_gen_ops io) so a z)).
      { rewrite (sub_const_ins _ _ L). destruct (s_is_zero so z); auto. split; auto.
        rewrite (coef_ins _ Hgo _ L) by auto. destruct (mono_dec (std_gen_ops io) Hgo m []); congruence. }
      destruct K2 as [K2 K3].
      split; auto. split; [now rewrite (add_assign_const_ins _ _ L)|]. split; [now apply SE|].
      rewrite NG. apply SE; [now apply neg_map_sorted|]. change (e_neg so) with (@neg_map (gen I) S so).
      now rewrite (coef_neg _ _ L), K2.
    + intros ->.
      assert (K : coeff_is so (e_add_const (std_gen_ops io) so a z) [] (s_add so (coef (std_gen_ops io) so a []) z)).
      { rewrite add_const_ins. destruct (s_is_zero so z) eqn:Z.
        - apply Z0 in Z. subst z. rewrite (s_add_0_r so L). now apply SE.
        - apply SE; auto. rewrite (coef_ins _ Hgo _ L) by auto. destruct (mono_dec (std_gen_ops io) Hgo [] []); congruence. }
      assert (K2 : coef (std_gen_ops io) so (e_sub_const (std_gen_ops io) so a z) [] = s_sub so (coef (std_gen_ops io) so a []) z /\ msorted (std_gen_ops io) (e_sub_const (std_gen_ops io) so a z)).
      { rewrite (sub_const_ins _ _ L). destruct (s_is_zero so z) eqn:Z.
        - apply Z0 in Z. subst z. rewrite (sl_sub _ L), (s_neg_zero so L), (s_add_0_r so L). auto.
        - split; auto. rewrite (coef_ins _ Hgo _ L) by auto. rewrite (sl_sub _ L).
          destruct (mono_dec (std_gen_ops io) Hgo [] []); congruence. }
      destruct K2 as [K2 K3].
      split; auto. split; [now rewrite (add_assign_const_ins _ _ L)|]. split; [now apply SE|].
      rewrite NG. apply SE; [now apply neg_map_sorted|]. change (e_neg so) with (@neg_map (gen I) S so).
      rewrite (coef_neg _ _ L), K2, !(sl_sub _ L), (s_neg_add so L), (s_neg_neg so L). apply (sl_add_comm _ L).
  - unfold e_mul_const_post. now rewrite (s_is_zero_zero so L).
  - unfold e_mul_const_pre. now rewrite (s_is_zero_zero so L).
  - exact NG.
Qed.
Print Assumptions C06_scalar_arithmetic.

Example C06_example :
  e_const_sub go int_scalar_ops 3%Z [([], 3%Z); ([cdag 1], 2%Z)] = [([cdag 1], (-2)%Z)].
Proof. reflexivity. Qed.

(** ** C07: normalization preserves the value of every product *)
Theorem C07_normalization_sound : forall I (io : index_ops I) S (so : scalar_ops S) R
  (ro : ring_ops R) (inj : S -> R) (rho : gen I -> R) x m e,
  index_order io -> scalar_laws so -> representation so ro inj rho -> spin_consistent m ->
  e_mono (std_gen_ops io) so x m = Ok e ->
  req ro (eval_expr ro inj rho e) (rmul ro (inj x) (eval_mono ro rho m)).
Proof.
  intros I io S so R ro inj rho x m e Hio L REP Hm E.
  eapply (e_mono_sound (std_gen_ops io) (std_order io Hio) so L ro (rep_ring _ _ _ _ REP) inj rho (rep_scalars _ _ _ _ REP)
    (admissible m)).
  - now apply std_sound.
  - apply admissible_self.
  - exact E.
Qed.
Print Assumptions C07_normalization_sound.

(** ** C08: termination *)
(** For arbitrary (also user-defined) generators and scalars the
    normalization of a monomial needs at most 2|m|+2 nested calls and no
    operation gets stuck ([Bad]). *)
Theorem C08_termination : forall G (go : gen_ops G) S (so : scalar_ops S),
  (forall m c t, normalize_and_store go so (2 * length m + 2) m c t <> Bad) /\
  (forall x m, e_mono go so x m <> Bad) /\ (forall a b, e_mul go so a b <> Bad).
Proof.
  intros G go S so. split; [|split].
  - apply normalize_terminates.
  - apply e_mono_terminates.
  - apply e_mul_terminates.
Qed.
Print Assumptions C08_termination.

(** With a scalar type that can represent the structure constants the result
    always exists. *)
Theorem C08_total : forall I (io : index_ops I) S (so : scalar_ops S),
  scalar_laws so -> (forall p q, q <> 0%Z -> s_make so (VRat p q) <> None) ->
  (forall x m, exists e, e_mono (std_gen_ops io) so x m = Ok e) /\
  (forall a b, exists e, e_mul (std_gen_ops io) so a b = Ok e).
Proof.
  intros I io S so L HF.
  assert (AM : alg_make (std_gen_ops io) so (fun _ => True)) by now apply std_make_frac.
  split.
  - intros x m. eapply e_mono_total; eauto. apply Forall_forall; auto.
  - intros a b. eapply e_mul_total; eauto; intros m c _; apply Forall_forall; auto.
Qed.
Print Assumptions C08_total.

(** ** C09: multiplication is multiplication *)
Theorem C09_product_value : forall I (io : index_ops I) S (so : scalar_ops S) R
  (ro : ring_ops R) (inj : S -> R) (rho : gen I -> R) a b e,
  index_order io -> scalar_laws so -> representation so ro inj rho ->
  spin_consistent (gens_of a ++ gens_of b) ->
  e_mul (std_gen_ops io) so a b = Ok e ->
  req ro (eval_expr ro inj rho e) (rmul ro (eval_expr ro inj rho a) (eval_expr ro inj rho b)).
Proof.
  intros I io S so R ro inj rho a b e Hio L REP HB E.
  eapply (e_mul_sound (std_gen_ops io) (std_order io Hio) so L ro (rep_ring _ _ _ _ REP) inj rho (rep_scalars _ _ _ _ REP)
    (admissible (gens_of a ++ gens_of b))).
  - now apply std_sound.
  - apply Forall_forall. intros [m c] i. simpl. pose proof (admissible_self (gens_of a ++ gens_of b)) as K.
    rewrite Forall_forall in *. intros g ig. apply K. apply in_app_iff. left.
    unfold gens_of. apply in_concat. exists m. split; auto. apply in_map_iff. exists (m, c); auto.
  - apply Forall_forall. intros [m c] i. simpl. pose proof (admissible_self (gens_of a ++ gens_of b)) as K.
    rewrite Forall_forall in *. intros g ig. apply K. apply in_app_iff. right.
    unfold gens_of. apply in_concat. exists m. split; auto. apply in_map_iff. exists (m, c); auto.
  - exact E.
Qed.
Print Assumptions C09_product_value.

(** sums and differences *)
Theorem C09_sum_value : forall I (io : index_ops I) S (so : scalar_ops S) R
  (ro : ring_ops R) (inj : S -> R) (rho : gen I -> R) a b,
  index_order io -> scalar_laws so -> representation so ro inj rho ->
  let ev := eval_expr ro inj rho in
  req ro (ev (e_add (std_gen_ops io) so a b)) (radd ro (ev a) (ev b)) /\
  req ro (ev (e_sub (std_gen_ops io) so a b)) (radd ro (ev a) (ropp ro (ev b))) /\
  req ro (ev (e_neg so a)) (ropp ro (ev a)).
Proof.
  intros I io S so R ro inj rho a b Hio L REP ev.
  pose proof (rep_ring _ _ _ _ REP) as Hr. pose proof (rep_scalars _ _ _ _ REP) as SI.
  pose proof (std_order io Hio) as Hgo.
  split; [|split].
  - apply (ev_add_assign (std_gen_ops io) Hgo so L ro Hr inj rho SI).
  - apply (ev_sub_assign (std_gen_ops io) Hgo so L ro Hr inj rho SI).
  - apply (ev_neg so L ro Hr inj rho SI).
Qed.
Print Assumptions C09_sum_value.

(** as operators * is associative and distributive *)
Theorem C09_operator_laws : forall I (io : index_ops I) S (so : scalar_ops S) R
  (ro : ring_ops R) (inj : S -> R) (rho : gen I -> R) B a b c ab bc ab_c a_bc ac s_c,
  index_order io -> scalar_domain so -> representation so ro inj rho -> spin_consistent B ->
  built io so B a -> built io so B b -> built io so B c ->
  let G := std_gen_ops io in
  e_mul G so a b = Ok ab -> e_mul G so b c = Ok bc -> e_mul G so ab c = Ok ab_c ->
  e_mul G so a bc = Ok a_bc -> e_mul G so a c = Ok ac -> e_mul G so (e_add G so a b) c = Ok s_c ->
  let ev := eval_expr ro inj rho in
  req ro (ev ab_c) (ev a_bc) /\ req ro (ev s_c) (ev (e_add G so ac bc)).
Proof.
  intros I io S so R ro inj rho B a b c ab bc ab_c a_bc ac s_c Hio D REP HB Ba Bb Bc G E1 E2 E3 E4 E5 E6 ev.
  pose proof (sd_laws _ D) as L.
  pose proof (rep_ring _ _ _ _ REP) as Hr. pose proof (rep_scalars _ _ _ _ REP) as SI.
  pose proof (std_order io Hio) as Hgo.
  assert (PE : forall e, built io so B e -> Pexpr (admissible B) e).
  { intros e h. apply (built_inv io Hio so D B HB) in h. apply Forall_forall. intros [m x] i.
    simpl. eapply h; eauto. }
  assert (MV : forall x y z, built io so B x -> built io so B y -> e_mul G so x y = Ok z ->
     req ro (ev z) (rmul ro (ev x) (ev y))).
  { intros x y z hx hy E.
    eapply (e_mul_sound G Hgo so L ro Hr inj rho SI (admissible B)); eauto. now apply std_sound. }
  assert (Bab : built io so B ab) by (eapply b_mul; [exact Ba|exact Bb|exact E1]).
  assert (Bbc : built io so B bc) by (eapply b_mul; [exact Bb|exact Bc|exact E2]).
  assert (Bs : built io so B (e_add G so a b)) by (apply b_add; auto).
  pose proof (ri_equiv _ Hr) as EQ. pose proof (ri_mul_ext _ Hr) as MX. pose proof (ri_add_ext _ Hr) as AX.
  split.
  - rewrite (MV _ _ _ Bab Bc E3), (MV _ _ _ Ba Bb E1), (MV _ _ _ Ba Bbc E4), (MV _ _ _ Bb Bc E2).
    symmetry. apply (ri_mul_assoc _ Hr).
  - rewrite (MV _ _ _ Bs Bc E6).
    destruct (C09_sum_value I io S so R ro inj rho a b Hio L REP) as [S1 _].
    destruct (C09_sum_value I io S so R ro inj rho ac bc Hio L REP) as [S2 _].
    unfold ev, G in *. rewrite S1, S2, (MV _ _ _ Ba Bc E5), (MV _ _ _ Bb Bc E2).
    apply (ri_dist_r _ Hr).
Qed.
Print Assumptions C09_operator_laws.
