(** * C59: products and conjugates of expressions are (anti)linear, for every
    algebra - the built-in ones with arbitrary spins and user-defined ones.
    Vocabulary: LinSpec.v. *)
From Coq Require Import ZArith Bool Lia List Sorted QArith Qcanon.
From Verif Require Import ExprModel ExprSpec ExprOrder ExprMap ExprEval ExprMain ExprThrow ExprInst
  ExprLin LinSpec.
Import ListNotations.
Close Scope Qc_scope.
Close Scope Q_scope.
Open Scope nat_scope.
Open Scope list_scope.

Lemma constants_of {G} (go : gen_ops G) : nonzero_constants go -> constants_nonzero go.
Proof.
  intros [h1 h2]. constructor.
  - intros a b c f Eg E. destruct (h1 a b c f Eg E) as [x y]. split; auto.
  - intros a b f Eg E. exact (h2 a b f Eg E).
Qed.

Section Generic.
Context {G S : Type} (go : gen_ops G) (so : scalar_ops S).
Notation expr := (list (list G * S)).

(** Every expression a program can make is stored in sorted, zero-free form. *)
Theorem C59_stored : gen_order go -> nonzero_constants go -> scalar_domain so -> conj_laws so ->
  forall e : expr, api_expr go so e -> stored_expr go so e.
Proof.
  intros Ho Hc D CL. apply constants_of in Hc. pose proof (sd_laws _ D) as L.
  assert (N : forall x, x <> s_zero so -> s_neg so x <> s_zero so)
    by (intros x h1 h2; apply h1; now apply (s_neg_zero_iff so L)).
  assert (INS : forall a x, stored_expr go so a -> x <> s_zero so -> stored_expr go so (add_entry go so ([], x) a)).
  { intros a x [h1 h2] hx. split; [now apply (ins_sorted go Ho so)|now apply (ins_nonzero go so L)]. }
  assert (SH : forall a x, stored_expr go so a -> stored_expr go so (e_add_const go so a x)).
  { intros a x ha. rewrite add_const_ins. destruct (s_is_zero so x) eqn:Z; auto.
    apply INS; auto. now apply (s_is_zero_false so L). }
  induction 1 as [|x|x m e E|f e E|a b _ IHa _ IHb|a b _ IHa _ IHb|a _ IHa|a b e _ IHa _ IHb E|s a _ IHa
    |a s _ IHa|a s _ IHa|a s _ IHa|s a _ IHa|a e _ IHa E].
  - apply (stored_nil go so).
  - apply (stored_const go so D).
  - exact (stored_e_mono go Ho so D Hc x m e E).
  - exact (stored_linfun go Ho so D Hc f e E).
  - exact (stored_add go Ho so D a b IHa IHb).
  - unfold e_sub. rewrite (sub_assign_add go so L).
    exact (stored_add go Ho so D a _ IHa (stored_map go so (s_neg so) b N IHb)).
  - exact (stored_map go so (s_neg so) a N IHa).
  - exact (stored_mul go Ho so D Hc a b e IHa IHb E).
  - exact (stored_pre go so D s a IHa).
  - exact (stored_post go so D s a IHa).
  - now apply SH.
  - rewrite (sub_const_ins go so L). destruct (s_is_zero so s) eqn:Z; auto.
    apply INS; auto. apply N. now apply (s_is_zero_false so L).
  - unfold e_const_sub. apply SH. apply (stored_map go so (fun x => s_sub so (s_zero so) x)); auto.
    intros x hx. rewrite (s_sub_0_l so L). auto.
  - apply (e_conj_nf go Ho so D Hc CL a e (proj2 IHa) E).
Qed.

(** Multiplication distributes over + and - on both sides, exactly: the stored
    results are identical, and the product of a sum exists whenever the
    products of the summands do. *)
Theorem C59_distributive : gen_order go -> nonzero_constants go -> scalar_domain so ->
  forall a b c p q : expr, stored_expr go so a -> stored_expr go so b -> stored_expr go so c ->
  (e_mul go so a c = Ok p -> e_mul go so b c = Ok q ->
     e_mul go so (e_add go so a b) c = Ok (e_add go so p q) /\
     e_mul go so (e_sub go so a b) c = Ok (e_sub go so p q)) /\
  (e_mul go so c a = Ok p -> e_mul go so c b = Ok q ->
     e_mul go so c (e_add go so a b) = Ok (e_add go so p q) /\
     e_mul go so c (e_sub go so a b) = Ok (e_sub go so p q)).
Proof.
  intros Ho Hc D a b c p q ha hb hc. apply constants_of in Hc. pose proof (sd_laws _ D) as L.
  assert (M1 : s_neg so (s_one so) <> s_zero so).
  { intros h. apply (one_nz so D). now apply (s_neg_zero_iff so L). }
  assert (NP : forall e : expr, neg_map so e = e_mul_const_pre so (s_neg so (s_one so)) e).
  { intros e. unfold e_mul_const_pre. rewrite (proj2 (s_is_zero_false so L _) M1).
    apply map_ext. intros [m x]; simpl. now rewrite (s_mul_neg_l so L), (sl_mul_1_l _ L). }
  assert (NQ : forall e : expr, neg_map so e = e_mul_const_post so e (s_neg so (s_one so))).
  { intros e. unfold e_mul_const_post. rewrite (proj2 (s_is_zero_false so L _) M1).
    apply map_ext. intros [m x]; simpl. now rewrite (s_mul_neg_r so L), (sl_mul_1_r _ L). }
  split; intros Ep Eq; (split;
    [|unfold e_sub; rewrite !(sub_assign_add go so L);
      change (e_add_assign go so a (neg_map so b)) with (e_add go so a (neg_map so b));
      change (e_add_assign go so p (neg_map so q)) with (e_add go so p (neg_map so q))]).
  - exact (e_mul_add_l go Ho so D Hc a b c p q ha hb hc Ep Eq).
  - rewrite !NP. apply (e_mul_add_l go Ho so D Hc); auto.
    + exact (stored_pre go so D _ b hb).
    + now apply (e_mul_pre go Ho so D Hc).
  - exact (e_mul_add_r go Ho so D Hc c a b p q hc ha hb Ep Eq).
  - pose proof (stored_pre go so D (s_neg so (s_one so)) b hb) as hb'.
    rewrite (NP b), (NQ q).
    apply (e_mul_add_r go Ho so D Hc); auto.
    (* c (-b) = (c (-1)) b = (-1 c) b = - (c b) *)
    assert (X : e_mul go so (e_mul_const_post so c (s_neg so (s_one so))) b =
                Ok (e_mul_const_post so q (s_neg so (s_one so)))).
    { rewrite <- !NQ, !NP. now apply (e_mul_pre go Ho so D Hc). }
    exact (e_mul_mid go Ho so D Hc _ c b _ hc hb X).
Qed.

(** Scalar factors can be moved out of a product (to the right only if scalars
    commute) and across it. *)
Theorem C59_scalars : gen_order go -> nonzero_constants go -> scalar_domain so ->
  forall (s : S) (a b p : expr), stored_expr go so a -> stored_expr go so b ->
  (e_mul go so a b = Ok p ->
     e_mul go so (e_mul_const_pre so s a) b = Ok (e_mul_const_pre so s p)) /\
  (e_mul go so (e_mul_const_post so a s) b = Ok p ->
     e_mul go so a (e_mul_const_pre so s b) = Ok p) /\
  ((forall x y, s_mul so x y = s_mul so y x) -> e_mul go so a b = Ok p ->
     e_mul go so a (e_mul_const_post so b s) = Ok (e_mul_const_post so p s)).
Proof.
  intros Ho Hc D s a b p ha hb. apply constants_of in Hc. split; [|split].
  - exact (e_mul_pre go Ho so D Hc s a b p ha hb).
  - exact (e_mul_mid go Ho so D Hc s a b p ha hb).
  - intros comm. exact (e_mul_post go Ho so D Hc s a b p comm ha hb).
Qed.

Lemma sum_lsum {A} (f : A -> S) l : sum_over so f l = lsum so f l.
Proof. induction l as [|x l IH]; simpl; auto. now rewrite IH. Qed.
Lemma coefficient_cf e k : gen_order go -> stored_expr go so e -> coefficient so e k (coef go so e k).
Proof. intros Ho he. now apply (coef_spec go Ho so e k _ (proj1 he)). Qed.

(** There are structure constants, depending on nothing but the concatenated
    monomial, through which every product is computed. *)
Theorem C59_structure_constants : gen_order go -> nonzero_constants go -> scalar_domain so ->
  exists N : list G -> list G -> S,
  forall a b e : expr, stored_expr go so a -> stored_expr go so b -> e_mul go so a b = Ok e ->
  stored_expr go so e /\
  forall k, coefficient so e k
    (sum_over so (fun p => sum_over so (fun q =>
       s_mul so (s_mul so (snd p) (snd q)) (N (fst p ++ fst q) k)) b) a).
Proof.
  intros Ho Hc D. apply constants_of in Hc. exists (nf go so).
  intros a b e ha hb E.
  destruct (e_mul_nf go Ho so D Hc a b e (proj2 ha) (proj2 hb) E) as [he K].
  split; auto. intros k.
  replace (sum_over _ _ _) with (coef go so e k); [now apply coefficient_cf|].
  rewrite K. unfold prod_coef. rewrite sum_lsum. apply lsum_ext. intros p _. symmetry. apply sum_lsum.
Qed.

(** conj(a + b) == conj(a) + conj(b), conj(a s) == conj(s) conj(a) *)
Theorem C59_conj : gen_order go -> nonzero_constants go -> scalar_domain so -> conj_laws so ->
  forall (a b p q : expr) s, stored_expr go so a -> stored_expr go so b ->
  e_conj go so a = Ok p -> e_conj go so b = Ok q ->
  e_conj go so (e_add go so a b) = Ok (e_add go so p q) /\
  e_conj go so (e_mul_const_post so a s) = Ok (e_mul_const_pre so (s_conj so s) p).
Proof.
  intros Ho Hc D CL a b p q s ha hb Ep Eq. apply constants_of in Hc. split.
  - exact (e_conj_add go Ho so D Hc CL a b p q ha hb Ep Eq).
  - exact (e_conj_post go Ho so D Hc CL s a p ha Ep).
Qed.

End Generic.
Print Assumptions C59_stored.
Print Assumptions C59_distributive.
Print Assumptions C59_scalars.
Print Assumptions C59_structure_constants.
Print Assumptions C59_conj.

(** ** The built-in algebras satisfy the hypotheses, whatever the spins *)
Lemma std_nonzero_constants {I} (io : index_ops I) : nonzero_constants (std_gen_ops io).
Proof.
  constructor.
  - intros a b c f _ E.
    destruct a as [d i|d i|m x i], b as [d' j|d' j|m' y j]; cbn [std_gen_ops g_swap gen_swap] in E;
      try (injection E as <- <-; cbn [terms]; split; [intros g v []|reflexivity]).
    destruct (base_equal io _ _ && (m =? m')); [|injection E as <- <-; cbn [terms]; split; [intros g v []|reflexivity]].
    destruct (m =? 2); injection E as <- <-; (split; [|try discriminate; reflexivity]);
      destruct x, y; cbn [terms]; intros g v [h|[]]; injection h as <- <-; reflexivity.
  - intros a b f _ E g v i.
    destruct a as [d k|d k|m x k], b as [d' j|d' j|m' y j]; cbn [std_gen_ops g_simplify gen_simplify] in E;
      try discriminate.
    + destruct (gen_eqb io _ _); inversion E; subst. destruct i.
    + destruct (_ || _); [discriminate|]. injection E as <-.
      destruct x, y; cbn in i; try contradiction; destruct i as [h|[]]; injection h as <- <-; reflexivity.
Qed.

(** and with a scalar type that represents fractions every product exists. *)
Theorem C59_builtin : forall I (io : index_ops I) S (so : scalar_ops S),
  index_order io -> scalar_domain so -> (forall p q, q <> 0%Z -> s_make so (VRat p q) <> None) ->
  forall a b c, let go := std_gen_ops io in
  stored_expr go so a -> stored_expr go so b -> stored_expr go so c ->
  exists ac bc ca cb, e_mul go so a c = Ok ac /\ e_mul go so b c = Ok bc /\
    e_mul go so c a = Ok ca /\ e_mul go so c b = Ok cb /\
    e_mul go so (e_add go so a b) c = Ok (e_add go so ac bc) /\
    e_mul go so c (e_add go so a b) = Ok (e_add go so ca cb).
Proof.
  intros I io S so Hio D HF a b c go ha hb hc.
  assert (AM : alg_make go so (fun _ => True)) by now apply (std_make_frac io so (sd_laws _ D)).
  assert (T : forall x y, exists e, e_mul go so x y = Ok e).
  { intros x y. eapply e_mul_total; eauto; intros m k _; apply Forall_forall; auto. }
  destruct (T a c) as [ac E1], (T b c) as [bc E2], (T c a) as [ca E3], (T c b) as [cb E4].
  exists ac, bc, ca, cb. repeat (split; [assumption|]).
  pose proof (std_order io Hio) as Ho. pose proof (std_nonzero_constants io) as Hc.
  split.
  - exact (proj1 (proj1 (C59_distributive go so Ho Hc D a b c ac bc ha hb hc) E1 E2)).
  - exact (proj1 (proj2 (C59_distributive go so Ho Hc D a b c ca cb ha hb hc) E3 E4)).
Qed.
Print Assumptions C59_builtin.

(** ** A case: spin 1 (where the stored form is not unique, C11) *)
Definition g59 := std_gen_ops int_index_ops.
Definition sp59 : gen Z := GSpin 3 Plus 0%Z.
Definition sm59 : gen Z := GSpin 3 Minus 0%Z.
Definition sz59 : gen Z := GSpin 3 Zcomp 0%Z.
Definition a59 : list (list (gen Z) * Z) := [([sm59], 2%Z); ([sp59; sp59], 5%Z)].
Definition b59 : list (list (gen Z) * Z) := [([sm59], (-2)%Z); ([sm59; sz59], 3%Z)].
Definition c59 : list (list (gen Z) * Z) := [([sp59], 1%Z); ([sp59; sz59], 4%Z)].
Example C59_example :
  stored_expr g59 int_scalar_ops a59 /\ stored_expr g59 int_scalar_ops b59 /\
  stored_expr g59 int_scalar_ops c59 /\
  e_mul g59 int_scalar_ops (e_add g59 int_scalar_ops a59 b59) c59 =
  match e_mul g59 int_scalar_ops a59 c59, e_mul g59 int_scalar_ops b59 c59 with
  | Ok p, Ok q => Ok (e_add g59 int_scalar_ops p q) | _, _ => Bad end /\
  exists r, e_mul g59 int_scalar_ops (e_add g59 int_scalar_ops a59 b59) c59 = Ok r /\ length r = 6.
Proof.
  repeat split; try (repeat constructor; fail);
    try (intros m c [i|[i|[]]]; injection i as <- <-; discriminate).
  vm_compute. eexists. split; reflexivity.
Qed.
