(** C67: printing expressions. *)
From Coq Require Import ZArith Bool Ascii String Lia List.
From Verif Require Import ExprModel ExprSpec ExprOrder ExprMain LinSpec PrintModel PrintSpec PrintProofs.
Import ListNotations.
Open Scope nat_scope.
Open Scope list_scope.
Notation dgo := (std_gen_ops dyn_index_ops).

Lemma readable_plain i : readable_index i -> plain i.
Proof.
  destruct i as [z|s]; cbn; auto. intros [h1 [h2 h3]]. split; auto. split; auto. clear h1 h3.
  induction s as [|c s IH]; cbn; auto. split.
  - destruct (h2 0 c eq_refl) as [k1 k2]. unfold idch. apply Ascii.eqb_neq in k1. apply Ascii.eqb_neq in k2. now rewrite k1, k2.
  - apply IH. intros n d h. exact (h2 (S n) d h).
Qed.
Lemma readable_plain_expr e : readable_expr e -> plain_expr e.
Proof.
  intros h m c i. apply Forall_forall. intros g j. apply Forall_forall. intros x k. apply readable_plain. exact (h m c g i j x k).
Qed.

(** Two expressions with integer coefficients that print the same are equal. *)
Theorem C67_injective : forall a b,
  stored_expr dgo int_scalar_ops a -> stored_expr dgo int_scalar_ops b -> readable_expr a -> readable_expr b ->
  expr_str dgo gen_str a = expr_str dgo gen_str b -> a = b.
Proof.
  intros a b [_ ha] [_ hb] ra rb. apply (expr_inj (std_order _ sto_dyn)); auto using readable_plain_expr.
Qed.
(** In particular if all indices are integers. *)
Theorem C67_int_indices : forall a b,
  stored_expr dgo int_scalar_ops a -> stored_expr dgo int_scalar_ops b -> int_indices a -> int_indices b ->
  expr_str dgo gen_str a = expr_str dgo gen_str b -> a = b.
Proof.
  intros a b ha hb ia ib. apply C67_injective; auto.
  - intros m c g i j x k. destruct (ia m c g x i j k) as [z -> ]. exact I.
  - intros m c g i j x k. destruct (ib m c g x i j k) as [z -> ]. exact I.
Qed.
(** Generators and monomials are not confused either. *)
Theorem C67_monomials : forall m n, (forall g, In g m -> readable_gen g) -> (forall g, In g n -> readable_gen g) ->
  mono_str dgo gen_str m = mono_str dgo gen_str n -> m = n.
Proof.
  intros m n hm hn e. refine (proj1 (mono_code (std_order _ sto_dyn) m n "" "" _ _ _ _ _)).
  - apply Forall_forall. intros g i. apply Forall_forall. intros x k. apply readable_plain. exact (hm g i x k).
  - apply Forall_forall. intros g i. apply Forall_forall. intros x k. apply readable_plain. exact (hn g i x k).
  - split; exact I.
  - split; exact I.
  - now rewrite e.
Qed.

(** With other string indices this fails: an integer index and its decimal
    representation, one index with a comma and two indices, no index and the
    empty string print the same. *)
Theorem C67_strings_refuted : exists a b a' b' a'' b'',
  a <> b /\ a' <> b' /\ a'' <> b'' /\
  stored_expr dgo int_scalar_ops [([a], 1%Z)] /\ stored_expr dgo int_scalar_ops [([b], 1%Z)] /\
  gen_eqb dyn_index_ops a b = false /\ gen_eqb dyn_index_ops a' b' = false /\ gen_eqb dyn_index_ops a'' b'' = false /\
  expr_str dgo gen_str [([a], 1%Z)] = expr_str dgo gen_str [([b], 1%Z)] /\
  expr_str dgo gen_str [([a'], 1%Z)] = expr_str dgo gen_str [([b'], 1%Z)] /\
  expr_str dgo gen_str [([a''], 1%Z)] = expr_str dgo gen_str [([b''], 1%Z)].
Proof.
  exists (GFermion true [DInt 1]), (GFermion true [DStr "1"]),
    (GFermion true [DStr "a,b"]), (GFermion true [DStr "a"; DStr "b"]), (GFermion true []), (GFermion true [DStr ""]).
  assert (St : forall g, stored_expr dgo int_scalar_ops [([g], 1%Z)]).
  { intros g. split; [repeat constructor|]. intros m c [e|[]]. injection e as <- <-. discriminate. }
  repeat split; try discriminate; try apply St; vm_compute; reflexivity.
Qed.

(** The loop that prints a monomial leaves the iterator next_it one position
    beyond end(), whatever the monomial. *)
Theorem C67_past_the_end : forall m, snd (mono_print dgo gen_str m) = length m + 1.
Proof. intros m. now rewrite mono_print_rle. Qed.

(** Concrete cases *)
Example C67_case :
  expr_str dgo gen_str
    [([], (-3)%Z); ([GFermion true [DInt 1; DStr "up"]; GFermion false [DInt 1; DStr "up"]], 12%Z);
     ([GBoson true [DInt 0]; GBoson true [DInt 0]; GBoson false [DInt (-7)]; GSpin 2 Plus [DInt 0]; GSpin 4 Zcomp []; GSpin 5 Minus []], 1%Z)] =
  "-3 + 12*C+(1,up)C(1,up) + 1*[A+(0)]^2A(-7)S+(0)S3/2z()S2-()"%string.
Proof. vm_compute. reflexivity. Qed.
Example C67_readable : readable_expr [([GFermion true [DInt 1; DStr "up"]], 12%Z)].
Proof.
  intros m c g [e|[]] j. injection e as <- <-. destruct j as [ <- |[]]. intros i [ <- |[ <- |[]]]; [exact I|]. split; [discriminate|]. split.
  - intros [|[|n]] c h; cbn in h; try (inversion h; subst; split; discriminate).
  - intros z e. pose proof (PrintProofs.int_head z) as [c [s [E K]]]. rewrite <- e in E. inversion E; subst. destruct K as [K|[K _]]; discriminate.
Qed.
Print Assumptions C67_injective.
Print Assumptions C67_int_indices.
Print Assumptions C67_monomials.
Print Assumptions C67_strings_refuted.
Print Assumptions C67_past_the_end.
