(** Orders of generators, monomials and index tuples. *)
From Coq Require Import String Ascii ZArith Bool Lia List Sorted.
From Verif Require Import ExprModel ExprSpec.
Import ListNotations.
Open Scope nat_scope.
Open Scope list_scope.

Section STO.
Context {A : Type} {eqb ltb gtb : A -> A -> bool}.
Hypothesis H : strict_total_order eqb ltb gtb.

Lemma sto_eqb_refl x : eqb x x = true.
Proof. apply (sto_eq _ _ _ H); reflexivity. Qed.
Lemma sto_asym x y : ltb x y = true -> ltb y x = false.
Proof.
  intros h. destruct (ltb y x) eqn:E; auto.
  pose proof (sto_trans _ _ _ H _ _ _ h E) as K.
  rewrite (sto_irrefl _ _ _ H) in K. discriminate.
Qed.
Lemma sto_neq x y : ltb x y = true -> x <> y.
Proof. intros h ->. rewrite (sto_irrefl _ _ _ H) in h. discriminate. Qed.
Lemma sto_eq_of x y : ltb x y = false -> ltb y x = false -> x = y.
Proof.
  intros a b. destruct (sto_total _ _ _ H x y) as [h|[h|h]]; congruence.
Qed.
Lemma sto_ge x y : ltb x y = false -> x = y \/ ltb y x = true.
Proof. intros a. destruct (sto_total _ _ _ H x y) as [h|[h|h]]; auto; congruence. Qed.
Lemma sto_eqb_false x y : eqb x y = false <-> x <> y.
Proof.
  split; intros h.
  - intros ->. rewrite sto_eqb_refl in h; discriminate.
  - destruct (eqb x y) eqn:E; auto. apply (sto_eq _ _ _ H) in E. contradiction.
Qed.
Lemma sto_eq_dec (x y : A) : {x = y} + {x <> y}.
Proof.
  destruct (eqb x y) eqn:E; [left; apply (sto_eq _ _ _ H); auto|right; apply sto_eqb_false; auto].
Qed.
End STO.

(** *** Generic lexicographic composition *)
Lemma sto_unit : index_order unit_index_ops.
Proof.
  constructor; simpl; try discriminate; try (intros []); auto.
  - intros []. tauto.
  - intros []; auto.
Qed.

Lemma sto_Z : index_order int_index_ops.
Proof.
  constructor; simpl; intros.
  - apply Z.eqb_eq.
  - apply Z.ltb_irrefl.
  - rewrite Z.ltb_lt in *; lia.
  - rewrite !Z.ltb_lt. lia.
  - reflexivity.
Qed.

Lemma nat_of_ascii_inj a b : nat_of_ascii a = nat_of_ascii b -> a = b.
Proof. intros h. rewrite <- (ascii_nat_embedding a), <- (ascii_nat_embedding b). congruence. Qed.

Lemma str_ltb_irrefl s : str_ltb s s = false.
Proof. induction s; simpl; auto. rewrite Nat.ltb_irrefl. auto. Qed.
Lemma str_ltb_trans s : forall t u, str_ltb s t = true -> str_ltb t u = true -> str_ltb s u = true.
Proof.
  induction s as [|a s IH]; intros [|b t] [|c u]; simpl; try congruence; auto.
  intros h1 h2.
  destruct (Nat.ltb (nat_of_ascii a) (nat_of_ascii b)) eqn:E1;
  [|destruct (Nat.ltb (nat_of_ascii b) (nat_of_ascii a)) eqn:E1'; try discriminate];
  (destruct (Nat.ltb (nat_of_ascii b) (nat_of_ascii c)) eqn:E2;
  [|destruct (Nat.ltb (nat_of_ascii c) (nat_of_ascii b)) eqn:E2'; try discriminate]);
  rewrite ?Nat.ltb_lt, ?Nat.ltb_ge in *;
  (destruct (Nat.ltb_spec (nat_of_ascii a) (nat_of_ascii c)); auto;
   destruct (Nat.ltb_spec (nat_of_ascii c) (nat_of_ascii a)); auto; try lia).
  eapply IH; eauto.
Qed.
Lemma str_ltb_total s : forall t, s = t \/ str_ltb s t = true \/ str_ltb t s = true.
Proof.
  induction s as [|a s IH]; intros [|b t]; simpl; auto.
  destruct (Nat.ltb_spec (nat_of_ascii a) (nat_of_ascii b)); auto.
  destruct (Nat.ltb_spec (nat_of_ascii b) (nat_of_ascii a)); auto.
  assert (a = b) by (apply nat_of_ascii_inj; lia). subst b.
  destruct (IH t) as [h|[h|h]]; auto. subst; auto.
Qed.
Lemma sto_string : index_order string_index_ops.
Proof.
  constructor; simpl; intros.
  - apply String.eqb_eq.
  - apply str_ltb_irrefl.
  - eapply str_ltb_trans; eauto.
  - apply str_ltb_total.
  - reflexivity.
Qed.

Lemma sto_tuple {A B} (oa : index_ops A) (ob : index_ops B) :
  index_order oa -> index_order ob -> index_order (tuple_index_ops oa ob).
Proof.
  intros Ha Hb. constructor; simpl.
  - intros [a b] [a' b']; simpl. rewrite andb_true_iff, (sto_eq _ _ _ Ha), (sto_eq _ _ _ Hb).
    split; [intros [-> ->]; auto | intros h; inversion h; auto].
  - intros [a b]; simpl. now rewrite (sto_irrefl _ _ _ Ha), (sto_irrefl _ _ _ Hb).
  - intros [a b] [a' b'] [a'' b'']; simpl. intros h1 h2.
    destruct (i_lt oa a a') eqn:E1.
    + destruct (i_lt oa a' a'') eqn:E2.
      * now rewrite (sto_trans _ _ _ Ha _ _ _ E1 E2).
      * destruct (i_lt oa a'' a') eqn:E3; try discriminate.
        rewrite <- (sto_eq_of Ha _ _ E2 E3). now rewrite E1.
    + destruct (i_lt oa a' a) eqn:E1'; try discriminate.
      rewrite (sto_eq_of Ha _ _ E1 E1').
      destruct (i_lt oa a' a'') eqn:E2; auto.
      destruct (i_lt oa a'' a'); try discriminate.
      eapply (sto_trans _ _ _ Hb); eauto.
  - intros [a b] [a' b']; simpl.
    destruct (sto_total _ _ _ Ha a a') as [h|[h|h]].
    + subst a'. rewrite (sto_irrefl _ _ _ Ha).
      destruct (sto_total _ _ _ Hb b b') as [k|[k|k]]; subst; auto.
    + rewrite h; auto.
    + rewrite h. auto.
  - intros [a b] [a' b']; reflexivity.
Qed.

(** *** std::vector / std::variant comparison *)
Lemma dyn_index_sto :
  strict_total_order dyn_index_eqb dyn_index_ltb (fun a b => dyn_index_ltb b a).
Proof.
  constructor.
  - intros [i|s] [j|t]; simpl; try (split; discriminate).
    + rewrite Z.eqb_eq. split; [intros ->; auto|intros h; inversion h; auto].
    + rewrite String.eqb_eq. split; [intros ->; auto|intros h; inversion h; auto].
  - intros [i|s]; simpl; [apply Z.ltb_irrefl|apply str_ltb_irrefl].
  - intros [i|s] [j|t] [k|u]; simpl; try congruence; auto.
    + rewrite !Z.ltb_lt; lia.
    + apply str_ltb_trans.
  - intros [i|s] [j|t]; simpl; auto.
    + rewrite !Z.ltb_lt. destruct (Z.lt_total i j) as [h|[h|h]]; subst; auto.
    + destruct (str_ltb_total s t) as [h|[h|h]]; subst; auto.
  - reflexivity.
Qed.

Section Lex.
Context {A : Type} (eqb ltb gtb : A -> A -> bool).
Hypothesis H : strict_total_order eqb ltb gtb.

Lemma vec_eqb_eq (a : list A) : forall b, vec_eqb eqb a b = true <-> a = b.
Proof.
  induction a as [|x a IH]; intros [|y b]; simpl; try (split; congruence).
  rewrite andb_true_iff, IH, (sto_eq _ _ _ H).
  split; [intros [-> ->]; auto|intros h; inversion h; auto].
Qed.
Lemma vec_ltb_irrefl (a : list A) : vec_ltb ltb a a = false.
Proof. induction a; simpl; auto. now rewrite (sto_irrefl _ _ _ H). Qed.
Lemma vec_ltb_trans (a : list A) : forall b c,
  vec_ltb ltb a b = true -> vec_ltb ltb b c = true -> vec_ltb ltb a c = true.
Proof.
  induction a as [|x a IH]; intros [|y b] [|z c]; simpl; try congruence; auto.
  intros h1 h2.
  destruct (ltb x y) eqn:E1.
  - destruct (ltb y z) eqn:E2.
    + now rewrite (sto_trans _ _ _ H _ _ _ E1 E2).
    + destruct (ltb z y) eqn:E3; try discriminate.
      rewrite <- (sto_eq_of H _ _ E2 E3). now rewrite E1.
  - destruct (ltb y x) eqn:E1'; try discriminate.
    rewrite (sto_eq_of H _ _ E1 E1').
    destruct (ltb y z) eqn:E2; auto.
    destruct (ltb z y); try discriminate. eapply IH; eauto.
Qed.
Lemma vec_ltb_total (a : list A) : forall b,
  a = b \/ vec_ltb ltb a b = true \/ vec_ltb ltb b a = true.
Proof.
  induction a as [|x a IH]; intros [|y b]; simpl; auto.
  destruct (sto_total _ _ _ H x y) as [h|[h|h]].
  - subst y. rewrite (sto_irrefl _ _ _ H).
    destruct (IH b) as [k|[k|k]]; subst; auto.
  - rewrite h; auto.
  - rewrite h; auto.
Qed.
End Lex.

(** length-first lexicographic order is strict and total *)
Lemma sto_shortlex {A} (eqb ltb gtb : A -> A -> bool) :
  strict_total_order eqb ltb gtb ->
  strict_total_order
    (vec_eqb eqb)
    (fun a b => if negb (Nat.eqb (length a) (length b)) then Nat.ltb (length a) (length b)
                else vec_ltb ltb a b)
    (fun a b => if negb (Nat.eqb (length a) (length b)) then Nat.ltb (length b) (length a)
                else vec_ltb ltb b a).
Proof.
  intros H. constructor.
  - apply vec_eqb_eq with (1 := H).
  - intros x. rewrite Nat.eqb_refl. simpl. eapply vec_ltb_irrefl; eauto.
  - intros x y z.
    destruct (Nat.eqb_spec (length x) (length y)); simpl;
    destruct (Nat.eqb_spec (length y) (length z)); simpl;
    destruct (Nat.eqb_spec (length x) (length z)); simpl;
    rewrite ?Nat.ltb_lt; intros; try lia.
    eapply vec_ltb_trans; eauto.
  - intros x y.
    destruct (Nat.eqb_spec (length x) (length y)) as [e|n]; simpl.
    + rewrite e, Nat.eqb_refl. simpl. eapply vec_ltb_total; eauto.
    + destruct (Nat.eqb_spec (length y) (length x)); simpl; try congruence.
      rewrite !Nat.ltb_lt. lia.
  - intros x y. rewrite (Nat.eqb_sym (length y)). reflexivity.
Qed.

Lemma sto_dyn : index_order dyn_index_ops.
Proof. exact (sto_shortlex _ _ _ dyn_index_sto). Qed.

(** *** Generators *)
Section Gens.
Context {I : Type} (io : index_ops I) (Hio : index_order io).

Lemma comp_code_inj c d : comp_code c = comp_code d -> c = d.
Proof. destruct c, d; simpl; congruence. Qed.
Lemma comp_eqb_eq c d : comp_eqb c d = true <-> c = d.
Proof. unfold comp_eqb. rewrite Nat.eqb_eq. split; [apply comp_code_inj|congruence]. Qed.

Lemma i_eqb_refl i : i_eq io i i = true.
Proof. apply (sto_eq _ _ _ Hio); auto. Qed.

Lemma gen_eqb_eq (g h : gen I) : gen_eqb io g h = true <-> g = h.
Proof.
  unfold gen_eqb.
  destruct g as [d i|d i|m c i], h as [d' j|d' j|m' c' j]; simpl; try (split; congruence);
  unfold base_equal; simpl;
  rewrite ?andb_true_iff, ?(sto_eq _ _ _ Hio), ?Bool.eqb_true_iff, ?Nat.eqb_eq, ?comp_eqb_eq.
  - split; [intros [-> ->]; auto|intros h; inversion h; auto].
  - split; [intros [-> ->]; auto|intros h; inversion h; auto].
  - split; [intros [[-> ->] ->]; auto|intros h; inversion h; auto].
Qed.

Ltac brk :=
  repeat match goal with
  | |- context [Bool.eqb ?a ?b] => destruct (Bool.eqb a b) eqn:?; simpl in *
  end.

Lemma gen_before_ltb (g h : gen I) : gen_before io g h <-> gen_ltb io g h = true.
Proof.
  unfold gen_ltb. split.
  - intros K; inversion K as [| | | | |? ? L| | |? ? L|? ? ? ? ? ? L|? ? ? ? ? L| | |]; subst; simpl; auto.
    + unfold base_greater; simpl. now rewrite (sto_gt _ _ _ Hio).
    + unfold base_greater; simpl. now rewrite (sto_gt _ _ _ Hio).
    + apply Nat.ltb_lt in L. rewrite L.
      destruct (Nat.eqb_spec m m'); simpl; auto. subst. rewrite Nat.ltb_irrefl in L; discriminate.
    + rewrite Nat.eqb_refl; simpl. unfold base_equal; simpl.
      pose proof (sto_neq Hio _ _ L) as N. apply (sto_eqb_false Hio) in N. rewrite N; auto.
    + rewrite Nat.eqb_refl; simpl. unfold base_equal; simpl. now rewrite i_eqb_refl.
    + rewrite Nat.eqb_refl; simpl. unfold base_equal; simpl. now rewrite i_eqb_refl.
    + rewrite Nat.eqb_refl; simpl. unfold base_equal; simpl. now rewrite i_eqb_refl.
  - destruct g as [d i|d i|m c i], h as [d' j|d' j|m' c' j]; simpl; try discriminate;
      try (intros; constructor; fail).
    + destruct d, d'; simpl; try discriminate; intros K; constructor; auto.
      red. unfold base_greater in K. simpl in K. now rewrite (sto_gt _ _ _ Hio) in K.
    + destruct d, d'; simpl; try discriminate; intros K; constructor; auto.
      red. unfold base_greater in K. simpl in K. now rewrite (sto_gt _ _ _ Hio) in K.
    + destruct (Nat.eqb_spec m m'); simpl.
      * subst m'. unfold base_equal; simpl.
        destruct (i_eq io i j) eqn:E; simpl.
        -- apply (sto_eq _ _ _ Hio) in E. subst j.
           destruct c, c'; simpl; intros K; try discriminate K; constructor; fail.
        -- intros K. now constructor.
      * rewrite Nat.ltb_lt. intros. now constructor.
Qed.

Lemma idx_lt_trans i j k : idx_lt io i j -> idx_lt io j k -> idx_lt io i k.
Proof. apply (sto_trans _ _ _ Hio). Qed.
Lemma idx_lt_irrefl i : ~ idx_lt io i i.
Proof. unfold idx_lt. rewrite (sto_irrefl _ _ _ Hio). discriminate. Qed.

Lemma gen_before_trans g h k : gen_before io g h -> gen_before io h k -> gen_before io g k.
Proof.
  intros K1 K2; inversion K1; subst; inversion K2; subst;
    solve [constructor; solve [auto | lia | eapply idx_lt_trans; eauto]].
Qed.
Lemma gen_before_irrefl g : ~ gen_before io g g.
Proof. intros K; inversion K; subst; try (eapply idx_lt_irrefl; eauto; fail); lia. Qed.
Lemma gen_before_total g h : g = h \/ gen_before io g h \/ gen_before io h g.
Proof.
  destruct g as [d i|d i|m c i], h as [d' j|d' j|m' c' j];
    try (right; left; constructor; fail); try (right; right; constructor; fail).
  - destruct d, d'; try (right; left; constructor; fail); try (right; right; constructor; fail);
    (destruct (sto_total _ _ _ Hio i j) as [k|[k|k]];
      [left; congruence|right|right]); (left; constructor; exact k) || (right; constructor; exact k).
  - destruct d, d'; try (right; left; constructor; fail); try (right; right; constructor; fail);
    (destruct (sto_total _ _ _ Hio i j) as [k|[k|k]];
      [left; congruence|right|right]); (left; constructor; exact k) || (right; constructor; exact k).
  - destruct (Nat.lt_total m m') as [k|[k|k]].
    + right; left; now constructor.
    + subst m'. destruct (sto_total _ _ _ Hio i j) as [k|[k|k]].
      * subst j. destruct c, c'; auto; try (right; left; constructor; fail);
          try (right; right; constructor; fail).
      * right; left; now constructor.
      * right; right; now constructor.
    + right; right; now constructor.
Qed.

Lemma gen_gtb_ltb (g h : gen I) : gen_gtb io g h = gen_ltb io h g.
Proof.
  unfold gen_gtb, gen_ltb. rewrite (Z.eqb_sym (algebra_id h)).
  destruct (Z.eqb _ _) eqn:E; simpl; auto.
  destruct g as [d i|d i|m c i], h as [d' j|d' j|m' c' j]; simpl in *; try discriminate; auto.
  - destruct d, d'; simpl; auto; unfold base_greater, base_less; simpl; now rewrite (sto_gt _ _ _ Hio).
  - destruct d, d'; simpl; auto; unfold base_greater, base_less; simpl; now rewrite (sto_gt _ _ _ Hio).
  - rewrite (Nat.eqb_sym m' m). destruct (Nat.eqb m m'); simpl; auto.
    unfold base_equal; simpl.
    replace (i_eq io j i) with (i_eq io i j).
    + destruct (i_eq io i j); simpl; auto. unfold base_greater, base_less; simpl. apply (sto_gt _ _ _ Hio).
    + destruct (i_eq io i j) eqn:E1, (i_eq io j i) eqn:E2; auto.
      * apply (sto_eq _ _ _ Hio) in E1. subst. rewrite i_eqb_refl in E2; discriminate.
      * apply (sto_eq _ _ _ Hio) in E2. subst. rewrite i_eqb_refl in E1; discriminate.
Qed.

Lemma gen_sto : strict_total_order (gen_eqb io) (gen_ltb io) (gen_gtb io).
Proof.
  constructor.
  - apply gen_eqb_eq.
  - intros x. destruct (gen_ltb io x x) eqn:E; auto.
    apply gen_before_ltb in E. now apply gen_before_irrefl in E.
  - intros x y z. rewrite <- !gen_before_ltb. apply gen_before_trans.
  - intros x y. rewrite <- !gen_before_ltb. apply gen_before_total.
  - apply gen_gtb_ltb.
Qed.
End Gens.

(** *** Monomials over any totally ordered set of generators *)
Definition gen_order {G} (go : gen_ops G) : Prop :=
  strict_total_order (g_eq go) (g_lt go) (g_gt go).

Section Monos.
Context {G : Type} (go : gen_ops G) (Hgo : gen_order go).

Lemma lex_compare_vec lt (m : list G) : forall n, lex_compare lt m n = vec_ltb lt m n.
Proof. induction m as [|g m IH]; intros [|h n]; simpl; auto. now rewrite IH. Qed.

Lemma mono_eqb_vec (m : list G) : forall n, mono_eqb go m n = vec_eqb (g_eq go) m n.
Proof.
  unfold mono_eqb.
  induction m as [|g m IH]; intros [|h n]; simpl; auto.
  rewrite <- IH. destruct (g_eq go g h); simpl; auto. now rewrite andb_false_r.
Qed.

Lemma vec_gt_lt (m : list G) : forall n, length m = length n ->
  vec_ltb (g_gt go) m n = vec_ltb (g_lt go) n m.
Proof.
  induction m as [|g m IH]; intros [|h n]; simpl; auto; try discriminate.
  intros E. rewrite !(sto_gt _ _ _ Hgo), IH; auto.
Qed.

Lemma mono_sto : strict_total_order (mono_eqb go) (mono_lt go) (mono_gt go).
Proof.
  pose proof (sto_shortlex _ _ _ Hgo) as K. constructor.
  - intros. rewrite mono_eqb_vec. apply (sto_eq _ _ _ K).
  - intros x. unfold mono_lt. rewrite lex_compare_vec. apply (sto_irrefl _ _ _ K).
  - intros x y z. unfold mono_lt. rewrite !lex_compare_vec. apply (sto_trans _ _ _ K).
  - intros x y. unfold mono_lt. rewrite !lex_compare_vec. apply (sto_total _ _ _ K).
  - intros x y. unfold mono_lt, mono_gt. rewrite !lex_compare_vec.
    rewrite (Nat.eqb_sym (length y)).
    destruct (Nat.eqb_spec (length x) (length y)); simpl; auto.
    now apply vec_gt_lt.
Qed.

(** sortedness by the model's comparison *)
Definition gle (g h : G) : Prop := g_lt go h g = false.

Lemma gle_refl g : gle g g.
Proof. apply (sto_irrefl _ _ _ Hgo). Qed.
Lemma gle_trans g h k : gle g h -> gle h k -> gle g k.
Proof.
  unfold gle. intros a b. destruct (g_lt go k g) eqn:E; auto.
  destruct (sto_ge Hgo _ _ b) as [->|c].
  - congruence.
  - rewrite (sto_trans _ _ _ Hgo _ _ _ c E) in a. discriminate.
Qed.
Lemma gle_antisym g h : gle g h -> gle h g -> g = h.
Proof. unfold gle. intros a b. symmetry. eapply (sto_eq_of Hgo); eauto. Qed.
Lemma gle_total g h : gle g h \/ gle h g.
Proof.
  unfold gle. destruct (g_lt go h g) eqn:E; auto. right. eapply (sto_asym Hgo); eauto.
Qed.
Lemma lt_gle g h : g_lt go g h = true -> gle g h.
Proof. unfold gle. apply (sto_asym Hgo). Qed.

Lemma is_ordered_sorted (m : list G) : is_ordered go m = true <-> StronglySorted gle m.
Proof.
  enough (E : is_ordered go m = true <-> Sorted gle m).
  { rewrite E. split; [apply Sorted_StronglySorted; exact gle_trans|apply StronglySorted_Sorted]. }
  induction m as [|g [|h m] IH].
  - split; auto; try constructor.
  - split; intros; repeat constructor.
  - change (is_ordered go (g :: h :: m)) with (negb (g_lt go h g) && is_ordered go (h :: m)).
    rewrite andb_true_iff, IH, negb_true_iff. split.
    + intros [a b]. constructor; auto.
    + intros a. inversion a as [|? ? a1 a2]; subst. inversion a2; subst. auto.
Qed.
End Monos.
