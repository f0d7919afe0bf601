(** * C60: the tolerance of the zero test of floating point coefficients *)
From Coq Require Import ZArith Bool Lia QArith Qcanon Qcabs List Sorted.
From Verif Require Import ExprModel ExprSpec ExprOrder ExprMap ExprEval ExprHom ExprMain ExprInst LinSpec TolModel TolSpec TolProofs.
Import ListNotations.
Close Scope Qc_scope.
Close Scope Q_scope.
Open Scope nat_scope.
Open Scope list_scope.

(** ** What + and - store, for an arbitrary scalar type (no laws assumed) *)
Section Sums.
Context {G S : Type} (go : gen_ops G) (so : scalar_ops S).
Notation expr := (@emap G S).

Lemma find_sums : gen_order go -> forall (a b : expr) (m : @mono G), msorted go a -> msorted go b ->
  map_find go m (e_add go so a b) =
    merged so (s_add so) (fun x => x) (map_find go m a) (map_find go m b) /\
  map_find go m (e_sub go so a b) =
    merged so (s_sub so) (s_sub so (s_zero so)) (map_find go m a) (map_find go m b).
Proof.
  intros Ho a b m ha hb. pose proof (mono_sto go Ho) as Hm.
  split.
  - revert a ha. unfold e_add, e_add_assign. induction b as [|[k c] b IH]; intros a ha; cbn [fold_left].
    + destruct (map_find go m a); reflexivity.
    + pose proof (msorted_inv go _ _ _ hb) as [hb1 hb2].
      rewrite (IH hb1 _ (ins_sorted go Ho so k c a ha)), (find_ins go so Ho k c a m ha).
      cbn [map_find]. destruct (mono_dec go Ho m k) as [->|n].
      * rewrite (sto_irrefl _ _ _ Hm).
        replace (map_find go k b) with (@None S)
          by (symmetry; apply (find_None go Ho); auto; intros w i; apply hb2 in i;
              rewrite (sto_irrefl _ _ _ Hm) in i; discriminate).
        destruct (map_find go k a) as [v|]; cbn [merged]; auto.
        destruct (s_is_zero so (s_add so v c)); reflexivity.
      * destruct (mono_lt go k m) eqn:E3; auto.
        destruct (mono_lt go m k) eqn:E4.
        -- replace (map_find go m b) with (@None S); auto.
           symmetry; apply (find_None go Ho); auto. intros w i. apply hb2 in i. congruence.
        -- exfalso; apply n. eapply (sto_eq_of Hm); eauto.
  - revert a ha. unfold e_sub, e_sub_assign.
    assert (SUB : forall k c (e : expr), msorted go e ->
      map_find go m (sub_entry go so (k, c) e) =
      if mono_dec go Ho m k then merged so (s_sub so) (s_sub so (s_zero so)) (map_find go k e) (Some c)
      else map_find go m e).
    { intros k c e he. unfold sub_entry; simpl fst; simpl snd.
      set (so' := mk_scalar_ops S (s_zero so) (s_one so) (s_sub so) (s_sub so) (s_mul so) (s_neg so)
                    (s_is_zero so) (s_make so) (s_conj so)).
      destruct (map_find go k e) as [v|] eqn:F.
      - pose proof (fun m => find_ins go so' Ho k c e m he) as K. unfold add_entry in K. simpl fst in K; simpl snd in K.
        rewrite F in K. apply K.
      - pose proof (fun m => find_ins go so Ho k (s_sub so (s_zero so) c) e m he) as K. unfold add_entry in K. simpl fst in K; simpl snd in K.
        rewrite F in K. apply K. }
    assert (SRT : forall k c (e : expr), msorted go e -> msorted go (sub_entry go so (k, c) e)).
    { intros k c e he. unfold sub_entry; simpl fst; simpl snd.
      set (so' := mk_scalar_ops S (s_zero so) (s_one so) (s_sub so) (s_sub so) (s_mul so) (s_neg so)
                    (s_is_zero so) (s_make so) (s_conj so)).
      destruct (map_find go k e) as [v|] eqn:F.
      - pose proof (ins_sorted go Ho so' k c e he) as K. unfold add_entry in K. simpl fst in K; simpl snd in K.
        rewrite F in K. apply K.
      - pose proof (ins_sorted go Ho so k (s_sub so (s_zero so) c) e he) as K. unfold add_entry in K. simpl fst in K; simpl snd in K.
        rewrite F in K. apply K. }
    induction b as [|[k c] b IH]; intros a ha; cbn [fold_left].
    + destruct (map_find go m a); reflexivity.
    + pose proof (msorted_inv go _ _ _ hb) as [hb1 hb2].
      rewrite (IH hb1 _ (SRT k c a ha)), (SUB k c a ha).
      cbn [map_find]. destruct (mono_dec go Ho m k) as [->|n].
      * rewrite (sto_irrefl _ _ _ Hm).
        replace (map_find go k b) with (@None S)
          by (symmetry; apply (find_None go Ho); auto; intros w i; apply hb2 in i;
              rewrite (sto_irrefl _ _ _ Hm) in i; discriminate).
        destruct (map_find go k a) as [v|]; cbn [merged]; auto.
        destruct (s_is_zero so (s_sub so v c)); reflexivity.
      * destruct (mono_lt go k m) eqn:E3; auto.
        destruct (mono_lt go m k) eqn:E4.
        -- replace (map_find go m b) with (@None S); auto.
           symmetry; apply (find_None go Ho); auto. intros w i. apply hb2 in i. congruence.
        -- exfalso; apply n. eapply (sto_eq_of Hm); eauto.
Qed.

Lemma entry_find : gen_order go -> forall (e : expr) m o, msorted go e -> (entry e m o <-> map_find go m e = o).
Proof.
  intros Ho e m o he. destruct o as [v|]; unfold entry.
  - symmetry. now apply (find_In go Ho).
  - symmetry. now apply (find_None go Ho).
Qed.
Lemma sums_sorted : gen_order go -> forall (a b : expr), msorted go a -> msorted go b ->
  msorted go (e_add go so a b) /\ msorted go (e_sub go so a b).
Proof.
  intros Ho a b ha _. split.
  - unfold e_add, e_add_assign. revert a ha. induction b as [|[k c] b IH]; intros a ha; cbn [fold_left]; auto.
    apply IH. now apply ins_sorted.
  - unfold e_sub, e_sub_assign. revert a ha. induction b as [|[k c] b IH]; intros a ha; cbn [fold_left]; auto.
    apply IH. unfold sub_entry; simpl fst; simpl snd.
    set (so' := mk_scalar_ops S (s_zero so) (s_one so) (s_sub so) (s_sub so) (s_mul so) (s_neg so)
                  (s_is_zero so) (s_make so) (s_conj so)).
    destruct (map_find go k a) as [v|] eqn:F.
    + pose proof (ins_sorted go Ho so' k c a ha) as K. unfold add_entry in K. simpl fst in K; simpl snd in K.
      rewrite F in K. apply K.
    + pose proof (ins_sorted go Ho so k (s_sub so (s_zero so) c) a ha) as K. unfold add_entry in K. simpl fst in K; simpl snd in K.
      rewrite F in K. apply K.
Qed.

(** Every scalar type, whatever its arithmetic and its zero test: a + b stores
    v + w for a monomial with coefficients v in a and w in b unless the zero
    test accepts v + w, and copies the coefficient of a monomial that is in only
    one of them without testing it; similarly a - b. *)
Theorem C60_sums : gen_order go -> forall (a b : expr) m x y, keys_sorted go a -> keys_sorted go b ->
  entry a m x -> entry b m y ->
  (keys_sorted go (e_add go so a b) /\ entry (e_add go so a b) m (merged so (s_add so) (fun w => w) x y)) /\
  (keys_sorted go (e_sub go so a b) /\ entry (e_sub go so a b) m (merged so (s_sub so) (s_sub so (s_zero so)) x y)).
Proof.
  intros Ho a b m x y ha hb Ex Ey. destruct (sums_sorted Ho a b ha hb) as [s1 s2].
  apply (entry_find Ho _ _ _ ha) in Ex. apply (entry_find Ho _ _ _ hb) in Ey.
  destruct (find_sums Ho a b m ha hb) as [F1 F2].
  rewrite Ex in F1, F2. rewrite Ey in F1, F2.
  split; (split; [assumption|]); now apply (entry_find Ho).
Qed.
End Sums.
Print Assumptions C60_sums.


(** ** Real and complex coefficients *)
Lemma tol_with tol : tol_scalar_ops tol = with_zero_test rational_scalar_ops (fun x => qc_abs_ltb x tol).
Proof. reflexivity. Qed.
Lemma tol_cx_with tol : tol_cx_scalar_ops tol =
  with_zero_test cx_scalar_ops (fun x => qc_abs_ltb (fst x) tol && qc_abs_ltb (snd x) tol).
Proof. reflexivity. Qed.

Lemma qc_ltb_spec x y : qc_ltb x y = true <-> (x < y)%Qc.
Proof.
  unfold qc_ltb, Qclt. rewrite negb_true_iff. destruct (Qle_bool y x) eqn:E.
  - apply Qle_bool_iff in E. split; [discriminate|]. intros h. exfalso. now apply (Qlt_not_le _ _ h).
  - split; auto. intros _. apply Qnot_le_lt. intros h. apply Qle_bool_iff in h. congruence.
Qed.
Lemma qc_abs_ltb_spec x tol : qc_abs_ltb x tol = true <-> (Qcabs x < tol)%Qc.
Proof. apply qc_ltb_spec. Qed.

(** ** The error of a product *)
(** at most n times the tolerance *)
Definition within (tol : Qc) (n : nat) (x : Qc) : Prop := (Qcabs x <= qcz (Z.of_nat n) * tol)%Qc.

Lemma qcz_le a b : (a <= b)%Z -> (qcz a <= qcz b)%Qc.
Proof.
  intros h. unfold Qcle, qcz. cbn [this Q2Qc]. rewrite !Qred_correct. rewrite <- Zle_Qle. exact h.
Qed.
Section Within.
Context (tol : Qc) (ht : (Q2Qc 0 < tol)%Qc).
Lemma within_0 : within tol 0 (Q2Qc 0).
Proof. unfold within. apply Qcle_trans with (Q2Qc 0); [rewrite Qcabs_pos; apply Qcle_refl|]. simpl. change (qcz 0) with (Q2Qc 0). rewrite Qcmult_0_l. apply Qcle_refl. Qed.
Lemma within_add a b x y : within tol a x -> within tol b y -> within tol (a + b) (x + y)%Qc.
Proof.
  unfold within. intros h1 h2. eapply Qcle_trans; [apply Qcabs_triangle|].
  rewrite Nat2Z.inj_add, qcz_add, Qcmult_plus_distr_l. now apply Qcplus_le_compat.
Qed.
Lemma within_mono a b x : a <= b -> within tol a x -> within tol b x.
Proof.
  unfold within. intros h k. eapply Qcle_trans; [exact k|]. apply Qcmult_le_compat_r.
  - apply qcz_le. lia.
  - now apply Qclt_le_weak.
Qed.
Lemma within_neg a x : within tol a x -> within tol a (- x)%Qc.
Proof. unfold within. now rewrite Qcabs_opp. Qed.
Lemma within_test x : qc_abs_ltb x tol = true -> within tol 1 x.
Proof.
  rewrite qc_abs_ltb_spec. intros h. unfold within. change (Z.of_nat 1) with 1%Z.
  change (qcz 1) with (Q2Qc 1). change (Q2Qc 1) with 1%Qc. rewrite Qcmult_1_l. now apply Qclt_le_weak.
Qed.
Lemma zero_test : qc_abs_ltb (Q2Qc 0) tol = true.
Proof. rewrite qc_abs_ltb_spec. rewrite Qcabs_pos; [exact ht|apply Qcle_refl]. Qed.
End Within.

Lemma coefficient_coef {G S} (go : gen_ops G) (Ho : gen_order go) (so : scalar_ops S) e k c :
  msorted go e -> coefficient so e k c -> c = coef go so e k.
Proof.
  intros he [h|[-> h]]; unfold coef.
  - apply (find_In go Ho) in h; auto. now rewrite h.
  - apply (find_None go Ho) in h; auto. now rewrite h.
Qed.

(** The product of expressions with floating point coefficients differs from
    the exact product, coefficient by coefficient, by at most the tolerance
    times a number that depends on the lengths of the monomials alone. *)
Theorem C60_product : forall {G} (go : gen_ops G) tol a b e0, gen_order go -> few_terms go -> (Q2Qc 0 < tol)%Qc ->
  e_mul go rational_scalar_ops a b = Ok e0 ->
  exists e, e_mul go (tol_scalar_ops tol) a b = Ok e /\ keys_sorted go e /\
  forall m x x0, coefficient (tol_scalar_ops tol) e m x -> coefficient rational_scalar_ops e0 m x0 ->
    (Qcabs (x - x0) <= qcz (Z.of_nat (drops_all a b)) * tol)%Qc.
Proof.
  intros G go tol a b e0 Ho FT ht E.
  destruct (e_mul_near go Ho FT rational_scalar_ops (sd_laws _ rational_domain) (fun x => qc_abs_ltb x tol)
    (zero_test tol ht) (within tol) (within_0 tol) (within_add tol) (within_mono tol ht)
    (within_neg tol) (within_test tol) a b e0 E) as [h0 [e [E1 [he o]]]].
  exists e. split; [exact E1|]. split; [exact he|]. intros m x x0 hx hx0.
  apply (coefficient_coef go Ho) in hx; auto. apply (coefficient_coef go Ho) in hx0; auto. subst x x0.
  exact (o m).
Qed.
Print Assumptions C60_product.

Theorem C60_product_complex : forall {G} (go : gen_ops G) tol a b e0, gen_order go -> few_terms go -> (Q2Qc 0 < tol)%Qc ->
  e_mul go cx_scalar_ops a b = Ok e0 ->
  exists e, e_mul go (tol_cx_scalar_ops tol) a b = Ok e /\ keys_sorted go e /\
  forall m x x0, coefficient (tol_cx_scalar_ops tol) e m x -> coefficient cx_scalar_ops e0 m x0 ->
    (Qcabs (fst x - fst x0) <= qcz (Z.of_nat (drops_all a b)) * tol)%Qc /\
    (Qcabs (snd x - snd x0) <= qcz (Z.of_nat (drops_all a b)) * tol)%Qc.
Proof.
  intros G go tol a b e0 Ho FT ht E.
  destruct (e_mul_near go Ho FT cx_scalar_ops (sd_laws _ cx_domain)
    (fun x => qc_abs_ltb (fst x) tol && qc_abs_ltb (snd x) tol)
    (proj2 (andb_true_iff _ _) (conj (zero_test tol ht) (zero_test tol ht)))
    (fun n x => within tol n (fst x) /\ within tol n (snd x))
    (conj (within_0 tol) (within_0 tol))
    (fun m n x y h k => conj (within_add tol m n _ _ (proj1 h) (proj1 k)) (within_add tol m n _ _ (proj2 h) (proj2 k)))
    (fun m n x h k => conj (within_mono tol ht m n _ h (proj1 k)) (within_mono tol ht m n _ h (proj2 k)))
    (fun m x h => conj (within_neg tol m _ (proj1 h)) (within_neg tol m _ (proj2 h)))
    (fun x h => conj (within_test tol _ (proj1 (proj1 (andb_true_iff _ _) h))) (within_test tol _ (proj2 (proj1 (andb_true_iff _ _) h))))
    a b e0 E) as [h0 [e [E1 [he o]]]].
  exists e. split; [exact E1|]. split; [exact he|]. intros m x x0 hx hx0.
  apply (coefficient_coef go Ho) in hx; auto. apply (coefficient_coef go Ho) in hx0; auto. subst x x0.
  exact (o m).
Qed.
Print Assumptions C60_product_complex.

(** the built-in algebras qualify, whatever the spins *)
Theorem C60_builtin : forall I (io : index_ops I), few_terms (std_gen_ops io).
Proof.
  intros I io. constructor.
  - intros a b c f E.
    destruct a as [d i|d i|m x i], b as [d' j|d' j|m' y j]; cbn [std_gen_ops g_swap gen_swap] in E;
      try (injection E as <- <-; simpl; lia).
    destruct (base_equal io _ _ && (m =? m')); [|injection E as <- <-; simpl; lia].
    destruct (m =? 2); injection E as <- <-; destruct x, y; simpl; lia.
  - intros a b f E.
    destruct a as [d k|d k|m x k], b as [d' j|d' j|m' y j]; cbn [std_gen_ops g_simplify gen_simplify] in E;
      try discriminate.
    + destruct (gen_eqb io _ _); inversion E; subst. simpl; lia.
    + destruct (_ || _); [discriminate|]. injection E as <-. destruct x, y; simpl; lia.
  - intros g p f E. destruct g as [d k|d k|m x k]; cbn [std_gen_ops g_reduce gen_reduce] in E; try discriminate.
    all: repeat match type of E with context [if ?b then _ else _] => destruct b end; try discriminate;
      injection E as <-; reflexivity.
Qed.
Print Assumptions C60_builtin.

(** ** The error of a sum: a coefficient is off by less than the tolerance, and
    only if it was dropped because it is that small *)
Lemma Qcltz (x : Qc) : (Q2Qc 0 < x)%Qc -> (Qcabs (Q2Qc 0) < x)%Qc.
Proof. intros h. rewrite Qcabs_pos; [exact h|apply Qcle_refl]. Qed.
Theorem C60_sum_error : forall {G} (go : gen_ops G) tol a b m x y s d, gen_order go -> (Q2Qc 0 < tol)%Qc ->
  keys_sorted go a -> keys_sorted go b ->
  let T := tol_scalar_ops tol in
  coefficient T a m x -> coefficient T b m y ->
  coefficient T (e_add go T a b) m s -> coefficient T (e_sub go T a b) m d ->
  ((s = (x + y)%Qc \/ (s = Q2Qc 0 /\ (Qcabs (x + y) < tol)%Qc)) /\ (Qcabs (s - (x + y)) < tol)%Qc) /\
  ((d = (x - y)%Qc \/ (d = Q2Qc 0 /\ (Qcabs (x - y) < tol)%Qc)) /\ (Qcabs (d - (x - y)) < tol)%Qc).
Proof.
  intros G go tol a b m x y s d Ho ht ha hb T hx hy hs hd.
  destruct (sums_sorted go T Ho a b ha hb) as [s1 s2].
  apply (coefficient_coef go Ho) in hx; auto. apply (coefficient_coef go Ho) in hy; auto.
  apply (coefficient_coef go Ho) in hs; auto. apply (coefficient_coef go Ho) in hd; auto.
  destruct (find_sums go T Ho a b m ha hb) as [F1 F2]. unfold coef in *.
  rewrite F1 in hs. rewrite F2 in hd. clear F1 F2.
  assert (AUX : forall u v : Qc, (u = v \/ (u = Q2Qc 0 /\ (Qcabs v < tol)%Qc)) ->
    (u = v \/ (u = Q2Qc 0 /\ (Qcabs v < tol)%Qc)) /\ (Qcabs (u - v) < tol)%Qc).
  { intros u v h. split; auto. destruct h as [->|[-> h]].
    - replace (v - v)%Qc with (Q2Qc 0) by ring. now apply Qcltz.
    - replace (Q2Qc 0 - v)%Qc with (- v)%Qc by ring. now rewrite Qcabs_opp. }
  split; apply AUX; subst x y s d;
    destruct (map_find go m a) as [v|], (map_find go m b) as [w|]; cbn [merged]; simpl s_add; simpl s_sub; simpl s_zero; simpl s_is_zero.
  - destruct (qc_abs_ltb (v + w)%Qc tol) eqn:Z; auto. right. split; auto. now apply qc_abs_ltb_spec.
  - left; ring.
  - left; ring.
  - left; ring.
  - destruct (qc_abs_ltb (v - w)%Qc tol) eqn:Z; auto. right. split; auto. now apply qc_abs_ltb_spec.
  - left; ring.
  - left; ring.
  - left; ring.
Qed.
Print Assumptions C60_sum_error.

(** ** Integer coefficients: nothing is ever lost *)
Lemma tol_hom tol : (Q2Qc 0 < tol)%Qc -> (tol <= 1)%Qc -> scalar_hom int_scalar_ops (tol_scalar_ops tol) qcz.
Proof.
  intros h0 h1. destruct int_to_rational as [k1 k2 k3 k4 k5 k6 k7 k8].
  constructor; auto. intros x. simpl. change (qc_abs_ltb (qcz x) tol = Z.eqb 0 x).
  destruct (Z.eqb_spec 0 x) as [<-|n].
  - exact (zero_test tol h0).
  - destruct (qc_abs_ltb (qcz x) tol) eqn:E; auto. exfalso. apply qc_abs_ltb_spec in E.
    assert (K : (1 <= Qcabs (qcz x))%Qc).
    { destruct (Z_lt_le_dec x 0) as [l|l].
      - assert (x <= -1)%Z by lia. rewrite Qcabs_neg.
        + rewrite <- qcz_opp. apply (qcz_le 1). lia.
        + apply (qcz_le x 0). lia.
      - rewrite Qcabs_pos; [apply (qcz_le 1); lia|apply (qcz_le 0); lia]. }
    pose proof (Qclt_le_trans _ _ _ E h1) as K2.
    apply (Qcle_not_lt _ _ K) in K2. exact K2.
Qed.
Theorem C60_integers : forall {G} (go : gen_ops G) tol a b s m e, (Q2Qc 0 < tol)%Qc -> (tol <= 1)%Qc ->
  let T := tol_scalar_ops tol in let Q := @embed G Qc qcz in
  e_add go T (Q a) (Q b) = Q (e_add go int_scalar_ops a b) /\
  e_sub go T (Q a) (Q b) = Q (e_sub go int_scalar_ops a b) /\
  e_neg T (Q a) = Q (e_neg int_scalar_ops a) /\
  e_mul_const_pre T (qcz s) (Q a) = Q (e_mul_const_pre int_scalar_ops s a) /\
  (e_mono go int_scalar_ops s m = Ok e -> e_mono go T (qcz s) m = Ok (Q e)) /\
  (e_mul go int_scalar_ops a b = Ok e -> e_mul go T (Q a) (Q b) = Ok (Q e)) /\
  (e_conj go int_scalar_ops a = Ok e -> e_conj go T (Q a) = Ok (Q e)).
Proof.
  intros G go tol a b s m e h0 h1 T Q. pose proof (tol_hom tol h0 h1) as H.
  split; [exact (hom_add go int_scalar_ops T qcz H b a)|].
  split; [exact (hom_sub go int_scalar_ops T qcz H b a)|].
  split; [exact (hom_neg int_scalar_ops T qcz H a)|].
  split.
  { unfold e_mul_const_pre. rewrite (sh_is_zero _ _ _ H). destruct (s_is_zero int_scalar_ops s); auto.
    unfold Q, embed. rewrite !map_map. apply map_ext. intros [k c]; cbn [fst snd]. now rewrite (sh_mul _ _ _ H). }
  split; [exact (hom_e_mono go int_scalar_ops T qcz H s m e)|].
  split; [exact (hom_mul go int_scalar_ops T qcz H a b e)|exact (hom_conj go int_scalar_ops T qcz H a e)].
Qed.
Print Assumptions C60_integers.

(** ** What is lost *)
Ltac qc_lists := repeat first [reflexivity | apply Qc_is_canon; reflexivity | f_equal].
Definition g60 := std_gen_ops int_index_ops.
Definition cd60 (i : Z) : gen Z := GFermion true i.
Definition c60 (i : Z) : gen Z := GFermion false i.
Notation T60 := (tol_scalar_ops double_tol).
Definition ten_m10 : Qc := Q2Qc (1 # 10000000000).
Definition ten_m20 : Qc := Q2Qc (1 # 100000000000000000000).

(** conj: a monomial whose coefficient is below the tolerance does not
    contribute its conjugate; the conjugate of the preceding monomial is added
    again instead, with its full coefficient. *)
Theorem C60_conj_small : forall {G S} (go : gen_ops G) (so : scalar_ops S) m1 x1 m2 x2 p,
  s_is_zero so (s_conj so x1) = false -> s_is_zero so (s_conj so x2) = true ->
  conj_mono go so (rev m1) (e_const so (s_conj so x1)) = Ok p ->
  e_conj go so [(m1, x1)] = Ok (e_add go so [] p) /\
  e_conj go so [(m1, x1); (m2, x2)] = Ok (e_add go so (e_add go so [] p) p).
Proof.
  intros G S go so m1 x1 m2 x2 p h1 h2 E. unfold e_conj. cbn [conj_loop]. rewrite h1, h2.
  match goal with |- context [rbind ?X _] => replace X with (Ok p) by (symmetry; exact E) end. split; reflexivity.
Qed.
(** conj(c+(0) + 1e-10*(1e-10*c+(1))) == 2*c(0) *)
Definition e60 : list (list (gen Z) * Qc) := [([cd60 0], Q2Qc 1); ([cd60 1], ten_m20)].
Theorem C60_conj_refuted :
  (exists x y, e_mono g60 T60 (Q2Qc 1) [cd60 0] = Ok x /\ e_mono g60 T60 (Q2Qc 1) [cd60 1] = Ok y /\
     e60 = e_add g60 T60 x (e_mul_const_pre T60 ten_m10 (e_mul_const_pre T60 ten_m10 y))) /\
  e_conj g60 T60 e60 = Ok [([c60 0], Q2Qc 2)].
Proof.
  split.
  - exists [([cd60 0], Q2Qc 1)], [([cd60 1], Q2Qc 1)]. split; [reflexivity|]. split; [reflexivity|].
    vm_compute. qc_lists.
  - vm_compute. qc_lists.
Qed.
Print Assumptions C60_conj_refuted.

(** Multiplication by a scalar below the tolerance gives 0 whatever the
    coefficients are, and a coefficient below the tolerance can be stored by two
    multiplications: scaling is not associative. Short products are stored with
    tiny coefficients, long ones are dropped. *)
Theorem C60_scaling_refuted :
  (forall (s : Qc) (e : list (list (gen Z) * Qc)), (Qcabs s < double_tol)%Qc -> e_mul_const_pre T60 s e = []) /\
  (let x := [([cd60 0], Q2Qc (10000000000 * 10000000000))] in
   e_mul_const_pre T60 ten_m20 x = [] /\
   e_mul_const_pre T60 ten_m10 (e_mul_const_pre T60 ten_m10 x) = [([cd60 0], Q2Qc 1)]) /\
  (let x := [([cd60 0], ten_m10)] in
   e_mul_const_pre T60 ten_m10 x = [([cd60 0], ten_m20)] /\
   e_mul g60 T60 x [([], ten_m10)] = Ok [([cd60 0], ten_m20)] /\
   e_mul g60 T60 x [([cd60 1], ten_m10)] = Ok []).
Proof.
  split; [|split].
  - intros s e h. unfold e_mul_const_pre. apply qc_abs_ltb_spec in h. simpl s_is_zero. now rewrite h.
  - split; vm_compute; qc_lists.
  - split; [|split]; vm_compute; qc_lists.
Qed.
Print Assumptions C60_scaling_refuted.

(** ** Cases *)
(** (1e-10 c+(0) + 3 c(1)) * (1e-10 c(0)): one of the two coefficients of the
    product is below the tolerance *)
Example C60_product_example :
  let a := [([cd60 0], ten_m10); ([c60 1], Q2Qc 3)] in
  let b := [([c60 0], ten_m10)] in
  e_mul g60 rational_scalar_ops a b = Ok [([cd60 0; c60 0], ten_m20); ([c60 1; c60 0], Q2Qc (3 # 10000000000))] /\
  e_mul g60 T60 a b = Ok [([c60 1; c60 0], Q2Qc (3 # 10000000000))] /\ (Q2Qc 0 < double_tol)%Qc.
Proof.
  intros a b. split; [|split; [|reflexivity]]; vm_compute; qc_lists.
Qed.
Example C60_sum_example :
  let a := [([cd60 0], Q2Qc 1); ([cd60 1], ten_m20)] in
  let b := [([cd60 0], (- Q2Qc 1 + ten_m20)%Qc); ([cd60 2], ten_m20)] in
  e_add g60 T60 a b = [([cd60 1], ten_m20); ([cd60 2], ten_m20)].
Proof. vm_compute. qc_lists. Qed.
