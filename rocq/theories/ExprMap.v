(** The std::map part of the expression layer: addition of terms. *)
From Coq Require Import ZArith Bool Lia List Sorted.
From Verif Require Import ExprModel ExprSpec ExprOrder.
Import ListNotations.
Open Scope nat_scope.
Open Scope list_scope.

(** *** Scalar consequences *)
Section ScalarFacts.
Context {S : Type} (so : scalar_ops S) (L : scalar_laws so).
Lemma s_add_0_r x : s_add so x (s_zero so) = x.
Proof. rewrite (sl_add_comm _ L). apply (sl_add_0 _ L). Qed.
Lemma s_neg_l x : s_add so (s_neg so x) x = s_zero so.
Proof. rewrite (sl_add_comm _ L). apply (sl_neg _ L). Qed.
Lemma s_add_cancel x y z : s_add so x y = s_add so x z -> y = z.
Proof.
  intros h. rewrite <- (sl_add_0 _ L y), <- (sl_add_0 _ L z), <- (s_neg_l x).
  rewrite <- !(sl_add_assoc _ L). congruence.
Qed.
Lemma s_neg_unique x y : s_add so x y = s_zero so -> y = s_neg so x.
Proof. intros h. apply (s_add_cancel x). now rewrite h, (sl_neg _ L). Qed.
Lemma s_neg_zero : s_neg so (s_zero so) = s_zero so.
Proof. symmetry. apply s_neg_unique. apply (sl_add_0 _ L). Qed.
Lemma s_neg_neg x : s_neg so (s_neg so x) = x.
Proof. symmetry. apply s_neg_unique. apply s_neg_l. Qed.
Lemma s_neg_add x y : s_neg so (s_add so x y) = s_add so (s_neg so x) (s_neg so y).
Proof.
  symmetry. apply s_neg_unique.
  rewrite (sl_add_assoc _ L), (sl_add_comm _ L x y), <- (sl_add_assoc _ L y).
  rewrite (sl_neg _ L), s_add_0_r. apply (sl_neg _ L).
Qed.
Lemma s_mul_0_r x : s_mul so x (s_zero so) = s_zero so.
Proof.
  apply (s_add_cancel (s_mul so x (s_zero so))).
  rewrite <- (sl_dist_l _ L), (sl_add_0 _ L), s_add_0_r. reflexivity.
Qed.
Lemma s_mul_0_l x : s_mul so (s_zero so) x = s_zero so.
Proof.
  apply (s_add_cancel (s_mul so (s_zero so) x)).
  rewrite <- (sl_dist_r _ L), (sl_add_0 _ L), s_add_0_r. reflexivity.
Qed.
Lemma s_mul_neg_r x y : s_mul so x (s_neg so y) = s_neg so (s_mul so x y).
Proof.
  apply s_neg_unique. rewrite <- (sl_dist_l _ L), (sl_neg _ L). apply s_mul_0_r.
Qed.
Lemma s_mul_neg_l x y : s_mul so (s_neg so x) y = s_neg so (s_mul so x y).
Proof.
  apply s_neg_unique. rewrite <- (sl_dist_r _ L), (sl_neg _ L). apply s_mul_0_l.
Qed.
Lemma s_sub_0_l x : s_sub so (s_zero so) x = s_neg so x.
Proof. rewrite (sl_sub _ L). apply (sl_add_0 _ L). Qed.
Lemma s_sub_diag x : s_sub so x x = s_zero so.
Proof. rewrite (sl_sub _ L). apply (sl_neg _ L). Qed.
Lemma s_is_zero_false x : s_is_zero so x = false <-> x <> s_zero so.
Proof.
  split; intros h.
  - intros e. apply (sl_is_zero _ L) in e. congruence.
  - destruct (s_is_zero so x) eqn:E; auto. apply (sl_is_zero _ L) in E. contradiction.
Qed.
Lemma s_is_zero_zero : s_is_zero so (s_zero so) = true.
Proof. now apply (sl_is_zero _ L). Qed.
Lemma s_neg_zero_iff x : s_neg so x = s_zero so <-> x = s_zero so.
Proof.
  split; intros h; [rewrite <- (s_neg_neg x), h|rewrite h]; apply s_neg_zero.
Qed.
Lemma s_eq_dec_zero (x : S) : {x = s_zero so} + {x <> s_zero so}.
Proof.
  destruct (s_is_zero so x) eqn:E; [left|right].
  - now apply (sl_is_zero _ L).
  - now apply s_is_zero_false.
Qed.
Lemma zmul_1 : zmul so 1 (s_one so) = s_one so.
Proof. simpl. apply s_add_0_r. Qed.
Lemma zmul_m1 : zmul so (-1) (s_one so) = s_neg so (s_one so).
Proof. simpl. now rewrite s_add_0_r. Qed.
End ScalarFacts.

Section Maps.
Context {G S : Type} (go : gen_ops G) (Hgo : gen_order go).
Context (so : scalar_ops S).
Notation lt := (mono_lt go).
Notation mono := (list G).
Notation emap := (list (list G * S)).
Let Hm := mono_sto go Hgo.

(** [ins k c e]: add coefficient [c] to monomial [k] *)
Notation ins k c e := (add_entry go so (k, c) e).

Lemma ins_nil k c : ins k c [] = [(k, c)].
Proof. reflexivity. Qed.

Lemma ins_cons k c x v t :
  ins k c ((x, v) :: t) =
  if lt x k then (x, v) :: ins k c t
  else if lt k x then (k, c) :: (x, v) :: t
  else if s_is_zero so (s_add so v c) then t
  else (x, s_add so v c) :: t.
Proof.
  unfold add_entry; simpl fst; simpl snd.
  simpl map_find. simpl map_emplace. simpl map_assign.
  destruct (lt x k) eqn:E1.
  - destruct (map_find go k t) as [v'|] eqn:F.
    + destruct (s_is_zero so (s_add so v' c)); auto.
      simpl. now rewrite E1.
    + destruct (map_emplace go k c t); reflexivity.
  - destruct (lt k x) eqn:E2.
    + reflexivity.
    + destruct (s_is_zero so (s_add so v c)); auto.
      simpl. now rewrite E1, E2.
Qed.

Lemma store_is_ins m c t : store_monomial go so m c t = ins m c t.
Proof.
  unfold store_monomial, add_entry; simpl fst; simpl snd.
  assert (K : map_emplace go m c t =
              match map_find go m t with
              | None => (fst (map_emplace go m c t), true)
              | Some _ => (t, false)
              end).
  { induction t as [|[x v] t IH]; simpl; auto.
    destruct (lt x m) eqn:E1.
    - rewrite IH. destruct (map_find go m t); reflexivity.
    - destruct (lt m x); reflexivity. }
  rewrite K at 1. destruct (map_find go m t) as [v|] eqn:F.
  - now rewrite F.
  - reflexivity.
Qed.

(** sub_entry is ins of the negated coefficient *)
Lemma sub_is_ins (L : scalar_laws so) k c e : sub_entry go so (k, c) e = ins k (s_neg so c) e.
Proof.
  unfold sub_entry, add_entry; simpl fst; simpl snd.
  destruct (map_find go k e); rewrite ?(s_sub_0_l so L); auto.
  now rewrite (sl_sub _ L).
Qed.

(** *** Sorted maps *)
Definition klt (a b : mono) : Prop := lt a b = true.
Definition msorted (e : emap) : Prop := StronglySorted klt (map fst e).

Lemma msorted_nil : msorted [].
Proof. constructor. Qed.

Lemma msorted_inv x v t : msorted ((x, v) :: t) ->
  msorted t /\ (forall m c, In (m, c) t -> lt x m = true).
Proof.
  intros h. inversion h as [|? ? h1 h2]; subst. split; auto.
  intros m c i. rewrite Forall_forall in h2. apply h2. change m with (fst (m, c)).
  now apply in_map.
Qed.
Lemma msorted_cons x v t : msorted t -> (forall m c, In (m, c) t -> lt x m = true) ->
  msorted ((x, v) :: t).
Proof.
  intros h1 h2. constructor; auto. rewrite Forall_forall. intros m i.
  apply in_map_iff in i. destruct i as [[m' c] [<- i]]. eapply h2; eauto.
Qed.

Lemma ins_In m d k c e : In (m, d) (ins k c e) -> m = k \/ In (m, d) e.
Proof.
  induction e as [|[x v] t IH].
  - rewrite ins_nil. simpl. intros [h|[]]. inversion h; auto.
  - rewrite ins_cons.
    destruct (lt x k) eqn:E1; [|destruct (lt k x) eqn:E2].
    + simpl. intros [h|h]; auto. destruct (IH h); auto.
    + simpl. intros [h|h]; auto. inversion h; auto.
    + assert (x = k) by (eapply (sto_eq_of Hm); eauto). subst x.
      destruct (s_is_zero so _); simpl; auto.
      intros [h|h]; auto. inversion h; auto.
Qed.

Lemma ins_sorted k c e : msorted e -> msorted (ins k c e).
Proof.
  induction e as [|[x v] t IH].
  - intros _. rewrite ins_nil. apply msorted_cons; [constructor|simpl; tauto].
  - intros h. apply msorted_inv in h. destruct h as [h1 h2]. rewrite ins_cons.
    destruct (lt x k) eqn:E1; [|destruct (lt k x) eqn:E2].
    + apply msorted_cons; auto. intros m d i. apply ins_In in i.
      destruct i as [->|i]; eauto.
    + apply msorted_cons; [apply msorted_cons; auto|].
      intros m d [i|i]. inversion i; subst; auto.
      eapply (sto_trans _ _ _ Hm); eauto.
    + destruct (s_is_zero so _); auto. apply msorted_cons; auto.
Qed.

(** coefficient look-up *)
Definition coef (e : emap) (m : mono) : S :=
  match map_find go m e with Some v => v | None => s_zero so end.

Lemma find_In m v e : msorted e -> (map_find go m e = Some v <-> In (m, v) e).
Proof.
  induction e as [|[x w] t IH]; simpl.
  - split; [discriminate|tauto].
  - intros h. apply msorted_inv in h. destruct h as [h1 h2].
    destruct (lt x m) eqn:E1.
    + rewrite IH; auto. split; auto. intros [i|i]; auto.
      inversion i; subst. rewrite (sto_irrefl _ _ _ Hm) in E1. discriminate.
    + destruct (lt m x) eqn:E2.
      * split; [discriminate|]. intros [i|i].
        -- inversion i; subst. rewrite (sto_irrefl _ _ _ Hm) in E2. discriminate.
        -- apply h2 in i. congruence.
      * assert (x = m) by (eapply (sto_eq_of Hm); eauto). subst x. split.
        -- intros i; inversion i; auto.
        -- intros [i|i]; [inversion i; auto|]. apply h2 in i. congruence.
Qed.
Lemma find_None m e : msorted e -> (map_find go m e = None <-> forall v, ~ In (m, v) e).
Proof.
  intros h. split.
  - intros F v i. apply find_In in i; auto. congruence.
  - intros F. destruct (map_find go m e) eqn:E; auto. apply find_In in E; auto.
    exfalso; eapply F; eauto.
Qed.

Lemma coef_nil m : coef [] m = s_zero so.
Proof. reflexivity. Qed.
Lemma coef_cons x v t m : coef ((x, v) :: t) m =
  if lt x m then coef t m else if lt m x then s_zero so else v.
Proof.
  unfold coef; simpl. destruct (lt x m); auto. destruct (lt m x); auto.
Qed.

Definition mono_dec (m n : mono) : {m = n} + {m <> n} := sto_eq_dec Hm m n.

Lemma coef_cons_ne x v t m : msorted ((x, v) :: t) -> m <> x -> coef ((x,v)::t) m = coef t m.
Proof.
  intros h n. apply msorted_inv in h. destruct h as [h1 h2].
  rewrite coef_cons. destruct (lt x m) eqn:E1; auto. destruct (lt m x) eqn:E2.
  - unfold coef. replace (map_find go m t) with (@None S); auto.
    symmetry. apply find_None; auto. intros w i. apply h2 in i.
    congruence.
  - exfalso. apply n. eapply (sto_eq_of Hm); eauto.
Qed.
Lemma coef_cons_eq x v t : coef ((x, v) :: t) x = v.
Proof. rewrite coef_cons. now rewrite (sto_irrefl _ _ _ Hm). Qed.
Lemma coef_lt_all e m : msorted e -> (forall n c, In (n, c) e -> lt m n = true) ->
  coef e m = s_zero so.
Proof.
  intros h1 h. unfold coef. replace (map_find go m e) with (@None S); auto.
  symmetry. apply find_None; auto. intros v i. apply h in i.
  rewrite (sto_irrefl _ _ _ Hm) in i. discriminate.
Qed.

Lemma coef_ins (L : scalar_laws so) k c e m : msorted e ->
  coef (ins k c e) m = if mono_dec m k then s_add so (coef e k) c else coef e m.
Proof.
  induction e as [|[x v] t IH].
  - intros _. rewrite ins_nil, coef_cons, !coef_nil.
    destruct (mono_dec m k) as [->|n].
    + now rewrite (sto_irrefl _ _ _ Hm), (sl_add_0 _ L).
    + destruct (lt k m) eqn:E1; auto. destruct (lt m k) eqn:E2; auto.
      exfalso; apply n. eapply (sto_eq_of Hm); eauto.
  - intros h. pose proof (msorted_inv _ _ _ h) as [h1 h2].
    pose proof (ins_sorted k c _ h) as hs.
    rewrite ins_cons in *.
    destruct (lt x k) eqn:E1; [|destruct (lt k x) eqn:E2].
    + assert (nk : k <> x) by (apply not_eq_sym; eapply (sto_neq Hm); eauto).
      destruct (mono_dec m k) as [->|n].
      * rewrite coef_cons_ne by auto. rewrite IH by auto.
        destruct (mono_dec k k); try congruence. now rewrite coef_cons_ne.
      * destruct (mono_dec m x) as [->|n'].
        -- now rewrite !coef_cons_eq.
        -- rewrite !coef_cons_ne by auto. rewrite IH by auto. destruct (mono_dec m k); congruence.
    + destruct (mono_dec m k) as [->|n].
      * rewrite coef_cons_eq. rewrite coef_lt_all; auto.
        -- now rewrite (sl_add_0 _ L).
        -- intros n' c' [i|i]; [inversion i; subst; auto|].
           eapply (sto_trans _ _ _ Hm); eauto.
      * rewrite coef_cons_ne; auto.
    + assert (x = k) by (eapply (sto_eq_of Hm); eauto). subst x.
      destruct (mono_dec m k) as [->|n].
      * rewrite coef_cons_eq. destruct (s_is_zero so (s_add so v c)) eqn:Z.
        -- apply (sl_is_zero _ L) in Z. rewrite Z. apply coef_lt_all; auto.
        -- now rewrite coef_cons_eq.
      * rewrite (coef_cons_ne k v); auto.
        destruct (s_is_zero so (s_add so v c)); auto. rewrite coef_cons_ne; auto.
Qed.

(** zero-free maps *)
Definition nonzero (e : emap) : Prop := forall m c, In (m, c) e -> c <> s_zero so.

Lemma ins_nonzero (L : scalar_laws so) k c e : nonzero e -> c <> s_zero so -> nonzero (ins k c e).
Proof.
  intros h hc. induction e as [|[x v] t IH].
  - rewrite ins_nil. intros m d [i|[]]. inversion i; subst; auto.
  - assert (ht : nonzero t) by (intros m d i; eapply h; right; eauto).
    specialize (IH ht). rewrite ins_cons.
    destruct (lt x k) eqn:E1; [|destruct (lt k x) eqn:E2].
    + intros m d [i|i]; [|eapply IH; eauto]. eapply h; left; eauto.
    + intros m d [i|i]; [inversion i; subst; auto|]. eapply h; eauto.
    + destruct (s_is_zero so (s_add so v c)) eqn:Z; auto.
      intros m d [i|i]; [|eapply ht; eauto]. inversion i; subst. now apply s_is_zero_false.
Qed.

(** two zero-free sorted maps with equal coefficients are equal *)
Lemma coef_ext (L : scalar_laws so) : forall e1 e2,
  msorted e1 -> msorted e2 -> nonzero e1 -> nonzero e2 ->
  (forall m, coef e1 m = coef e2 m) -> e1 = e2.
Proof.
  induction e1 as [|[x v] t IH]; intros [|[y w] u] h1 h2 n1 n2 E; auto.
  - specialize (E y). rewrite coef_cons_eq, coef_nil in E.
    exfalso. eapply n2; [left; reflexivity|congruence].
  - specialize (E x). rewrite coef_cons_eq, coef_nil in E.
    exfalso. eapply n1; [left; reflexivity|congruence].
  - pose proof (msorted_inv _ _ _ h1) as [a1 b1].
    pose proof (msorted_inv _ _ _ h2) as [a2 b2].
    assert (x = y).
    { destruct (sto_total _ _ _ Hm x y) as [K|[K|K]]; auto; exfalso.
      - pose proof (E x) as Ex. rewrite coef_cons_eq in Ex.
        rewrite coef_lt_all in Ex; auto.
        + eapply n1; [left; reflexivity|auto].
        + intros n c [i|i]; [inversion i; subst; auto|]. eapply (sto_trans _ _ _ Hm); eauto.
      - pose proof (E y) as Ex. rewrite coef_cons_eq in Ex.
        rewrite coef_lt_all in Ex; auto.
        + eapply n2; [left; reflexivity|auto].
        + intros n c [i|i]; [inversion i; subst; auto|]. eapply (sto_trans _ _ _ Hm); eauto. }
    subst y. f_equal.
    + f_equal. specialize (E x). now rewrite !coef_cons_eq in E.
    + apply IH; auto.
      * intros m c i; eapply n1; right; eauto.
      * intros m c i; eapply n2; right; eauto.
      * intros m. destruct (mono_dec m x) as [->|n].
        -- rewrite !coef_lt_all; auto.
        -- specialize (E m). rewrite !coef_cons_ne in E; auto.
Qed.

(** *** += and -= *)
Definition wf (e : emap) : Prop := msorted e /\ nonzero e.

Lemma fold_ins_sorted b : forall a, msorted a -> msorted (e_add_assign go so a b).
Proof.
  unfold e_add_assign. induction b as [|[k c] b IH]; simpl; auto.
  intros a h. apply IH. now apply ins_sorted.
Qed.
Lemma fold_ins_nonzero (L : scalar_laws so) b : forall a, nonzero a -> nonzero b ->
  nonzero (e_add_assign go so a b).
Proof.
  unfold e_add_assign. induction b as [|[k c] b IH]; simpl; auto.
  intros a h hb. apply IH.
  - apply ins_nonzero; auto. eapply hb; left; eauto.
  - intros m d i; eapply hb; right; eauto.
Qed.
Lemma add_assign_In m d b : forall a, In (m, d) (e_add_assign go so a b) ->
  In m (map fst a) \/ In m (map fst b).
Proof.
  unfold e_add_assign. induction b as [|[k c] b IH]; simpl; intros a h.
  - left. change m with (fst (m, d)). now apply in_map.
  - apply IH in h. destruct h as [h|h]; auto.
    apply in_map_iff in h. destruct h as [[m' d'] [h1 h]]. simpl in h1. subst m'.
    apply ins_In in h. destruct h as [->|h]; auto.
    left. change m with (fst (m, d')). now apply in_map.
Qed.

Lemma coef_add_assign (L : scalar_laws so) b : forall a, msorted a -> msorted b ->
  forall m, coef (e_add_assign go so a b) m = s_add so (coef a m) (coef b m).
Proof.
  unfold e_add_assign. induction b as [|[k c] b IH]; simpl; intros a ha hb m.
  - now rewrite coef_nil, (s_add_0_r so L).
  - pose proof (msorted_inv _ _ _ hb) as [hb1 hb2].
    rewrite IH; auto using ins_sorted. rewrite (coef_ins L); auto.
    destruct (mono_dec m k) as [->|n].
    + rewrite coef_cons_eq. rewrite (coef_lt_all b); auto. now rewrite (s_add_0_r so L).
    + now rewrite coef_cons_ne.
Qed.

Definition neg_map (e : emap) : emap := map (fun p => (fst p, s_neg so (snd p))) e.

Lemma neg_map_keys e : map fst (neg_map e) = map fst e.
Proof. unfold neg_map. rewrite map_map. reflexivity. Qed.
Lemma neg_map_sorted e : msorted e -> msorted (neg_map e).
Proof. unfold msorted. now rewrite neg_map_keys. Qed.

Lemma coef_map (f : S -> S) e m : f (s_zero so) = s_zero so ->
  coef (map (fun p => (fst p, f (snd p))) e) m = f (coef e m).
Proof.
  intros hf. induction e as [|[x v] t IH]; simpl; auto.
  rewrite !coef_cons, IH. destruct (lt x m); auto. destruct (lt m x); auto.
Qed.
Lemma coef_neg (L : scalar_laws so) e m : coef (neg_map e) m = s_neg so (coef e m).
Proof. apply (coef_map (s_neg so)). apply (s_neg_zero so L). Qed.

Lemma sub_assign_add (L : scalar_laws so) b : forall a,
  e_sub_assign go so a b = e_add_assign go so a (neg_map b).
Proof.
  unfold e_sub_assign, e_add_assign. induction b as [|[k c] b IH]; simpl; auto.
  intros a. rewrite (sub_is_ins L). apply IH.
Qed.

Lemma map_nonzero (f : S -> S) e : (forall x, x <> s_zero so -> f x <> s_zero so) ->
  nonzero e -> nonzero (map (fun p => (fst p, f (snd p))) e).
Proof.
  intros hf h m c i. apply in_map_iff in i. destruct i as [[m' c'] [E i]].
  inversion E; subst. apply hf. eapply h; eauto.
Qed.
Lemma neg_nonzero (L : scalar_laws so) e : nonzero e -> nonzero (neg_map e).
Proof.
  apply (map_nonzero (s_neg so)). intros x h1 h2. apply h1. now apply (s_neg_zero_iff so L).
Qed.

Lemma coef_sub_assign (L : scalar_laws so) a b m : msorted a -> msorted b ->
  coef (e_sub_assign go so a b) m = s_sub so (coef a m) (coef b m).
Proof.
  intros. rewrite (sub_assign_add L), (coef_add_assign L) by auto using neg_map_sorted.
  rewrite (coef_neg L), (sl_sub _ L). reflexivity.
Qed.

(** scalar addition *)
Lemma add_const_ins a alpha : e_add_const go so a alpha =
  if s_is_zero so alpha then a else ins [] alpha a.
Proof. reflexivity. Qed.
Lemma sub_const_ins (L : scalar_laws so) a alpha : e_sub_const go so a alpha =
  if s_is_zero so alpha then a else ins [] (s_neg so alpha) a.
Proof.
  unfold e_sub_const. destruct (s_is_zero so alpha); auto.
  rewrite <- (sub_is_ins L). reflexivity.
Qed.
Lemma add_assign_const_ins (L : scalar_laws so) a alpha :
  e_add_assign_const go so a alpha = e_add_const go so a alpha.
Proof.
  unfold e_add_assign_const, e_add_const. now rewrite (sl_add_0 _ L).
Qed.

(** coeff_is of the specification *)
Lemma coef_spec e m c : msorted e ->
  (coef e m = c <-> (In (m, c) e \/ (c = s_zero so /\ forall c', ~ In (m, c') e))).
Proof.
  intros h. unfold coef. destruct (map_find go m e) as [v|] eqn:F.
  - apply find_In in F; auto. split.
    + intros ->; auto.
    + intros [i|[_ i]]; [|exfalso; eapply i; eauto].
      apply find_In in i; auto. apply find_In in F; auto. congruence.
  - pose proof (proj1 (find_None _ _ h) F) as N. split.
    + intros <-. auto.
    + intros [i|[-> _]]; auto. exfalso; eapply N; eauto.
Qed.

End Maps.

(** *** Appending at the end (emplace_hint(end)) *)
Section Append.
Context {G S : Type} (go : gen_ops G) (Hgo : gen_order go).
Notation lt := (mono_lt go).
Let Hm := mono_sto go Hgo.

Lemma put_end k (v : S) r : (forall m c, In (m, c) r -> lt m k = true) ->
  fst (map_emplace go k v r) = r ++ [(k, v)].
Proof.
  induction r as [|[x w] t IH]; simpl; auto.
  intros h. rewrite (h x w); auto.
  specialize (IH ltac:(eauto)).
  destruct (map_emplace go k v t); simpl in *. now rewrite IH.
Qed.
End Append.

(** *** Aliased compound assignment *)
Section Self.
Context {G S : Type} (go : gen_ops G) (Hgo : gen_order go) (so : scalar_ops S).
Notation lt := (mono_lt go).
Let Hm := mono_sto go Hgo.

Lemma assign_mid m (v : S) x : forall pre suf, msorted go (pre ++ (m, x) :: suf) ->
  map_assign go m v (pre ++ (m, x) :: suf) = pre ++ (m, v) :: suf.
Proof.
  induction pre as [|[n y] pre IH]; simpl; intros suf h.
  - now rewrite (sto_irrefl _ _ _ Hm).
  - apply msorted_inv in h. destruct h as [h1 h2].
    rewrite (h2 m x) by (apply in_app_iff; right; left; auto). now rewrite IH.
Qed.

Lemma self_loop op : forall suf pre,
  msorted go (pre ++ suf) ->
  (forall m x, In (m, x) suf -> s_is_zero so (op x x) = false) ->
  assign_self_loop go so op (length suf) (length pre) (pre ++ suf) =
  Ok (pre ++ map (fun p => (fst p, op (snd p) (snd p))) suf).
Proof.
  induction suf as [|[m x] suf IH]; intros pre h hz.
  - simpl. now rewrite !app_nil_r.
  - cbn [length assign_self_loop].
    rewrite nth_error_app2 by lia. rewrite Nat.sub_diag. cbn [nth_error].
    rewrite (proj2 (find_In go Hgo m x _ h)) by (apply in_app_iff; right; left; auto).
    rewrite (hz m x) by (left; auto). rewrite assign_mid by auto.
    replace (length pre + 1) with (length (pre ++ [(m, op x x)])) by (rewrite app_length; simpl; lia).
    replace (pre ++ (m, op x x) :: suf) with ((pre ++ [(m, op x x)]) ++ suf) by now rewrite <- app_assoc.
    rewrite IH.
    + simpl. now rewrite <- app_assoc.
    + unfold msorted in *. rewrite !map_app in *. simpl in *. now rewrite <- app_assoc.
    + intros; eapply hz; right; eauto.
Qed.

Lemma self_loop_bad op m x e : s_is_zero so (op x x) = true ->
  assign_self_loop go so op (length ((m, x) :: e)) 0 ((m, x) :: e) = Bad.
Proof.
  intros h. cbn [length assign_self_loop nth_error map_find].
  rewrite (sto_irrefl _ _ _ Hm). now rewrite h.
Qed.
End Self.
