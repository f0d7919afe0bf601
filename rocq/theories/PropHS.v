(** Properties C19-C26 and C57: Hilbert spaces.  Vocabulary: HSSpec.v. *)
From Coq Require Import NArith ZArith List Bool Sorted Permutation Lia.
From Verif Require Import BitsModel BitsSpec BitsProofs ExprModel ExprSpec ExprOrder HSModel HSSpec HSEnum HSProofs HSMain.
Import ListNotations.
Open Scope N_scope.
Open Scope list_scope.

Section Facts.
Context {I : Type} (io : index_ops I) (Hio : index_order io).
Notation es := (espace I).

Lemma offset_S (l : list es) k e : nth_error l k = Some e -> offset l (S k) = (offset l k + es_nbits e)%nat.
Proof.
  revert k; induction l as [|x t IH]; intros [|k] E; cbn in E; try discriminate.
  - inversion E; subst. unfold offset. cbn. lia.
  - specialize (IH _ E). unfold offset in *. cbn [firstn total_bits] in *. lia.
Qed.
Lemma offset_mono (l : list es) k k' : (k <= k')%nat -> (offset l k <= offset l k')%nat.
Proof.
  revert k k'; induction l as [|x t IH]; intros [|k] [|k'] L; unfold offset in *; cbn [firstn total_bits]; try lia.
  specialize (IH k k' ltac:(lia)). lia.
Qed.
Lemma offset_total (l : list es) k : (offset l k <= total_bits l)%nat.
Proof.
  revert k; induction l as [|x t IH]; intros [|k]; unfold offset in *; cbn [firstn total_bits]; try lia.
  specialize (IH k). lia.
Qed.
Lemma offset_cover (l : list es) p : (p < total_bits l)%nat ->
  exists k e, nth_error l k = Some e /\ (offset l k <= p < offset l k + es_nbits e)%nat.
Proof.
  revert p; induction l as [|x t IH]; intros p hp; cbn [total_bits] in hp; [lia|].
  destruct (Nat.lt_ge_cases p (es_nbits x)) as [h|h].
  - exists 0%nat, x. split; auto. unfold offset; cbn. lia.
  - destruct (IH (p - es_nbits x)%nat ltac:(lia)) as [k [e [E B]]].
    exists (S k), e. split; auto. unfold offset in *. cbn [firstn total_bits]. lia.
Qed.

Lemma find_nth h k e : hs_inv io h -> nth_error (spaces h) k = Some e ->
  es_find io e (hs_es h) = Some (k, e, (Z.of_nat (offset (spaces h) k),
     Z.of_nat (offset (spaces h) k) + Z.of_nat (es_nbits e) - 1)%Z).
Proof.
  intros [S [W [P _]]] E.
  pose proof (es_find_spec io Hio e (hs_es h)) as F. fold (spaces h) in F. specialize (F S).
  destruct (es_find io e (hs_es h)) as [[[k' x] r]|].
  - destruct F as [F1 F2].
    assert (E' : nth_error (spaces h) k' = Some x).
    { unfold spaces. erewrite map_nth_error; [|exact F1]. reflexivity. }
    destruct (sorted_slot_unique io Hio _ S _ _ _ _ E' E F2) as [-> ->].
    rewrite P in F1. rewrite (place_nth _ _ _ _ E) in F1. inversion F1; subst. reflexivity.
  - exfalso. apply (F e); [eapply nth_error_In; eauto|apply same_slot_refl].
Qed.
Lemma has_iff h e : hs_inv io h -> (hs_has io h e = true <-> exists x, In x (spaces h) /\ same_slot x e).
Proof.
  intros [S [W [P _]]]. unfold hs_has.
  pose proof (es_find_spec io Hio e (hs_es h)) as F. fold (spaces h) in F. specialize (F S).
  destruct (es_find io e (hs_es h)) as [[[k' x] r]|].
  - split; auto. intros _. destruct F as [F1 F2]. exists x. split; auto. apply in_map_iff. exists (x, r).
    split; auto. eapply nth_error_In; eauto.
  - split; [discriminate|]. intros [x [hx ss]]. exfalso. eapply F; eauto.
Qed.

(** what hs_add_all does *)
Lemma add_all_spec (l : list es) : Forall es_wf l -> forall h h' o, hs_inv io h ->
  hs_add_all io h l = (h', o) ->
  (o = ODone <-> (distinct_slots (spaces h ++ l) /\ (total_bits (spaces h ++ l) <= 63)%nat)) /\
  (o = ODone -> hs_inv io h' /\ Permutation (spaces h') (spaces h ++ l) /\
     (hs_algs h = snd (fst (recompute_loop (hs_es h) [] (-1)%Z)) ->
      hs_algs h' = snd (fst (recompute_loop (hs_es h') [] (-1)%Z)))).
Proof.
  induction 1 as [|e t we Wt IH]; intros h h' o Hi E; cbn [hs_add_all] in E.
  - inversion E; subst. rewrite app_nil_r. split; [|auto]. split; auto. intros _.
    destruct Hi as [S [_ [_ [_ [B _]]]]]. split; auto. eapply sorted_distinct; eauto.
  - destruct (hs_add io h e) as [h1 o1] eqn:E1.
    destruct (add_spec io Hio h e Hi we h1 o1 E1) as [A B].
    assert (PM : Permutation (spaces h ++ e :: t) ((e :: spaces h) ++ t)).
    { cbn. symmetry. apply Permutation_middle. }
    destruct (ODone_or io Hio e (spaces h)) as [X|X].
    + destruct (A X) as [-> ->]. inversion E; subst. split; [|discriminate].
      split; [discriminate|]. intros [D _]. exfalso.
      apply (distinct_perm _ _ PM) in D. apply distinct_NoDup_iff in D. cbn in D.
      inversion D as [|? ? F _]; subst. rewrite Forall_forall in F. destruct X as [x [hx ss]].
      apply (F x); [apply in_or_app; now left|now apply same_slot_sym].
    + destruct (B X) as [P [S [HE [HA [HA2 K]]]]].
      assert (TB : forall u, total_bits (u ++ t) = (total_bits u + total_bits t)%nat).
      { intros u. induction u; cbn [app total_bits]; lia. }
      pose proof (total_perm _ _ PM) as TPM. rewrite TB in TPM.
      destruct (Nat.leb_spec (total_bits (e :: spaces h)) 63) as [L|L].
      * destruct K as [-> Hi1]. destruct (IH _ _ _ Hi1 E) as [IH1 IH2].
        assert (P2 : Permutation (spaces h1 ++ t) (spaces h ++ e :: t)).
        { rewrite P. symmetry. exact PM. }
        split.
        -- rewrite IH1. split; intros [D T].
           ++ split; [eapply distinct_perm; eauto|]. now rewrite <- (total_perm _ _ P2).
           ++ split; [eapply distinct_perm; [symmetry; exact P2|auto]|]. now rewrite (total_perm _ _ P2).
        -- intros D. destruct (IH2 D) as [K1 [K2 K3]]. split; auto. split; [now rewrite K2|].
           intros _. apply K3. exact HA2.
      * destruct K as [-> _]. inversion E; subst. split; [|discriminate]. split; [discriminate|].
        intros [_ T]. lia.
Qed.
Lemma empty_algs : hs_algs (@hs_empty I) = snd (fst (recompute_loop (hs_es (@hs_empty I)) [] (-1)%Z)).
Proof. reflexivity. Qed.
Lemma hs_ext (h1 h2 : hspace I) : hs_inv io h1 -> hs_inv io h2 -> Permutation (spaces h1) (spaces h2) ->
  hs_algs h1 = snd (fst (recompute_loop (hs_es h1) [] (-1)%Z)) ->
  hs_algs h2 = snd (fst (recompute_loop (hs_es h2) [] (-1)%Z)) -> h1 = h2.
Proof.
  intros i1 i2 P A1 A2. destruct (inv_determined io Hio _ _ i1 i2 P) as [E1 [E2 [E3 E4]]].
  rewrite E1 in A1. destruct h1, h2; cbn in *. congruence.
Qed.
Lemma seg_some (a : Z) (l : list es) s r : seg a l s = Some r -> exists e, In e l /\ es_alg e = a.
Proof.
  revert s r. induction l as [|x t IH]; intros s r E; cbn [seg] in E; [discriminate|].
  destruct (Z.eqb_spec a (es_alg x)) as [->|ne].
  - exists x. split; auto. now left.
  - destruct (IH _ _ E) as [e [h1 h2]]. exists e. split; auto. now right.
Qed.

(** bit fields of n * 2^o *)
Lemma bit_field_div x o n : bit_field x o n = x / 2 ^ N.of_nat o mod 2 ^ N.of_nat n.
Proof. unfold bit_field. now rewrite N.shiftr_div_pow2. Qed.
Lemma bit_field_same n o nb : n < 2 ^ N.of_nat nb -> bit_field (n * 2 ^ N.of_nat o) o nb = n.
Proof. intros h. rewrite bit_field_div, N.div_mul by (apply N.pow_nonzero; discriminate). now apply N.mod_small. Qed.
Lemma bit_field_above n o nb o' nb' : n < 2 ^ N.of_nat nb -> (o + nb <= o')%nat ->
  bit_field (n * 2 ^ N.of_nat o) o' nb' = 0.
Proof.
  intros h L. rewrite bit_field_div, N.div_small.
  - apply N.mod_0_l. apply N.pow_nonzero. discriminate.
  - apply N.lt_le_trans with (2 ^ N.of_nat (o + nb)).
    + rewrite Nat2N.inj_add, N.pow_add_r. pose proof (pow_pos o). nia.
    + apply N.pow_le_mono_r; lia.
Qed.
Lemma bit_field_below n o o' nb' : (o' + nb' <= o)%nat -> bit_field (n * 2 ^ N.of_nat o) o' nb' = 0.
Proof.
  intros L. rewrite bit_field_div.
  replace (n * 2 ^ N.of_nat o) with (n * 2 ^ N.of_nat (o - o' - nb') * 2 ^ N.of_nat nb' * 2 ^ N.of_nat o').
  - rewrite N.div_mul by (apply N.pow_nonzero; discriminate).
    apply N.mod_mul. apply N.pow_nonzero. discriminate.
  - rewrite <- !N.mul_assoc. rewrite <- !N.pow_add_r. f_equal. f_equal. lia.
Qed.
(** a state is the sum of its shifted fields *)
Lemma fields_sum (l : list es) : forall x, x < 2 ^ N.of_nat (total_bits l) ->
  fold_right N.add 0 (map (fun ke => bit_field x (offset l (fst ke)) (es_nbits (snd ke)) * 2 ^ N.of_nat (offset l (fst ke)))
    (combine (seq 0 (length l)) l)) = x.
Proof.
  induction l as [|e t IH]; intros x hx.
  - cbn in *. lia.
  - cbn [length seq combine map fold_right fst snd total_bits] in *.
    change (offset (e :: t) 0) with 0%nat. change (2 ^ N.of_nat 0) with 1.
    set (p := 2 ^ N.of_nat (es_nbits e)).
    assert (Pp : p <> 0) by (apply N.pow_nonzero; discriminate).
    assert (hq : x / p < 2 ^ N.of_nat (total_bits t)).
    { apply N.div_lt_upper_bound; auto. unfold p. rewrite <- N.pow_add_r, <- Nat2N.inj_add. exact hx. }
    assert (TLS : forall l2 a, fold_right N.add 0 (map (fun ke : nat * es =>
       bit_field x (offset (e :: t) (fst ke)) (es_nbits (snd ke)) * 2 ^ N.of_nat (offset (e :: t) (fst ke)))
       (combine (seq (S a) (length l2)) l2)) =
       p * fold_right N.add 0 (map (fun ke : nat * es =>
       bit_field (x / p) (offset t (fst ke)) (es_nbits (snd ke)) * 2 ^ N.of_nat (offset t (fst ke)))
       (combine (seq a (length l2)) l2))).
    { induction l2 as [|y l2 IH2]; intros a; [cbn; lia|].
      cbn [length seq combine map fold_right fst snd]. rewrite IH2, N.mul_add_distr_l. f_equal.
      assert (OF : offset (e :: t) (S a) = (es_nbits e + offset t a)%nat) by reflexivity.
      rewrite OF, !bit_field_div, Nat2N.inj_add, N.pow_add_r. fold p.
      rewrite N.div_div; [lia|auto|]. apply N.pow_nonzero. discriminate. }
    rewrite TLS, IH by auto. rewrite bit_field_div. change (2 ^ N.of_nat 0) with 1. rewrite N.div_1_r. fold p.
    pose proof (N.div_mod x p Pp). lia.
Qed.
End Facts.

(** ** C19: bit ranges *)

(** The elementary spaces are in order; the k-th one is found at position k, in
    bits [offset, offset + n_bits); every bit below total_n_bits belongs to
    exactly one space. *)
Theorem C19_tiling {I} (io : index_ops I) (h : hspace I) : index_order io -> hs_reachable io h ->
  let l := spaces h in
  StronglySorted (es_before io) l /\
  hs_size h = length l /\
  hs_total_n_bits h = Z.of_nat (total_bits l) /\
  (forall e, hs_has io h e = true <-> exists x, In x l /\ same_slot x e) /\
  (forall k e, nth_error l k = Some e ->
     hs_index io h e = Some k /\ hs_es_dim io h e = Some (es_dim e) /\
     hs_bit_range io h e = Some (Z.of_nat (offset l k), Z.of_nat (offset l k) + Z.of_nat (es_nbits e) - 1)%Z) /\
  (forall p : Z, (0 <= p < hs_total_n_bits h)%Z <->
     exists k e lo hi, nth_error l k = Some e /\ hs_bit_range io h e = Some (lo, hi) /\ (lo <= p <= hi)%Z) /\
  (forall p k k' e e' lo hi lo' hi', nth_error l k = Some e -> nth_error l k' = Some e' ->
     hs_bit_range io h e = Some (lo, hi) -> hs_bit_range io h e' = Some (lo', hi') ->
     (lo <= p <= hi)%Z -> (lo' <= p <= hi')%Z -> k = k').
Proof.
  intros Hio R. pose proof (reachable_inv io Hio h R) as Hi. cbv zeta.
  assert (BR : forall k e, nth_error (spaces h) k = Some e ->
     hs_index io h e = Some k /\ hs_es_dim io h e = Some (es_dim e) /\
     hs_bit_range io h e = Some (Z.of_nat (offset (spaces h) k), Z.of_nat (offset (spaces h) k) + Z.of_nat (es_nbits e) - 1)%Z).
  { intros k e E. unfold hs_index, hs_es_dim, hs_bit_range. rewrite (find_nth io Hio h k e Hi E). cbn. auto. }
  assert (TB : hs_total_n_bits h = Z.of_nat (total_bits (spaces h))).
  { destruct Hi as [_ [_ [_ [K _]]]]. unfold hs_total_n_bits. rewrite K. lia. }
  split; [apply Hi|]. split; [unfold hs_size, spaces; now rewrite map_length|]. split; auto.
  split; [intros e; now apply has_iff|]. split; auto. split.
  - intros p. rewrite TB. split.
    + intros hp. destruct (offset_cover (spaces h) (Z.to_nat p) ltac:(lia)) as [k [e [E B]]].
      destruct (BR _ _ E) as [_ [_ K]]. do 4 eexists. split; [exact E|]. split; [exact K|]. lia.
    + intros [k [e [lo [hi [E [K B]]]]]]. destruct (BR _ _ E) as [_ [_ K2]]. rewrite K2 in K. inversion K; subst.
      pose proof (offset_S _ _ _ E). pose proof (offset_total (spaces h) (S k)). lia.
  - intros p k k' e e' lo hi lo' hi' E E' K K' B B'.
    destruct (BR _ _ E) as [_ [_ K2]]. rewrite K2 in K. inversion K; subst.
    destruct (BR _ _ E') as [_ [_ K3]]. rewrite K3 in K'. inversion K'; subst.
    pose proof (offset_S _ _ _ E) as O. pose proof (offset_S _ _ _ E') as O'.
    destruct (Nat.lt_trichotomy k k') as [L|[L|L]]; auto; exfalso.
    + pose proof (offset_mono (spaces h) (S k) k' L). lia.
    + pose proof (offset_mono (spaces h) (S k') k L). lia.
Qed.

(** A query with another object for the same slot (the same algebra and indices,
    e.g. a boson with a different dimension) is answered for the stored space;
    for a slot that is not there, index(), dim() and bit_range() throw. *)
Theorem C19_queries {I} (io : index_ops I) (h : hspace I) (e : espace I) : index_order io -> hs_reachable io h ->
  (forall k x, nth_error (spaces h) k = Some x -> same_slot x e ->
     hs_has io h e = true /\ hs_index io h e = Some k /\ hs_es_dim io h e = Some (es_dim x) /\
     hs_bit_range io h e = Some (Z.of_nat (offset (spaces h) k), Z.of_nat (offset (spaces h) k) + Z.of_nat (es_nbits x) - 1)%Z) /\
  ((forall x, In x (spaces h) -> ~ same_slot x e) ->
     hs_has io h e = false /\ hs_index io h e = None /\ hs_es_dim io h e = None /\ hs_bit_range io h e = None).
Proof.
  intros Hio R. pose proof (reachable_inv io Hio h R) as Hi. pose proof Hi as [S0 _].
  pose proof (es_find_spec io Hio e (hs_es h) S0) as P. unfold hs_has, hs_index, hs_es_dim, hs_bit_range. split.
  - intros k x E ss. pose proof (find_nth io Hio h k x Hi E) as Fx.
    destruct (es_find io e (hs_es h)) as [[[k' y] r]|].
    + destruct P as [E' ss']. assert (E2 : nth_error (spaces h) k' = Some y) by (unfold spaces; rewrite nth_error_map, E'; reflexivity).
      assert (sy : same_slot y x) by (clear - ss ss'; inversion ss; subst; inversion ss'; subst; constructor).
      destruct (sorted_slot_unique io Hio (spaces h) S0 k' k y x E2 E sy) as [-> ->].
      pose proof (es_find_spec io Hio x (hs_es h) S0) as Px. rewrite Fx in Px. destruct Px as [Px _]. rewrite E' in Px. inversion Px; subst. cbn. auto.
    + exfalso. apply (P x); auto. eapply nth_error_In; eauto.
  - intros No. destruct (es_find io e (hs_es h)) as [[[k' y] r]|]; [|cbn; auto].
    exfalso. destruct P as [E' ss']. apply (No y); auto. unfold spaces. apply in_map_iff. exists (y, r). split; auto. eapply nth_error_In; eauto.
Qed.

(** Neither the order of the constructor arguments (or add() calls) nor the
    kind of constructor matters: the resulting objects are identical. *)
Theorem C19_insertion_order {I} (io : index_ops I) (l l' : list (espace I)) (h : hspace I) :
  index_order io -> Forall es_wf l -> Permutation l l' ->
  hs_of_args io l = (h, ODone) ->
  hs_of_args io l' = (h, ODone) /\ hs_of_vector io l' = (h, ODone).
Proof.
  intros Hio W P E. unfold hs_of_args in *.
  destruct (add_all_spec io Hio l W hs_empty h ODone (hs_empty_inv io) E) as [A B].
  destruct (B eq_refl) as [Hi [Pl Al]]. specialize (Al empty_algs).
  destruct (proj1 A eq_refl) as [D T]. change (spaces (@hs_empty I)) with (@nil (espace I)) in *. cbn [app] in *.
  assert (W' : Forall es_wf l') by (eapply Permutation_Forall; eauto).
  assert (D' : distinct_slots l') by (eapply distinct_perm; eauto).
  assert (T' : (total_bits l' <= 63)%nat) by (rewrite <- (total_perm _ _ P); auto).
  split.
  - destruct (hs_add_all io hs_empty l') as [h' o'] eqn:E'.
    destruct (add_all_spec io Hio l' W' hs_empty h' o' (hs_empty_inv io) E') as [A' B'].
    assert (o' = ODone) as -> by (apply A'; split; auto).
    destruct (B' eq_refl) as [Hi' [Pl' Al']]. specialize (Al' empty_algs). f_equal.
    apply (hs_ext io Hio); auto. rewrite Pl, Pl'. symmetry. exact P.
  - destruct (hs_of_vector io l') as [h' o'] eqn:E'.
    destruct (vector_spec io Hio l' W' h' o' E') as [_ B']. destruct (B' D') as [P' [S' [_ K]]].
    apply Nat.leb_le in T'. rewrite T' in K. destruct K as [-> [Hi' Al']]. f_equal.
    apply (hs_ext io Hio); auto. rewrite Pl, P'. symmetry. exact P.
Qed.

(** the space made for a generator belongs to the algebra of the generator *)
Theorem C19_algebra_ids {I} (g : gen I) (e : espace I) (d : N) :
  default_es_constructor g = Some e \/ boson_es_constructor d g = Some e ->
  es_alg e = algebra_id g /\ es_index e = gen_index g /\
  (algebra_id g = -3 \/ algebra_id g = -2 \/ algebra_id g = -1)%Z.
Proof.
  intros [E|E]; destruct g as [b i|b i|m c i]; cbn in E; try discriminate E; injection E as <-; cbn; auto.
Qed.
Print Assumptions C19_algebra_ids.

(** Bit range of an algebra = the union of the bit ranges of its spaces (for
    objects that are not the target of a copy; see C25) *)
Theorem C19_algebra_ranges {I} (io : index_ops I) (h : hspace I) : index_order io -> hs_fresh io h ->
  forall a : Z,
  (hs_has_algebra h a = true <-> exists e, In e (spaces h) /\ es_alg e = a) /\
  forall lo hi, hs_algebra_bit_range h a = Some (lo, hi) ->
  forall p, (lo <= p <= hi)%Z <->
    exists k e lo' hi', nth_error (spaces h) k = Some e /\ es_alg e = a /\
      hs_bit_range io h e = Some (lo', hi') /\ (lo' <= p <= hi')%Z.
Proof.
  intros Hio R a. pose proof (fresh_algs io Hio h R) as A.
  pose proof (reachable_inv io Hio h (fresh_reachable io h R)) as Hi.
  unfold hs_has_algebra, hs_algebra_bit_range. rewrite A. split.
  - destruct (seg a (spaces h) 0) as [r|] eqn:E.
    + split; auto. intros _. now apply seg_some in E.
    + split; [discriminate|]. intros h1. exfalso. apply (proj1 (seg_none a (spaces h) 0) E). exact h1.
  - intros lo hi E p. rewrite A in E. destruct Hi as [S Hi'].
    rewrite (seg_range io a (spaces h) S 0 lo hi E p). split.
    + intros [k [e [E1 [E2 B]]]]. exists k, e. do 2 eexists. split; auto. split; auto.
      destruct (C19_tiling io h Hio (fresh_reachable io h R)) as [_ [_ [_ [_ [K _]]]]].
      destruct (K _ _ E1) as [_ [_ K2]]. split; [exact K2|]. lia.
    + intros [k [e [lo' [hi' [E1 [E2 [E3 B]]]]]]]. exists k, e. split; auto. split; auto.
      destruct (C19_tiling io h Hio (fresh_reachable io h R)) as [_ [_ [_ [_ [K _]]]]].
      destruct (K _ _ E1) as [_ [_ K2]]. rewrite K2 in E3. inversion E3; subst. lia.
Qed.

(** ** C20: dimensions *)
Theorem C20_dimensions {I} (io : index_ops I) (h : hspace I) : index_order io -> hs_reachable io h ->
  hs_dim h = product_dim (spaces h) /\
  hs_vec_size h = Some (2 ^ N.of_nat (total_bits (spaces h))) /\
  hs_dim h <= 2 ^ N.of_nat (total_bits (spaces h)) /\
  (hs_is_sparse h = Some true <-> hs_dim h < 2 ^ N.of_nat (total_bits (spaces h))) /\
  (hs_is_sparse h = Some false <->
     Forall (fun e => es_dim e = 2 ^ N.of_nat (es_nbits e)) (spaces h)).
Proof.
  intros Hio R. pose proof (reachable_inv io Hio h R) as [S [W [P [E [B [D F]]]]]].
  assert (V : hs_vec_size h = Some (2 ^ N.of_nat (total_bits (spaces h)))).
  { unfold hs_vec_size, hs_total_n_bits, pow2. rewrite E.
    replace (Z.to_nat (Z.of_nat (total_bits (spaces h)) - 1 + 1)) with (total_bits (spaces h)) by lia.
    destruct (Nat.ltb_spec (total_bits (spaces h)) 64); auto. lia. }
  unfold hs_is_sparse, hs_dim. rewrite V, D. cbn [option_map].
  pose proof (total_bits_le _ W) as L.
  repeat split; auto.
  - intros K. inversion K as [K2]. now apply N.ltb_lt.
  - intros K. f_equal. now apply N.ltb_lt.
  - intros K. inversion K as [K2]. apply N.ltb_ge in K2. apply dense_iff; auto. lia.
  - intros K. f_equal. apply N.ltb_ge. apply dense_iff in K; auto. lia.
Qed.

(** ** C21: too big Hilbert spaces *)

(** add() succeeds exactly when the space is new and the total number of bits
    stays below 64 *)
Theorem C21_add {I} (io : index_ops I) (h h' : hspace I) e o :
  index_order io -> hs_reachable io h -> es_wf e -> hs_add io h e = (h', o) ->
  (o = OExists <-> hs_has io h e = true) /\
  (o = ODone <-> hs_has io h e = false /\ (total_bits (spaces h) + es_nbits e <= 63)%nat) /\
  (hs_has io h e = false -> (63 < total_bits (spaces h) + es_nbits e)%nat ->
     o = OTooBig (Z.of_nat (total_bits (spaces h) + es_nbits e))).
Proof.
  intros Hio R we E. pose proof (reachable_inv io Hio h R) as Hi.
  destruct (add_spec io Hio h e Hi we h' o E) as [A B].
  pose proof (has_iff io Hio h e Hi) as HI.
  replace (total_bits (spaces h) + es_nbits e)%nat with (total_bits (e :: spaces h)) by (cbn; lia).
  destruct (ODone_or io Hio e (spaces h)) as [X|X].
  - destruct (A X) as [-> ->]. apply HI in X. rewrite X.
    split; [split; auto|]. split; [|discriminate]. split; [discriminate|]. intros [K _]; discriminate.
  - destruct (B X) as [_ [_ [_ [_ [_ K]]]]].
    assert (HF : hs_has io h e = false).
    { destruct (hs_has io h e); auto. destruct (proj1 HI eq_refl) as [x [h1 h2]]. exfalso. eapply X; eauto. }
    rewrite HF. destruct (Nat.leb_spec (total_bits (e :: spaces h)) 63) as [L|L]; destruct K as [-> K].
    + split; [split; discriminate|]. split; [split; auto|]. intros _ L2. exfalso. clear - L L2. lia.
    + split; [split; discriminate|]. split; auto. split; [discriminate|]. intros [_ L2]. exfalso. clear - L L2. lia.
Qed.

Theorem C21_vector {I} (io : index_ops I) (l : list (espace I)) h o :
  index_order io -> Forall es_wf l -> hs_of_vector io l = (h, o) ->
  (o = ODone <-> ForallOrdPairs (fun x y => ~ same_slot x y) l /\ (total_bits l <= 63)%nat) /\
  (ForallOrdPairs (fun x y => ~ same_slot x y) l -> (63 < total_bits l)%nat -> o = OTooBig (Z.of_nat (total_bits l))) /\
  (o = ODone -> Permutation (spaces h) l).
Proof.
  intros Hio W E. destruct (vector_spec io Hio l W h o E) as [A B].
  rewrite <- distinct_NoDup_iff.
  assert (DS : distinct_slots l \/ ~ distinct_slots l).
  { rewrite distinct_NoDup_iff. clear -Hio. induction l as [|x t [IH|IH]].
    - left; constructor.
    - destruct (ODone_or io Hio x t) as [[y [h1 h2]]|N].
      + right. intros F. inversion F as [|? ? F1 _]; subst. rewrite Forall_forall in F1.
        apply (F1 y); auto. now apply same_slot_sym.
      + left. constructor; auto. apply Forall_forall. intros y hy ss. apply (N y hy). now apply same_slot_sym.
    - right. intros F. inversion F; subst; auto. }
  destruct DS as [D|D].
  - destruct (B D) as [P [_ [_ K]]]. destruct (Nat.leb_spec (total_bits l) 63) as [L|L].
    + destruct K as [-> K]. split; [split; auto|]. split; auto. intros _ L2. exfalso; lia.
    + subst o. split; [split; [discriminate|intros [_ L2]; exfalso; lia]|]. split; auto.
  - rewrite (A D) in *. split; [split; [discriminate|intros [D2 _]; contradiction]|]. split; [contradiction|discriminate].
Qed.

(** no wrap-around for accepted spaces: the 64-bit dimension is the exact
    product and all bit positions are below 63 *)
Theorem C21_no_wrap {I} (io : index_ops I) (h : hspace I) : index_order io -> hs_reachable io h ->
  (0 <= hs_total_n_bits h <= 63)%Z /\ hs_dim h = product_dim (spaces h) /\ hs_dim h <= 2 ^ 63 /\
  forall k e lo hi, nth_error (spaces h) k = Some e -> hs_bit_range io h e = Some (lo, hi) ->
    (0 <= lo /\ hi < 63)%Z.
Proof.
  intros Hio R. pose proof (reachable_inv io Hio h R) as [S [W [P [E [B [D F]]]]]].
  destruct (C19_tiling io h Hio R) as [_ [_ [TB [_ [BR _]]]]].
  split; [lia|]. split; auto. split.
  - unfold hs_dim. rewrite D. now apply product_63.
  - intros k e lo hi En K. destruct (BR _ _ En) as [_ [_ K2]]. rewrite K2 in K. inversion K; subst.
    pose proof (offset_S _ _ _ En). pose proof (offset_total (spaces h) (Datatypes.S k)). lia.
Qed.

(** ** C22: foreach *)
(** [f] is called on the elements of a strictly increasing list consisting of
    exactly the valid basis states, dim() of them.  Sparse spaces must have
    less than 2^31 states (see C23). *)
Theorem C22_foreach {I} (io : index_ops I) (h : hspace I) : index_order io -> hs_reachable io h ->
  hs_is_sparse h = Some false \/ hs_dim h < 2 ^ 31 ->
  exists states : list N,
    (forall A (f : N -> A -> A) (a : A), hs_foreach h f a = fold_left (fun a x => f x a) states a) /\
    StronglySorted N.lt states /\
    (forall x, In x states <-> valid_state (spaces h) x) /\
    N.of_nat (length states) = hs_dim h.
Proof.
  intros Hio R K. pose proof (reachable_inv io Hio h R) as Hi.
  pose proof Hi as [S [W [P [E [B [D F]]]]]].
  exists (basis_list (spaces h)).
  split; [|split; [now apply basis_list_sorted|split; [now apply basis_list_In|]]].
  2:{ unfold hs_dim. rewrite D. apply basis_list_length. }
  intros A f a. destruct (hs_fa h) as [s|] eqn:Ef.
  - destruct K as [K|K].
    + exfalso. destruct (C20_dimensions io h Hio R) as [C1 [_ [_ [_ C5]]]].
      apply C5 in K. apply dense_iff in K; auto. rewrite <- D in K.
      pose proof (dense_fa io h Hi K). congruence.
    + apply (foreach_sparse io h s Hi Ef). apply (sfe_n_iff io h s Hi Ef). unfold hs_dim in K. now rewrite <- D.
  - apply (foreach_dense io h Hi Ef).
Qed.

(** ** C23 (false of the code): sparse spaces with 2^31 or more states *)
(** the sparse enumeration makes dim() steps exactly when dim() < 2^31 *)
Theorem C23_iff {I} (io : index_ops I) (h : hspace I) s : index_order io -> hs_reachable io h ->
  hs_fa h = Some s -> (sfe_n s = hs_dim h <-> hs_dim h < 2 ^ 31).
Proof.
  intros Hio R Ef. pose proof (reachable_inv io Hio h R) as Hi.
  pose proof (sfe_n_iff io h s Hi Ef) as K. pose proof Hi as [S [W [P [E [B [D F]]]]]].
  unfold hs_dim. rewrite D. exact K.
Qed.

(** ** C24: basis_state_index *)
Theorem C24_decodes {I} (io : index_ops I) (h : hspace I) k e n : index_order io -> hs_reachable io h ->
  nth_error (spaces h) k = Some e -> n < es_dim e ->
  exists x, hs_basis_state_index io h e n = Some (Some x) /\
    valid_state (spaces h) x /\
    forall k' e', nth_error (spaces h) k' = Some e' ->
      bit_field x (offset (spaces h) k') (es_nbits e') = if Nat.eqb k' k then n else 0.
Proof.
  intros Hio R E hn. pose proof (reachable_inv io Hio h R) as Hi.
  pose proof Hi as [S [W [P [En [B [D F]]]]]].
  assert (we : es_wf e) by (rewrite Forall_forall in W; apply W; eapply nth_error_In; eauto).
  pose proof (dim_le e we) as DL.
  pose proof (offset_S _ _ _ E) as O. pose proof (offset_total (spaces h) (Datatypes.S k)) as OT.
  set (o := offset (spaces h) k) in *.
  assert (NB : n < 2 ^ N.of_nat (es_nbits e)) by lia.
  assert (XB : n * 2 ^ N.of_nat o < 2 ^ N.of_nat (total_bits (spaces h))).
  { apply N.lt_le_trans with (2 ^ N.of_nat (o + es_nbits e)).
    - rewrite Nat2N.inj_add, N.pow_add_r. pose proof (pow_pos o). nia.
    - apply N.pow_le_mono_r; lia. }
  exists (n * 2 ^ N.of_nat o).
  assert (BF : forall k' e', nth_error (spaces h) k' = Some e' ->
      bit_field (n * 2 ^ N.of_nat o) (offset (spaces h) k') (es_nbits e') = if Nat.eqb k' k then n else 0).
  { intros k' e' E'. destruct (Nat.eqb_spec k' k) as [->|ne].
    - rewrite E in E'. inversion E'; subst e'. now apply bit_field_same.
    - destruct (Nat.lt_ge_cases k k') as [L|L].
      + apply bit_field_above with (es_nbits e); auto.
        pose proof (offset_mono (spaces h) (Datatypes.S k) k' L). lia.
      + apply bit_field_below. rewrite <- (offset_S _ _ _ E'). apply offset_mono. lia. }
  split; [|split; auto].
  - unfold hs_basis_state_index, pow2. destruct (Nat.ltb_spec (es_nbits e) 64); [|lia].
    destruct (N.ltb_spec n (2 ^ N.of_nat (es_nbits e))); [|lia].
    unfold hs_bit_range. rewrite (find_nth io Hio h k e Hi E). cbn [option_map snd fst].
    f_equal. f_equal. fold o. rewrite N.shiftl_mul_pow2.
    replace (Z.to_N (Z.of_nat o)) with (N.of_nat o) by lia.
    apply w64_small. apply N.lt_le_trans with (1 := XB). apply N.pow_le_mono_r; lia.
  - split; auto. intros k' e' E'. rewrite (BF _ _ E').
    assert (we' : es_wf e') by (rewrite Forall_forall in W; apply W; eapply nth_error_In; eauto).
    destruct (Nat.eqb_spec k' k) as [->|ne].
    + rewrite E in E'. inversion E'; subst; auto.
    + now apply wf_dim.
Qed.

Theorem C24_injective {I} (io : index_ops I) (h : hspace I) k e n k' e' n' x :
  index_order io -> hs_reachable io h ->
  nth_error (spaces h) k = Some e -> n < es_dim e ->
  nth_error (spaces h) k' = Some e' -> n' < es_dim e' ->
  hs_basis_state_index io h e n = Some (Some x) -> hs_basis_state_index io h e' n' = Some (Some x) ->
  n = n' /\ (k = k' \/ n = 0).
Proof.
  intros Hio R E hn E' hn' X X'.
  destruct (C24_decodes io h k e n Hio R E hn) as [y [Y [_ B]]]. rewrite X in Y. inversion Y; subst y.
  destruct (C24_decodes io h k' e' n' Hio R E' hn') as [y [Y' [_ B']]]. rewrite X' in Y'. inversion Y'; subst y.
  pose proof (B _ _ E) as b1. pose proof (B' _ _ E) as b2. rewrite Nat.eqb_refl in b1. rewrite b1 in b2.
  pose proof (B _ _ E') as b3. pose proof (B' _ _ E') as b4. rewrite Nat.eqb_refl in b4. rewrite b4 in b3.
  destruct (Nat.eqb_spec k k') as [->|ne]; [split; auto|].
  destruct (Nat.eqb_spec k' k) as [->|_]; [contradiction|]. split; [congruence|auto].
Qed.

(** every basis state is the sum of the basis_state_index values of its fields *)
Theorem C24_sums {I} (io : index_ops I) (h : hspace I) x : index_order io -> hs_reachable io h ->
  valid_state (spaces h) x ->
  exists ys, length ys = length (spaces h) /\ fold_right N.add 0 ys = x /\
    forall k e, nth_error (spaces h) k = Some e ->
      exists y, nth_error ys k = Some y /\
        hs_basis_state_index io h e (bit_field x (offset (spaces h) k) (es_nbits e)) = Some (Some y).
Proof.
  intros Hio R [V1 V2]. pose proof (reachable_inv io Hio h R) as Hi.
  pose proof Hi as [S [W [P [En [B [D F]]]]]].
  set (l := spaces h) in *.
  exists (map (fun ke => bit_field x (offset l (fst ke)) (es_nbits (snd ke)) * 2 ^ N.of_nat (offset l (fst ke)))
    (combine (seq 0 (length l)) l)).
  split; [rewrite map_length, combine_length, seq_length; lia|]. split; [now apply fields_sum|].
  intros k e E.
  assert (EC : forall (l2 : list (espace I)) a k e, nth_error l2 k = Some e ->
     nth_error (combine (seq a (length l2)) l2) k = Some ((a + k)%nat, e)).
  { clear. induction l2 as [|y t IH]; intros a [|k] e E; cbn in *; try discriminate.
    - inversion E; subst. f_equal. f_equal. lia.
    - rewrite (IH _ _ _ E). f_equal. f_equal. lia. }
  exists (bit_field x (offset l k) (es_nbits e) * 2 ^ N.of_nat (offset l k)).
  split.
  { erewrite map_nth_error; [|apply EC; exact E]. reflexivity. }
  assert (we : es_wf e) by (rewrite Forall_forall in W; apply W; eapply nth_error_In; eauto).
  pose proof (V2 _ _ E) as LT. pose proof (dim_le e we) as DL.
  pose proof (offset_S _ _ _ E) as O. pose proof (offset_total l (Datatypes.S k)) as OT.
  set (n := bit_field x (offset l k) (es_nbits e)) in *.
  unfold hs_basis_state_index, pow2. destruct (Nat.ltb_spec (es_nbits e) 64); [|lia].
  destruct (N.ltb_spec n (2 ^ N.of_nat (es_nbits e))); [|lia].
  unfold hs_bit_range. rewrite (find_nth io Hio h k e Hi E). cbn [option_map snd fst].
  f_equal. f_equal. fold l. rewrite N.shiftl_mul_pow2.
  replace (Z.to_N (Z.of_nat (offset l k))) with (N.of_nat (offset l k)) by lia.
  apply w64_small. apply N.lt_le_trans with (2 ^ N.of_nat (offset l k + es_nbits e)).
  - rewrite Nat2N.inj_add, N.pow_add_r. pose proof (pow_pos (offset l k)). nia.
  - apply N.pow_le_mono_r; lia.
Qed.

(** ** C25: exceptions and copies *)

(** elementary_space_exists leaves the object unchanged *)
Theorem C25_exists_unchanged {I} (io : index_ops I) (h h' : hspace I) e : index_order io ->
  hs_reachable io h -> es_wf e -> hs_add io h e = (h', OExists) -> h' = h.
Proof.
  intros Hio R we E. pose proof (reachable_inv io Hio h R) as Hi.
  destruct (add_spec io Hio h e Hi we h' OExists E) as [A B].
  destruct (ODone_or io Hio e (spaces h)) as [X|X]; [now destruct (A X)|].
  destruct (B X) as [_ [_ [_ [_ [_ K]]]]]. destruct (Nat.leb _ 63); destruct K; discriminate.
Qed.
(** hilbert_space_too_big always leaves the rejected space in the object, with
    the old dim(): the claim that a failed add() has no effect is false *)
Theorem C25_failed_add_refuted {I} (io : index_ops I) (h h' : hspace I) e n : index_order io ->
  hs_reachable io h -> es_wf e -> hs_add io h e = (h', OTooBig n) ->
  hs_has io h e = false /\ hs_has io h' e = true /\ hs_size h' = Datatypes.S (hs_size h) /\
  hs_dim h' = hs_dim h.
Proof.
  intros Hio R we E. pose proof (reachable_inv io Hio h R) as Hi.
  destruct (add_spec io Hio h e Hi we h' _ E) as [A B].
  destruct (ODone_or io Hio e (spaces h)) as [X|X]; [destruct (A X); discriminate|].
  destruct (B X) as [P [S [_ [_ [_ K]]]]].
  split; [|split; [|split]].
  - destruct (hs_has io h e) eqn:HH; auto. apply (has_iff io Hio h e Hi) in HH. destruct HH as [x [h1 h2]].
    exfalso. eapply X; eauto.
  - unfold hs_has. pose proof (es_find_spec io Hio e (hs_es h') S) as F.
    destruct (es_find io e (hs_es h')) as [[[k x] r]|]; auto.
    exfalso. apply (F e); [|apply same_slot_refl]. apply (Permutation_in _ (Permutation_sym P)). now left.
  - apply Permutation_length in P. cbn in P. unfold hs_size, spaces in *. rewrite !map_length in P. exact P.
  - destruct (Nat.leb _ 63); destruct K as [? K]; [discriminate|exact K].
Qed.
(** copies agree with the original in every query but those about algebras *)
Theorem C25_copy {I} (io : index_ops I) (h d : hspace I) : forall c, c = hs_copy h \/ c = hs_assign d h ->
  (forall e, hs_has io c e = hs_has io h e /\ hs_index io c e = hs_index io h e /\
     hs_es_dim io c e = hs_es_dim io h e /\ hs_bit_range io c e = hs_bit_range io h e /\
     forall n, hs_basis_state_index io c e n = hs_basis_state_index io h e n) /\
  hs_size c = hs_size h /\ hs_total_n_bits c = hs_total_n_bits h /\ hs_vec_size c = hs_vec_size h /\
  hs_dim c = hs_dim h /\ hs_is_sparse c = hs_is_sparse h /\
  (forall A (f : N -> A -> A) a, hs_foreach c f a = hs_foreach h f a) /\ spaces c = spaces h.
Proof. intros c [ -> | -> ]; repeat split. Qed.
(** a copied non-empty Hilbert space has forgotten all its algebras *)
Theorem C25_copy_refuted {I} (io : index_ops I) (h : hspace I) e : index_order io -> hs_fresh io h ->
  In e (spaces h) ->
  hs_has_algebra h (es_alg e) = true /\ hs_has_algebra (hs_copy h) (es_alg e) = false /\
  (forall d, hs_has_algebra (hs_assign d h) (es_alg e) = hs_has_algebra d (es_alg e)).
Proof.
  intros Hio R hin. destruct (C19_algebra_ranges io h Hio R (es_alg e)) as [A _].
  split; [apply A; eauto|]. split; reflexivity.
Qed.
(** self-assignment removes all elementary spaces, but keeps dim() *)
Theorem C25_self_assign_refuted {I} (io : index_ops I) (h : hspace I) :
  hs_size (hs_assign_self h) = 0%nat /\ (forall e, hs_has io (hs_assign_self h) e = false) /\
  hs_dim (hs_assign_self h) = hs_dim h /\ hs_total_n_bits (hs_assign_self h) = hs_total_n_bits h.
Proof. repeat split. Qed.

(** ** C26: Hilbert space of an expression *)
Theorem C26_from_expression {I S} (io : index_ops I) (esc : gen I -> option (espace I))
  (e : list (list (gen I) * S)) (h : hspace I) : index_order io ->
  (forall g x, esc g = Some x -> es_wf x) ->
  hs_of_expr io esc e = (h, ODone) ->
  hs_reachable io h /\
  (forall m c g, In (m, c) e -> In g m -> exists x, esc g = Some x /\ hs_has io h x = true) /\
  (forall x, In x (spaces h) -> exists m c g, In (m, c) e /\ In g m /\ esc g = Some x).
Proof.
  intros Hio W E. unfold hs_of_expr in E.
  assert (W' : forall g x, In g (concat (map fst e)) -> esc g = Some x -> es_wf x) by eauto.
  assert (R : hs_reachable io h) by (eapply hr_gens; eauto).
  split; auto. pose proof (reachable_inv io Hio h R) as Hi.
  destruct (gens_spec io Hio esc _ W' h ODone E) as [A B].
  destruct B as [_ [K1 [K2 _]]].
  { intros g hg C. assert (K : ODone = OFailure) by (apply A; eauto). discriminate. }
  assert (CI : forall g, In g (concat (map fst e)) <-> exists m c, In (m, c) e /\ In g m).
  { intros g. rewrite in_concat. split.
    - intros [m [h1 h2]]. apply in_map_iff in h1. destruct h1 as [[m' c] [<- h3]]. eauto.
    - intros [m [c [h1 h2]]]. exists m. split; auto. apply in_map_iff. exists (m, c). auto. }
  split.
  - intros m c g h1 h2. destruct (K2 g) as [x [y [E1 [E2 E3]]]]; [apply CI; eauto|].
    exists x. split; auto. apply (has_iff io Hio h x Hi). eauto.
  - intros x hx. destruct (K1 x hx) as [g [h1 h2]]. apply CI in h1. destruct h1 as [m [c [h1 h3]]]. eauto 10.
Qed.
(** The only failures: a generator the constructor object does not know, or
    more than 63 bits *)
Theorem C26_failures {I S} (io : index_ops I) (esc : gen I -> option (espace I))
  (e : list (list (gen I) * S)) (h : hspace I) o : index_order io ->
  (forall g x, esc g = Some x -> es_wf x) ->
  hs_of_expr io esc e = (h, o) ->
  (o = OFailure <-> exists m c g, In (m, c) e /\ In g m /\ esc g = None) /\
  (o = ODone \/ o = OFailure \/ exists n, o = OTooBig n /\ n = Z.of_nat (total_bits (spaces h)) /\ (63 < n)%Z).
Proof.
  intros Hio W E. unfold hs_of_expr in E.
  assert (W' : forall g x, In g (concat (map fst e)) -> esc g = Some x -> es_wf x) by eauto.
  destruct (gens_spec io Hio esc _ W' h o E) as [A B].
  assert (CI : forall g, In g (concat (map fst e)) <-> exists m c, In (m, c) e /\ In g m).
  { intros g. rewrite in_concat. split.
    - intros [m [h1 h2]]. apply in_map_iff in h1. destruct h1 as [[m' c] [<- h3]]. eauto.
    - intros [m [c [h1 h2]]]. exists m. split; auto. apply in_map_iff. exists (m, c). auto. }
  assert (DEC : (exists g, In g (concat (map fst e)) /\ esc g = None) \/
                (forall g, In g (concat (map fst e)) -> esc g <> None)).
  { clear. induction (concat (map fst e)) as [|g t [[g' [h1 h2]]|N]].
    - right. intros g [].
    - left. exists g'. split; auto. now right.
    - destruct (esc g) eqn:Eg; [right|left; exists g; split; auto; now left].
      intros g' [<-|hg]; [congruence|auto]. }
  destruct DEC as [F|F].
  - rewrite (A F) in *. split; [|auto]. split; auto. intros _. destruct F as [g [h1 h2]]. apply CI in h1.
    destruct h1 as [m [c [h1 h3]]]. eauto 10.
  - destruct (B F) as [_ [_ [_ [_ K]]]].
    assert (NF : ~ exists m c g, In (m, c) e /\ In g m /\ esc g = None).
    { intros [m [c [g [h1 [h2 h3]]]]]. apply (F g); auto. apply CI. eauto. }
    destruct (Nat.leb_spec (total_bits (spaces h)) 63) as [L|L].
    + destruct K as [-> _]. split; [split; [discriminate|contradiction]|auto].
    + subst o. split; [split; [discriminate|contradiction]|]. right. right. eexists. split; [reflexivity|].
      split; auto. lia.
Qed.

(** ** C23 in terms of foreach: the number of calls of f *)
Lemma sparse_count {I} (io : index_ops I) (h : hspace I) s : index_order io -> hs_reachable io h ->
  hs_fa h = Some s -> hs_foreach h (fun _ n => n + 1) 0 = sfe_n s.
Proof.
  intros Hio R Ef. pose proof (reachable_inv io Hio h R) as [S [W [P [E [B [D F]]]]]].
  destruct (init_fa_spec (place (spaces h) 0)) as [fa [Ea K]]; rewrite ?place_fst in *; auto.
  rewrite F, Ef in Ea. inversion Ea; subst fa. destruct K as [K1 [K2 [K3 _]]].
  unfold hs_foreach. rewrite Ef. unfold sfe_run. rewrite <- digs_zero by auto.
  pose proof (sfe_loop_spec (fun _ n => n + 1) _ _ K1 K2 K3 (N.to_nat (sfe_n s)) 0 0) as L.
  change (N.of_nat 0) with 0 in L. rewrite (stv_zero _ K2) in L. change (w64 0) with 0 in L. rewrite L.
  assert (CNT : forall l a, fold_left (fun n (_ : nat) => n + 1) l a = a + N.of_nat (length l)).
  { clear. induction l as [|x t IH]; intros a; cbn [fold_left length]; [lia|]. rewrite IH. lia. }
  rewrite CNT, seq_length. lia.
Qed.

(** dim() = 3 * 2^32, but foreach never calls f *)
Definition ioZ := int_index_ops.
Definition hs_big : hspace Z := Eval vm_compute in fst (hs_of_args ioZ [ESBoson 3 0%Z; ESBoson (2 ^ 32) 1%Z]).
Lemma hs_big_done : hs_of_args ioZ [ESBoson 3 0%Z; ESBoson (2 ^ 32) 1%Z] = (hs_big, ODone).
Proof. vm_compute. reflexivity. Qed.
Lemma args_reachable {I} (io : index_ops I) l : Forall es_wf l -> forall h h', hs_reachable io h ->
  hs_add_all io h l = (h', ODone) -> hs_reachable io h'.
Proof.
  induction 1 as [|e t we _ IH]; intros h h' R E; cbn [hs_add_all] in E.
  - now inversion E; subst.
  - destruct (hs_add io h e) as [h1 o] eqn:E1. destruct o; try discriminate. eapply IH; [|exact E].
    eapply hr_add; eauto.
Qed.
Lemma of_args_reachable {I} (io : index_ops I) l h : hs_of_args io l = (h, ODone) -> Forall es_wf l -> hs_reachable io h.
Proof. intros E W. exact (args_reachable io l W hs_empty h (hr_empty io) E). Qed.
Lemma hs_big_reachable : hs_reachable ioZ hs_big.
Proof.
  apply (of_args_reachable _ _ _ hs_big_done). repeat constructor.
Qed.
Theorem C23_refuted : exists h : hspace Z, hs_reachable ioZ h /\
  hs_dim h = 3 * 2 ^ 32 /\ hs_foreach h (fun _ n => n + 1) 0 = 0.
Proof.
  exists hs_big. split; [exact hs_big_reachable|]. split; [vm_compute; reflexivity|].
  assert (E : exists s, hs_fa hs_big = Some s /\ sfe_n s = 0).
  { eexists. split; vm_compute; reflexivity. }
  destruct E as [s [E1 E2]]. rewrite (sparse_count ioZ hs_big s sto_Z hs_big_reachable E1). exact E2.
Qed.

(** ** C25: operator== ignores the truncation of bosons *)
Theorem C25_equality_refuted : exists h1 h2 : hspace Z,
  hs_reachable ioZ h1 /\ hs_reachable ioZ h2 /\ hs_eqb ioZ h1 h2 = true /\ hs_dim h1 <> hs_dim h2.
Proof.
  exists (fst (hs_of_args ioZ [ESBoson 3 0%Z])), (fst (hs_of_args ioZ [ESBoson 4 0%Z])).
  split; [|split; [|split]].
  - apply (of_args_reachable ioZ [ESBoson 3 0%Z]); [vm_compute; reflexivity|repeat constructor].
  - apply (of_args_reachable ioZ [ESBoson 4 0%Z]); [vm_compute; reflexivity|repeat constructor].
  - reflexivity.
  - vm_compute. discriminate.
Qed.
(** what operator== does decide: the same slots at the same bits *)
Theorem C25_equality {I} (io : index_ops I) (h1 h2 : hspace I) : index_order io ->
  hs_reachable io h1 -> hs_reachable io h2 ->
  (hs_eqb io h1 h2 = true <->
   Forall2 (fun x y => same_slot x y /\ es_nbits x = es_nbits y) (spaces h1) (spaces h2)).
Proof.
  intros Hio R1 R2. pose proof (reachable_inv io Hio h1 R1) as [_ [_ [P1 _]]].
  pose proof (reachable_inv io Hio h2 R2) as [_ [_ [P2 _]]].
  assert (EB : forall x y : espace I, es_eqb io x y = true <-> same_slot x y).
  { intros x y. destruct x as [i|d i|m i], y as [j|d' j|n j]; cbn -[Nat.eqb];
      try (split; intros K; [discriminate|inversion K]).
    - rewrite (sto_eq _ _ _ Hio). split; [intros ->; constructor|intros K; now inversion K].
    - rewrite (sto_eq _ _ _ Hio). split; [intros ->; constructor|intros K; now inversion K].
    - rewrite andb_true_iff, Nat.eqb_eq, (sto_eq _ _ _ Hio).
      split; [intros [-> ->]; constructor|intros K; inversion K; auto]. }
  unfold hs_eqb. rewrite P1, P2.
  assert (GEN : forall (a b : list (espace I)) s,
    (Nat.eqb (length (place a s)) (length (place b s)) && es_list_eqb io (place a s) (place b s) = true <->
     Forall2 (fun x y => same_slot x y /\ es_nbits x = es_nbits y) a b)).
  { induction a as [|x a IH]; intros [|y b] s.
    - split; [constructor|reflexivity].
    - cbn. split; [discriminate|]. intros K; inversion K.
    - cbn. split; [discriminate|]. intros K; inversion K.
    - cbn [place length es_list_eqb fst snd Nat.eqb]. rewrite !andb_true_iff, Z.eqb_refl, Z.eqb_eq, EB.
      split.
      + intros [L [[ss [_ nb]] T]].
        assert (NB : es_nbits x = es_nbits y) by lia.
        constructor; auto. apply (IH b (s + Z.of_nat (es_nbits x))%Z). rewrite andb_true_iff.
        rewrite <- NB in L, T. auto.
      + intros K. inversion K as [|? ? ? ? [ss NB] K2]; subst.
        apply (IH b (s + Z.of_nat (es_nbits x))%Z) in K2. rewrite andb_true_iff in K2. destruct K2 as [L T].
        rewrite <- NB. auto 10. }
  apply GEN.
Qed.

(** ** C57 (false of the code): nested iteration *)
(** The outer callback records the state and iterates over the same object *)
Definition nested_states (s : sfe) : list N :=
  fst (sfe_run (fun st _ acc => (acc ++ [st], snd (sfe_run (fun _ ind (u : unit) => (u, ind)) s tt))) s []).
Theorem C57_refuted : exists (h : hspace Z) s, hs_reachable ioZ h /\ hs_fa h = Some s /\
  hs_foreach h (fun x acc => acc ++ [x]) [] = [0; 1; 2; 4; 5; 6; 8; 9; 10] /\
  nested_states s = [0; 1; 2; 3; 4; 5; 6; 7; 8].
Proof.
  set (h := fst (hs_of_args ioZ [ESBoson 3 0%Z; ESBoson 3 1%Z])).
  exists h. eexists. split; [|split; [|split]].
  - apply (of_args_reachable ioZ [ESBoson 3 0%Z; ESBoson 3 1%Z]); [vm_compute; reflexivity|repeat constructor].
  - vm_compute. reflexivity.
  - vm_compute. reflexivity.
  - vm_compute. reflexivity.
Qed.
(** dense spaces keep no iteration state: the inner loop is a pure function *)

(** ** Non-vacuity *)
Definition hs_ex : hspace Z := Eval vm_compute in
  fst (hs_of_args ioZ [ESSpin 3 0%Z; ESFermion 1%Z; ESBoson 5 0%Z; ESFermion 0%Z]).
Example hs_ex_done : hs_of_args ioZ [ESSpin 3 0%Z; ESFermion 1%Z; ESBoson 5 0%Z; ESFermion 0%Z] = (hs_ex, ODone).
Proof. vm_compute. reflexivity. Qed.
Example hs_ex_reachable : hs_reachable ioZ hs_ex.
Proof.
  apply (of_args_reachable _ _ _ hs_ex_done). repeat constructor.
Qed.
Example hs_ex_fresh : hs_fresh ioZ hs_ex.
Proof.
  apply hf_vector with (l := [ESSpin 3 0%Z; ESFermion 1%Z; ESBoson 5 0%Z; ESFermion 0%Z]);
    [repeat constructor; cbn; lia|vm_compute; reflexivity].
Qed.
Example hs_ex_facts : spaces hs_ex = [ESFermion 0%Z; ESFermion 1%Z; ESBoson 5 0%Z; ESSpin 3 0%Z] /\
  hs_dim hs_ex = 60 /\ hs_is_sparse hs_ex = Some true /\
  hs_bit_range ioZ hs_ex (ESBoson 5 0%Z) = Some (2, 4)%Z /\
  hs_algebra_bit_range hs_ex (-3)%Z = Some (0, 1)%Z /\
  length (hs_foreach hs_ex (fun x acc => acc ++ [x]) []) = 60%nat.
Proof. vm_compute. repeat split. Qed.
Example hs_ex_valid : valid_state (spaces hs_ex) 49.
Proof.
  split; [vm_compute; reflexivity|].
  intros [|[|[|[|k]]]] e E; vm_compute in E; try (destruct k; discriminate); inversion E; subst; vm_compute; reflexivity.
Qed.
Example hs_toobig_ex : exists h h' n, hs_reachable ioZ h /\ hs_add ioZ h (ESBoson (2 ^ 40) 1%Z) = (h', OTooBig n).
Proof.
  exists (fst (hs_of_args ioZ [ESBoson (2 ^ 40) 0%Z])). do 2 eexists. split.
  - apply (of_args_reachable ioZ [ESBoson (2 ^ 40) 0%Z]); [vm_compute; reflexivity|repeat constructor].
  - vm_compute. reflexivity.
Qed.
Example hs_exists_ex : exists h', hs_add ioZ hs_ex (ESBoson 7 0%Z) = (h', OExists).
Proof. eexists. vm_compute. reflexivity. Qed.
Example hs_expr_ex : exists h, hs_of_expr ioZ (boson_es_constructor 4)
  [([GBoson true 0%Z; GSpin 3 Plus 2%Z], 1%Z); ([GFermion true 1%Z; GFermion false 1%Z], 2%Z)] = (h, ODone) /\
  spaces h = [ESFermion 1%Z; ESBoson 4 0%Z; ESSpin 3 2%Z].
Proof. eexists. split; vm_compute; reflexivity. Qed.

Print Assumptions C19_tiling.
Print Assumptions C19_insertion_order.
Print Assumptions C19_algebra_ranges.
Print Assumptions C19_queries.
Print Assumptions C20_dimensions.
Print Assumptions C21_add.
Print Assumptions C21_vector.
Print Assumptions C21_no_wrap.
Print Assumptions C22_foreach.
Print Assumptions C23_iff.
Print Assumptions C23_refuted.
Print Assumptions C24_decodes.
Print Assumptions C24_injective.
Print Assumptions C24_sums.
Print Assumptions C25_exists_unchanged.
Print Assumptions C25_failed_add_refuted.
Print Assumptions C25_copy.
Print Assumptions C25_copy_refuted.
Print Assumptions C25_self_assign_refuted.
Print Assumptions C25_equality.
Print Assumptions C25_equality_refuted.
Print Assumptions C26_from_expression.
Print Assumptions C26_failures.
Print Assumptions C57_refuted.
