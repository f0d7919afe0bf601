(** Invariants of Hilbert space objects. *)
From Coq Require Import NArith ZArith List Bool Sorted Permutation Lia.
From Verif Require Import BitsModel BitsSpec BitsProofs ExprModel ExprSpec ExprOrder HSModel HSSpec HSEnum.
Import ListNotations.
Open Scope N_scope.
Open Scope list_scope.

(** ** The merged sizes enumerate the same states *)
Section Merge.
Context {I : Type}.
Notation es := (espace I).

Lemma np2_pow2 a n d : 2 ^ n < d -> d <= 2 ^ (n + 1) -> a + (n + 1) <= 63 ->
  np2 (2 ^ a * d) = 2 ^ (a + (n + 1)).
Proof.
  intros h1 h2 h3. unfold np2.
  assert (B : 2 ^ a * d <= 2 ^ 63).
  { apply N.le_trans with (2 ^ (a + (n + 1))).
    - rewrite N.pow_add_r. apply N.mul_le_mono_l; auto.
    - apply N.pow_le_mono_r; lia. }
  destruct (next_pow2_correct _ B) as [p [-> [[k ->] [L1 L2]]]].
  assert (U : 2 ^ k <= 2 ^ (a + (n + 1))).
  { apply L2. rewrite N.pow_add_r. apply N.mul_le_mono_l; auto. }
  apply N.le_antisymm; auto.
  assert (Pa : 2 ^ a <> 0) by (apply N.pow_nonzero; discriminate).
  assert (K : 2 ^ (a + n) < 2 ^ k).
  { rewrite N.pow_add_r. nia. }
  apply N.pow_lt_mono_r_iff in K; [|lia]. apply N.pow_le_mono_r; lia.
Qed.

Lemma merge_dims_spec (l : list (es * (Z * Z))) : Forall es_wf (map fst l) ->
  forall a, (a + total_bits (map fst l) <= 63)%nat ->
  exists sizes, merge_dims l (2 ^ N.of_nat a) = Some sizes /\
    Forall (fun s => 0 < s /\ s <= 2 ^ 63) sizes /\
    fold_right N.mul 1 sizes = 2 ^ N.of_nat a * product_dim (map fst l) /\
    forall i, i < 2 ^ N.of_nat a * product_dim (map fst l) ->
      stv sizes i = i mod 2 ^ N.of_nat a + 2 ^ N.of_nat a * stl (map fst l) (i / 2 ^ N.of_nat a).
Proof.
  induction l as [|[x r] t IH]; intros W a B; cbn [map fst] in *.
  - cbn [merge_dims product_dim total_bits] in *. set (m := 2 ^ N.of_nat a).
    assert (Pm : 0 < m) by apply pow_pos.
    assert (Mm : m <= 2 ^ 63) by (apply N.pow_le_mono_r; lia).
    destruct (N.eqb_spec m 1) as [E|E].
    + exists []. repeat split; auto. simpl; lia. intros i hi. simpl. rewrite E, N.mod_1_r. lia.
    + exists [m]. repeat split; auto. intros i hi. simpl stv. simpl stl.
      rewrite N.mod_small; lia.
  - inversion W as [|? ? wx Wt]; subst. cbn [merge_dims product_dim total_bits stl] in *.
    set (m := 2 ^ N.of_nat a) in *. set (nb := es_nbits x) in *.
    assert (Pm : 0 < m) by apply pow_pos.
    pose proof (wf_dim x wx) as D. pose proof (dim_le x wx) as DL. fold nb in DL.
    assert (HW : w64 (m * es_dim x) = m * es_dim x).
    { apply w64_small. apply N.le_lt_trans with (2 ^ 63); [|reflexivity].
      apply N.le_trans with (m * 2 ^ N.of_nat nb); [nia|].
      unfold m. rewrite <- N.pow_add_r. apply N.pow_le_mono_r; lia. }
    rewrite HW. unfold pow2. destruct (Nat.ltb_spec nb 64) as [_|C]; [|lia].
    destruct (N.eqb_spec (es_dim x) (2 ^ N.of_nat nb)) as [E|E].
    + destruct (IH Wt (a + nb)%nat ltac:(lia)) as [sizes [E1 [F [P S]]]].
      rewrite Nat2N.inj_add, N.pow_add_r, <- E in *. fold m in E1, P, S.
      exists sizes. split; auto. split; auto. split; [rewrite P; ring|]. intros i hi. rewrite S by (rewrite <- N.mul_assoc; exact hi).
      rewrite N.mod_mul_r by lia. rewrite N.div_div by lia. lia.
    + destruct (dim_gt x wx E) as [n [En Gn]]. fold nb in En.
      destruct (IH Wt 0%nat ltac:(lia)) as [sizes [E1 [F [P S]]]].
      change (2 ^ N.of_nat 0) with 1 in *. rewrite E1.
      exists (m * es_dim x :: sizes).
      assert (HB : m * es_dim x <= 2 ^ 63).
      { apply N.le_trans with (m * 2 ^ N.of_nat nb); [nia|].
        unfold m. rewrite <- N.pow_add_r. apply N.pow_le_mono_r; lia. }
      split; auto. split. { constructor; auto. split; [nia|auto]. }
      split. { cbn [fold_right]. rewrite P. lia. }
      intros i hi.
      assert (S' : forall j, j < product_dim (map fst t) -> stv sizes j = stl (map fst t) j).
      { intros j hj. rewrite S by lia. rewrite N.mod_1_r, N.div_1_r. lia. }
      assert (NP : np2 (m * es_dim x) = m * 2 ^ N.of_nat nb).
      { unfold m. rewrite np2_pow2 with (n := N.of_nat n); try lia.
        - rewrite <- N.pow_add_r. f_equal. lia.
        - replace (N.of_nat n + 1) with (N.of_nat nb) by lia. exact DL. }
      destruct (N.eq_dec 0 0) as [_|]; [|contradiction].
      assert (HM : i mod (m * es_dim x) = i mod m + m * ((i / m) mod es_dim x)) by (apply N.mod_mul_r; lia).
      assert (HI : i / (m * es_dim x) < product_dim (map fst t)) by (apply N.div_lt_upper_bound; nia).
      pose proof (S' _ HI) as SH. rewrite N.div_div by lia.
      destruct sizes as [|s0 sz].
      * simpl in P. assert (P1 : product_dim (map fst t) = 1) by lia. rewrite P1 in HI.
        simpl stv. simpl in SH. rewrite <- SH.
        assert (Z0 : i / (m * es_dim x) = 0) by (apply N.lt_1_r; exact HI).
        apply N.div_small_iff in Z0; [|nia]. rewrite N.mod_small in HM by auto. lia.
      * rewrite stv_cons by discriminate. rewrite SH, HM, NP. nia.
Qed.

Lemma merge_dims_fst (l l' : list (es * (Z * Z))) : map fst l = map fst l' -> forall m, merge_dims l m = merge_dims l' m.
Proof.
  revert l'. induction l as [|[x r] t IH]; intros [|[x' r'] t'] E m; try discriminate; auto.
  cbn [map fst] in E. inversion E; subst. cbn [merge_dims].
  rewrite (IH t') by auto. rewrite (IH t') by auto. reflexivity.
Qed.

Lemma z_to_u64_small n : n < 2 ^ 63 -> z_to_u64 (Z.of_N n) = n.
Proof.
  intros h. unfold z_to_u64. rewrite Z.mod_small.
  - apply N2Z.id.
  - split; [lia|]. change (2 ^ 64)%Z with (Z.of_N (2 ^ 64)). apply N2Z.inj_lt.
    apply N.lt_trans with (2 ^ 63); auto. reflexivity.
Qed.
Lemma fold_mul_pos sizes : Forall (fun s => 0 < s /\ s <= 2 ^ 63) sizes -> 0 < fold_right N.mul 1 sizes.
Proof. induction 1 as [|s t [h _] _ IH]; [reflexivity|]. cbn [fold_right]. nia. Qed.
Lemma int_acc_small sizes : Forall (fun s => 0 < s /\ s <= 2 ^ 63) sizes -> forall a,
  0 < a -> a * fold_right N.mul 1 sizes < 2 ^ 31 ->
  fold_left (fun acc s => to_int32 (w64 (z_to_u64 acc * s))) sizes (Z.of_N a) =
  Z.of_N (a * fold_right N.mul 1 sizes).
Proof.
  induction 1 as [|s t [h _] Ft IH]; intros a ha B; cbn [fold_left fold_right] in *.
  - f_equal. lia.
  - assert (Pt : 0 < fold_right N.mul 1 t).
    { now apply fold_mul_pos. }
    assert (Bs : a * s < 2 ^ 31) by nia.
    assert (E : to_int32 (w64 (z_to_u64 (Z.of_N a) * s)) = Z.of_N (a * s)).
    { rewrite z_to_u64_small.
      - rewrite w64_small by (apply N.lt_trans with (2 ^ 31); [auto|reflexivity]).
        unfold to_int32. rewrite N.mod_small by (apply N.lt_trans with (2 ^ 31); [auto|reflexivity]).
        destruct (Z.ltb_spec (Z.of_N (a * s)) (2 ^ 31)) as [_|C]; auto.
        exfalso. change (2 ^ 31)%Z with (Z.of_N (2 ^ 31)) in C. apply N2Z.inj_le in C. lia.
      - apply N.le_lt_trans with (a * s); [nia|]. apply N.lt_trans with (2 ^ 31); [auto|reflexivity]. }
    rewrite E. rewrite IH; [|nia|]; [f_equal; nia|].
    replace (a * s * fold_right N.mul 1 t) with (a * (s * fold_right N.mul 1 t)) by nia. auto.
Qed.
Lemma int_acc_range sizes : sizes <> [] -> (- 2 ^ 31 <= int_accumulate sizes < 2 ^ 31)%Z.
Proof.
  intros NE. destruct (exists_last NE) as [t [s ->]]. unfold int_accumulate.
  rewrite fold_left_app. cbn [fold_left]. set (n := w64 _). unfold to_int32.
  pose proof (N.mod_lt n (2 ^ 32) ltac:(discriminate)) as L. apply N2Z.inj_lt in L.
  change (Z.of_N (2 ^ 32)) with (2 ^ 32)%Z in L.
  destruct (Z.ltb_spec (Z.of_N (n mod 2 ^ 32)) (2 ^ 31)); change (2 ^ 32)%Z with 4294967296%Z in *;
    change (2 ^ 31)%Z with 2147483648%Z in *; lia.
Qed.
Lemma init_jumps_ok sizes : Forall (fun s => 0 < s /\ s <= 2 ^ 63) sizes -> forall sg, exists js, init_jumps_loop sizes sg = Some js.
Proof.
  induction 1 as [|s t [h1 h2] _ IH]; intros sg; [exists []; reflexivity|].
  destruct t as [|s' t']; [exists []; reflexivity|].
  destruct (next_pow2_correct s h2) as [p [E _]].
  destruct (IH (w64 (sg * p))) as [js Ejs].
  exists (w64 (sg * (p - s)) :: js).
  change (init_jumps_loop (s :: s' :: t') sg) with
    (match next_pow2 s with None => None | Some p =>
          match init_jumps_loop (s' :: t') (w64 (sg * p)) with None => None
          | Some js => Some (w64 (sg * (p - s)) :: js) end end).
  rewrite E, Ejs. reflexivity.
Qed.
End Merge.

(** ** The order of elementary spaces *)
Section Order.
Context {I : Type} (io : index_ops I) (Hio : index_order io).
Notation es := (espace I).

Lemma es_ltb_before (x y : es) : es_ltb io x y = true <-> es_before io x y.
Proof.
  destruct x as [i|d i|m i], y as [j|d' j|n j]; cbn -[Nat.ltb Nat.eqb];
    try (split; intros h; [constructor; fail| reflexivity]);
    try (split; intros h; [discriminate|inversion h]);
    try (split; intros h; [constructor; exact h|inversion h; assumption]).
  destruct (Nat.eqb_spec m n) as [->|ne]; cbn -[Nat.ltb].
  - split; intros h; [apply eb_s; exact h|]. inversion h; subst; auto. lia.
  - rewrite Nat.ltb_lt. split; intros h; [now apply eb_m|]. inversion h; subst; auto. contradiction.
Qed.
Lemma es_before_irrefl (x : es) : ~ es_before io x x.
Proof.
  intros h. apply es_ltb_before in h. destruct x; cbn in h; rewrite ?Nat.eqb_refl in h; cbn in h;
    rewrite (sto_irrefl _ _ _ Hio) in h; discriminate.
Qed.
Lemma es_before_trans (x y z : es) : es_before io x y -> es_before io y z -> es_before io x z.
Proof.
  intros h1 h2. unfold idx_lt in *.
  inversion h1; subst; inversion h2; subst;
    try solve [apply eb_fb | apply eb_fs | apply eb_bs
    | apply eb_f; eapply (sto_trans _ _ _ Hio); eassumption
    | apply eb_b; eapply (sto_trans _ _ _ Hio); eassumption
    | apply eb_s; eapply (sto_trans _ _ _ Hio); eassumption
    | apply eb_m; lia ].
Qed.
Lemma es_before_asym (x y : es) : es_before io x y -> ~ es_before io y x.
Proof. intros a b. exact (es_before_irrefl _ (es_before_trans _ _ _ a b)). Qed.
Lemma es_tricho (x y : es) : es_before io x y \/ es_before io y x \/ same_slot x y.
Proof.
  destruct x as [i|d i|m i], y as [j|d' j|n j]; try solve [left; constructor | right; left; constructor].
  - destruct (sto_total _ _ _ Hio i j) as [->|[h|h]].
    + right; right; constructor.
    + left; constructor; auto.
    + right; left; constructor; auto.
  - destruct (sto_total _ _ _ Hio i j) as [->|[h|h]].
    + right; right; constructor.
    + left; constructor; auto.
    + right; left; constructor; auto.
  - destruct (Nat.lt_trichotomy m n) as [h|[->|h]].
    + left; now apply eb_m.
    + destruct (sto_total _ _ _ Hio i j) as [->|[h|h]].
      * right; right; constructor.
      * left; apply eb_s; auto.
      * right; left; apply eb_s; auto.
    + right; left; now apply eb_m.
Qed.
Lemma same_slot_sym (x y : es) : same_slot x y -> same_slot y x.
Proof. intros h; inversion h; constructor. Qed.
Lemma same_slot_refl (x : es) : same_slot x x.
Proof. destruct x; constructor. Qed.
Lemma same_slot_not_before (x y : es) : same_slot x y -> ~ es_before io x y.
Proof.
  intros h b. inversion h; subst; inversion b; subst; unfold idx_lt in *; try lia;
    match goal with K : i_lt io ?i ?i = true |- _ => rewrite (sto_irrefl _ _ _ Hio) in K; discriminate end.
Qed.
Lemma same_slot_before_l (x y z : es) : same_slot x y -> es_before io x z -> es_before io y z.
Proof. intros h b. inversion h; subst; inversion b; subst; try constructor; auto; fail. Qed.
Lemma es_ltb_false_both (x y : es) : es_ltb io x y = false -> es_ltb io y x = false -> same_slot x y.
Proof.
  intros a b. destruct (es_tricho x y) as [h|[h|h]]; auto; apply es_ltb_before in h; congruence.
Qed.

Notation sorted l := (StronglySorted (es_before io) l).

Lemma es_emplace_spec (e : es) l l' b : sorted (map fst l) -> es_emplace io e l = (l', b) ->
  if b then (forall x, In x (map fst l) -> ~ same_slot x e) /\
            sorted (map fst l') /\ Permutation (map fst l') (e :: map fst l)
  else l' = l /\ exists x, In x (map fst l) /\ same_slot x e.
Proof.
  revert l' b. induction l as [|[x r] t IH]; intros l' b Hs E; cbn [es_emplace map fst] in *.
  - inversion E; subst. cbn. repeat split; auto. repeat constructor.
  - inversion Hs as [|? ? St Ft]; subst. rewrite Forall_forall in Ft.
    destruct (es_ltb io x e) eqn:E1.
    + destruct (es_emplace io e t) as [t' b'] eqn:E2. inversion E; subst.
      specialize (IH _ _ St eq_refl). apply es_ltb_before in E1. destruct b.
      * destruct IH as [N [S P]]. cbn [map fst]. split; [|split].
        -- intros y [<-|hy] ss; [eapply same_slot_not_before; eauto|eapply N; eauto].
        -- constructor; auto. apply Forall_forall. intros y hy.
           apply (Permutation_in _ P) in hy. destruct hy as [<-|hy]; auto.
        -- rewrite P. apply perm_swap.
      * destruct IH as [-> [y [hy ss]]]. split; auto. exists y. split; auto. now right.
    + destruct (es_ltb io e x) eqn:E2; inversion E; subst.
      * apply es_ltb_before in E2. cbn [map fst]. split; [|split].
        -- intros y [<-|hy] ss; [apply same_slot_sym in ss; eapply same_slot_not_before; eauto|].
           apply same_slot_sym in ss. eapply same_slot_not_before; [exact ss|].
           eapply es_before_trans; eauto.
        -- constructor; auto. constructor; auto. apply Forall_forall; intros y hy.
           eapply es_before_trans; eauto.
        -- reflexivity.
      * split; auto. exists x. split; [now left|]. now apply es_ltb_false_both.
Qed.

Lemma sorted_perm_eq (l l' : list es) : sorted l -> sorted l' -> Permutation l l' -> l = l'.
Proof.
  revert l'. induction l as [|x t IH]; intros l' S S' P.
  - apply Permutation_nil in P. now subst.
  - destruct l' as [|y t']; [apply Permutation_sym, Permutation_nil in P; discriminate|].
    inversion S as [|? ? St Ft]; subst. inversion S' as [|? ? St' Ft']; subst.
    rewrite Forall_forall in *.
    assert (x = y) as ->.
    { assert (hx : In x (y :: t')) by (apply (Permutation_in _ P); now left).
      assert (hy : In y (x :: t)) by (apply (Permutation_in _ (Permutation_sym P)); now left).
      destruct hx as [|hx]; [auto|]. destruct hy as [|hy]; [auto|].
      exfalso. eapply es_before_asym; eauto. }
    f_equal. apply IH; auto. eapply Permutation_cons_inv; eauto.
Qed.

(** find in a sorted map *)
Lemma es_find_spec (e : es) l : sorted (map fst l) ->
  match es_find io e l with
  | Some (k, x, r) => nth_error l k = Some (x, r) /\ same_slot x e
  | None => forall x, In x (map fst l) -> ~ same_slot x e
  end.
Proof.
  induction l as [|[x r] t IH]; intros Hs; cbn [es_find map fst] in *.
  - intros x [].
  - inversion Hs as [|? ? St Ft]; subst. rewrite Forall_forall in Ft. specialize (IH St).
    destruct (es_ltb io x e) eqn:E1.
    + apply es_ltb_before in E1. destruct (es_find io e t) as [[[k y] s]|].
      * exact IH.
      * intros y [<-|hy] ss; [eapply same_slot_not_before; eauto|eapply IH; eauto].
    + destruct (es_ltb io e x) eqn:E2.
      * apply es_ltb_before in E2. intros y [<-|hy] ss; apply same_slot_sym in ss;
          eapply same_slot_not_before; eauto. eapply es_before_trans; eauto.
      * split; auto. now apply es_ltb_false_both.
Qed.
Lemma sorted_slot_unique (l : list es) : sorted l -> forall i j x y,
  nth_error l i = Some x -> nth_error l j = Some y -> same_slot x y -> i = j /\ x = y.
Proof.
  induction 1 as [|x0 t St IH Ft]; intros i j x y Ei Ej ss; [destruct i; discriminate|].
  rewrite Forall_forall in Ft.
  destruct i as [|i], j as [|j]; cbn in Ei, Ej.
  - inversion Ei; inversion Ej; subst; auto.
  - inversion Ei; subst. exfalso. apply (same_slot_not_before _ _ ss). apply Ft. eapply nth_error_In; eauto.
  - inversion Ej; subst. exfalso. apply (same_slot_not_before _ _ (same_slot_sym _ _ ss)). apply Ft.
    eapply nth_error_In; eauto.
  - destruct (IH i j x y Ei Ej ss) as [-> ->]; auto.
Qed.
End Order.

(** ** Placement *)
Section Place.
Context {I : Type} (io : index_ops I) (Hio : index_order io).
Notation es := (espace I).
Notation sorted l := (StronglySorted (es_before io) l).

Fixpoint place (l : list es) (s : Z) : list (es * (Z * Z)) :=
  match l with
  | [] => []
  | e :: t => (e, (s, s + Z.of_nat (es_nbits e) - 1)%Z) :: place t (s + Z.of_nat (es_nbits e))
  end.
Lemma place_fst l : forall s, map fst (place l s) = l.
Proof. induction l; intros s; cbn; [|rewrite IHl]; auto. Qed.
Lemma place_nth l : forall s k e, nth_error l k = Some e ->
  nth_error (place l s) k = Some (e, (s + Z.of_nat (offset l k), s + Z.of_nat (offset l k) + Z.of_nat (es_nbits e) - 1)%Z).
Proof.
  induction l as [|x t IH]; intros s [|k] e E; cbn in E; try discriminate.
  - inversion E; subst. unfold offset. cbn [firstn total_bits place nth_error]. rewrite Z.add_0_r. reflexivity.
  - cbn [place nth_error]. rewrite (IH _ _ _ E). unfold offset. cbn [firstn total_bits].
    f_equal. f_equal. f_equal; lia.
Qed.
Lemma place_nth_inv l s k e r : nth_error (place l s) k = Some (e, r) -> nth_error l k = Some e.
Proof.
  intros E. rewrite <- (place_fst l s). erewrite map_nth_error; [|exact E]. reflexivity.
Qed.

Definition join (r r' : Z * Z) : Z * Z :=
  (if (fst r' <? fst r)%Z then fst r' else fst r, if (snd r <? snd r')%Z then snd r' else snd r).
Definition ojoin (a b : option (Z * Z)) : option (Z * Z) :=
  match a, b with Some r, Some r' => Some (join r r') | Some r, None => Some r | None, b => b end.
Fixpoint seg (a : Z) (l : list es) (s : Z) : option (Z * Z) :=
  match l with
  | [] => None
  | x :: t => let n := Z.of_nat (es_nbits x) in
      if Z.eqb a (es_alg x) then ojoin (Some (s, s + n - 1)%Z) (seg a t (s + n)) else seg a t (s + n)
  end.

Lemma alg_find_set a b r l : alg_find a (alg_set b r l) = if Z.eqb a b then Some r else alg_find a l.
Proof.
  induction l as [|[c s] t IH]; cbn.
  - destruct (Z.eqb a b); auto.
  - destruct (Z.eqb_spec b c) as [->|n]; cbn.
    + destruct (Z.eqb_spec a c); auto.
    + rewrite IH. destruct (Z.eqb_spec a c) as [->|]; auto. destruct (Z.eqb_spec c b); congruence.
Qed.
Lemma join_assoc a b c : join (join a b) c = join a (join b c).
Proof.
  assert (J : forall r r', join r r' = (Z.min (fst r) (fst r'), Z.max (snd r) (snd r'))).
  { intros r r'. unfold join. f_equal.
    - destruct (Z.ltb_spec (fst r') (fst r)); lia.
    - destruct (Z.ltb_spec (snd r) (snd r')); lia. }
  rewrite !J. cbn [fst snd]. f_equal; lia.
Qed.
Lemma ojoin_assoc a b c : ojoin (ojoin a b) c = ojoin a (ojoin b c).
Proof. destruct a, b, c; cbn; auto. now rewrite join_assoc. Qed.

Lemma recompute_loop_spec (l : list (es * (Z * Z))) : forall algs e l' algs' e',
  recompute_loop l algs e = (l', algs', e') ->
  l' = place (map fst l) (e + 1) /\ e' = (e + Z.of_nat (total_bits (map fst l)))%Z /\
  forall a, alg_find a algs' = ojoin (alg_find a algs) (seg a (map fst l) (e + 1)).
Proof.
  induction l as [|[x r] t IH]; intros algs e l' algs' e' E; cbn [recompute_loop map fst place total_bits seg] in *.
  - inversion E; subst. split; auto. split; [lia|]. intros a. destruct (alg_find a algs'); auto.
  - set (nb := Z.of_nat (es_nbits x)) in *.
    match type of E with context [recompute_loop t ?A _] => set (algs1 := A) in * end.
    destruct (recompute_loop t algs1 (e + nb)) as [[t' algs''] e''] eqn:E2. inversion E; subst.
    destruct (IH _ _ _ _ _ E2) as [-> [-> H]].
    replace (e + nb + 1)%Z with (e + 1 + nb)%Z in * by lia.
    split; [f_equal; f_equal; f_equal; lia|]. split; [lia|].
    intros a. rewrite H.
    assert (AS : alg_find a algs1 =
      if (a =? es_alg x)%Z then ojoin (alg_find a algs) (Some (e + 1, e + nb)%Z) else alg_find a algs).
    { unfold algs1. clear. destruct (alg_find (es_alg x) algs) as [[lo hi]|] eqn:F; rewrite alg_find_set;
        destruct (Z.eqb_spec a (es_alg x)) as [->|]; auto; rewrite F; reflexivity. }
    rewrite AS. replace (e + 1 + nb - 1)%Z with (e + nb)%Z by lia.
    destruct (Z.eqb a (es_alg x)); auto. apply ojoin_assoc.
Qed.

(** segments of a sorted list are contiguous *)
Lemma before_alg (x y : es) : es_before io x y -> (es_alg x <= es_alg y)%Z.
Proof. intros h; inversion h; cbn; lia. Qed.
Lemma seg_none_lt a l : (forall x, In x l -> (a < es_alg x)%Z) -> forall s, seg a l s = None.
Proof.
  induction l as [|x t IH]; intros H s; auto. cbn [seg].
  assert (a < es_alg x)%Z by (apply H; now left).
  destruct (Z.eqb_spec a (es_alg x)); [lia|]. apply IH. intros; apply H; now right.
Qed.
Lemma seg_first a l : sorted l -> (forall x, In x l -> (a <= es_alg x)%Z) -> forall s lo hi,
  seg a l s = Some (lo, hi) -> lo = s /\ (s - 1 <= hi)%Z.
Proof.
  induction 1 as [|x t St IH Ft]; intros H s lo hi E; cbn [seg] in E; [discriminate|].
  rewrite Forall_forall in Ft.
  destruct (Z.eqb_spec a (es_alg x)) as [->|n].
  - destruct (seg (es_alg x) t (s + Z.of_nat (es_nbits x))) as [[lo2 hi2]|] eqn:E2; cbn in E.
    + destruct (IH ltac:(intros; apply before_alg; auto) _ _ _ E2) as [-> hh].
      inversion E; subst; clear E.
      destruct (Z.ltb_spec (s + Z.of_nat (es_nbits x)) s); [lia|].
      split; auto.
      destruct (Z.ltb_spec (s + Z.of_nat (es_nbits x) - 1) hi2); lia.
    + inversion E; subst. lia.
  - exfalso. assert (a < es_alg x)%Z by (pose proof (H x (or_introl eq_refl)); lia).
    rewrite seg_none_lt in E; [discriminate|].
    intros y hy. pose proof (before_alg _ _ (Ft y hy)). lia.
Qed.
Lemma seg_none a l : forall s, seg a l s = None <-> ~ exists x, In x l /\ es_alg x = a.
Proof.
  induction l as [|x t IH]; intros s; cbn [seg].
  - split; auto. intros _ [x [[] _]].
  - destruct (Z.eqb_spec a (es_alg x)) as [->|n].
    + split; [destruct (seg (es_alg x) t _); discriminate|]. intros h. contradiction h.
      exists x. split; auto. now left.
    + rewrite IH. split; intros h [y [hy E]]; apply h; exists y; split; auto; [|now right].
      destruct hy as [->|]; auto. congruence.
Qed.
Lemma seg_range a l : sorted l -> forall s lo hi, seg a l s = Some (lo, hi) ->
  forall p, (lo <= p <= hi)%Z <->
    exists k e, nth_error l k = Some e /\ es_alg e = a /\
      (s + Z.of_nat (offset l k) <= p <= s + Z.of_nat (offset l k) + Z.of_nat (es_nbits e) - 1)%Z.
Proof.
  induction 1 as [|x t St IH Ft]; intros s lo hi E p; cbn [seg] in E; [discriminate|].
  rewrite Forall_forall in Ft.
  assert (TL : (exists k e, nth_error (x :: t) k = Some e /\ es_alg e = a /\
      (s + Z.of_nat (offset (x :: t) k) <= p <= s + Z.of_nat (offset (x :: t) k) + Z.of_nat (es_nbits e) - 1)%Z)
      <-> (es_alg x = a /\ (s <= p <= s + Z.of_nat (es_nbits x) - 1)%Z) \/
      (exists k e, nth_error t k = Some e /\ es_alg e = a /\
      (s + Z.of_nat (es_nbits x) + Z.of_nat (offset t k) <= p <=
       s + Z.of_nat (es_nbits x) + Z.of_nat (offset t k) + Z.of_nat (es_nbits e) - 1)%Z)).
  { split.
    - intros [[|k] [e [E1 [E2 B]]]]; cbn [nth_error] in E1.
      + inversion E1; subst. unfold offset in B. cbn in B. left. split; auto. lia.
      + right. exists k, e. split; auto. split; auto. unfold offset in B. cbn [firstn total_bits] in B.
        unfold offset. lia.
    - intros [[E1 B]|[k [e [E1 [E2 B]]]]].
      + exists 0%nat, x. split; auto. split; auto. unfold offset; cbn. lia.
      + exists (S k), e. split; auto. split; auto. unfold offset in *. cbn [firstn total_bits]. lia. }
  rewrite TL. clear TL. set (n := Z.of_nat (es_nbits x)) in *.
  destruct (Z.eqb_spec a (es_alg x)) as [->|ne].
  - destruct (seg (es_alg x) t (s + n)) as [[lo2 hi2]|] eqn:E2; cbn in E.
    + rewrite <- (IH _ _ _ E2).
      destruct (seg_first _ _ St ltac:(intros; apply before_alg; auto) _ _ _ E2) as [-> hh].
      inversion E; subst; clear E.
      destruct (Z.ltb_spec (s + n) s); [lia|].
      assert (0 <= n)%Z by (unfold n; lia).
      destruct (Z.ltb_spec (s + n - 1) hi2); (split; [|intros [[_ h]|h]; lia]).
      * intros h. destruct (Z_le_gt_dec p (s + n - 1)); [left; split; auto; lia|right; lia].
      * intros h. left. split; auto; lia.
    + inversion E; subst; clear E. split; [intros h; left; auto|].
      intros [[_ h]|[k [e [E1 [E3 _]]]]]; [lia|].
      exfalso. apply (proj1 (seg_none _ _ _) E2). exists e. split; auto. eapply nth_error_In; eauto.
  - rewrite <- (IH _ _ _ E). split; [intros h; right; auto|]. intros [[h _]|h]; congruence.
Qed.
End Place.
