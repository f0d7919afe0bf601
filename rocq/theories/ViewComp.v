(** compressed_state_view: map_index() inverts the enumeration of basis states *)
From Coq Require Import NArith ZArith List Bool Sorted Lia Arith.
From Verif Require Import BitsModel BitsSpec BitsProofs ExprModel ExprSpec ExprOrder
  HSModel HSSpec HSEnum HSProofs HSMain PropHS LOpModel LOpSpec SectorModel SectorSpec SectorProofs SectorMulti ViewModel.
Import ListNotations.
Open Scope N_scope.
Open Scope list_scope.

Lemma sorted_ext (a b : list nat) : StronglySorted lt a -> StronglySorted lt b -> (forall x, In x a <-> In x b) -> a = b.
Proof.
  revert b. induction a as [|x a IH]; intros b Sa Sb H.
  - destruct b as [|y b]; auto. destruct (proj2 (H y) (or_introl eq_refl)).
  - destruct b as [|y b]; [destruct (proj1 (H x) (or_introl eq_refl))|].
    inversion Sa as [|? ? Sa' Fa]; inversion Sb as [|? ? Sb' Fb]; subst. rewrite Forall_forall in Fa, Fb.
    assert (x = y).
    { destruct (proj1 (H x) (or_introl eq_refl)) as [|i]; [auto|]. destruct (proj2 (H y) (or_introl eq_refl)) as [|j]; [auto|].
      specialize (Fa y j). specialize (Fb x i). lia. }
    subst y. f_equal. apply IH; auto. intros z. split; intros i.
    + destruct (proj1 (H z) (or_intror i)) as [<-|]; auto. specialize (Fa _ i). lia.
    + destruct (proj2 (H z) (or_intror i)) as [<-|]; auto. specialize (Fb _ i). lia.
Qed.

(** the mask of the bits [p, p+n) *)
Definition cmask (p n : nat) : N := 2 ^ N.of_nat p * (2 ^ N.of_nat n - 1).
Lemma cmask_bit p n i : N.testbit (cmask p n) (N.of_nat i) = (p <=? i)%nat && (i <? p + n)%nat.
Proof.
  unfold cmask. rewrite N.mul_comm, <- N.shiftl_mul_pow2.
  replace (2 ^ N.of_nat n - 1) with (N.ones (N.of_nat n)) by (rewrite N.ones_equiv; lia).
  destruct (Nat.leb_spec p i).
  - rewrite N.shiftl_spec_high by lia. cbn [andb]. destruct (Nat.ltb_spec i (p + n)).
    + apply N.ones_spec_low. lia.
    + apply N.ones_spec_high. lia.
  - rewrite N.shiftl_spec_low by lia. reflexivity.
Qed.
Lemma cmask_u64 p n : (p + n <= 64)%nat -> u64 (cmask p n).
Proof.
  intros h. unfold u64, cmask. pose proof (pow_pos n). pose proof (pow_pos p).
  assert (2 ^ N.of_nat p * 2 ^ N.of_nat n <= 2 ^ 64) by (rewrite <- N.pow_add_r; apply N.pow_le_mono_r; lia). nia.
Qed.
Lemma ones_cmask p n : ones (cmask p n) = seq p n.
Proof.
  apply sorted_ext.
  - apply ones_sorted.
  - clear. revert p. induction n as [|n IH]; intros p; cbn; constructor; auto. apply Forall_forall. intros x i. apply in_seq in i. lia.
  - intros x. rewrite in_ones, cmask_bit, in_seq, andb_true_iff, Nat.leb_le, Nat.ltb_lt. lia.
Qed.
Lemma extract_cmask p n X : (p + n <= 64)%nat -> u64 X -> extract_bits X (cmask p n) = Some (bit_field X p n).
Proof.
  intros h hX. destruct (extract_bits_spec X (cmask p n) hX (cmask_u64 p n h)) as [r [E R]]. rewrite E. f_equal.
  apply (is_extract_unique X (cmask p n)); auto. intros j. rewrite ones_cmask. unfold bit_field.
  rewrite <- N.land_ones. rewrite N.land_spec, N.shiftr_spec'.
  destruct (Nat.lt_ge_cases j n).
  - rewrite N.ones_spec_low by lia. rewrite andb_true_r.
    rewrite (nth_error_nth' _ 0%nat) by (rewrite seq_length; lia). rewrite seq_nth by auto. f_equal. lia.
  - rewrite N.ones_spec_high by lia. rewrite andb_false_r.
    rewrite (proj2 (nth_error_None (seq p n) j)); auto. rewrite seq_length. lia.
Qed.

Section Comp.
Context {I : Type} (io : index_ops I) (Hio : index_order io).
Notation es := (espace I).

Lemma field_value X p n u c : N.shiftr X (N.of_nat p) = u + 2 ^ N.of_nat n * c -> u < 2 ^ N.of_nat n -> bit_field X p n = u.
Proof.
  intros E hu. unfold bit_field. rewrite E, N.mul_comm, N.mod_add by (pose proof (pow_pos n); lia). now apply N.mod_small.
Qed.
Lemma shiftr_shiftr' X p n u c : N.shiftr X (N.of_nat p) = u + 2 ^ N.of_nat n * c -> u < 2 ^ N.of_nat n ->
  N.shiftr X (N.of_nat (p + n)) = c.
Proof.
  intros E hu. rewrite Nat2N.inj_add, <- N.shiftr_shiftr, E, N.shiftr_div_pow2, N.mul_comm, N.div_add by (pose proof (pow_pos n); lia).
  rewrite N.div_small by auto. reflexivity.
Qed.
Lemma cmask_add p a n : cmask p a + 2 ^ N.of_nat (p + a) * (2 ^ N.of_nat n - 1) = cmask p (a + n).
Proof.
  unfold cmask. rewrite !Nat2N.inj_add, !N.pow_add_r. pose proof (pow_pos p). pose proof (pow_pos a). pose proof (pow_pos n).
  set (P := 2 ^ N.of_nat p) in *. set (A := 2 ^ N.of_nat a) in *. set (C := 2 ^ N.of_nat n) in *. clearbody P A C.
  assert (A * C >= 1) by nia. rewrite !N.mul_sub_distr_l, !N.mul_1_r, N.mul_assoc.
  assert (P <= P * A) by nia. assert (P * A <= P * A * C) by nia. lia.
Qed.

Lemma cv_loop_spec (h : hspace I) (t : list (es * (Z * Z))) : Forall es_wf (map fst t) ->
  forall o a, (a <= o)%nat -> (o + total_bits (map fst t) <= 63)%nat ->
  (forall j e, nth_error (map fst t) j = Some e -> exists hi, hs_bit_range io h e = Some (Z.of_nat (o + offset (map fst t) j), hi)) ->
  exists sm, cv_init_loop io h t (2 ^ N.of_nat a) (cmask (o - a) a) = Some sm /\
    merge_dims t (2 ^ N.of_nat a) = Some (map fst sm) /\
    forall X i s res, u64 X -> i < 2 ^ N.of_nat a * product_dim (map fst t) ->
      N.shiftr X (N.of_nat (o - a)) = i mod 2 ^ N.of_nat a + 2 ^ N.of_nat a * stl (map fst t) (i / 2 ^ N.of_nat a) ->
      cv_index_loop (map snd sm) (cv_strides_from (map fst sm) (w64 s)) X (w64 res) = Some (w64 (res + i * s)).
Proof.
  induction t as [|[x r] t IH]; intros W o a ha hB HR; cbn [map fst] in *.
  - cbn [merge_dims cv_init_loop product_dim total_bits stl] in *.
    destruct (N.eqb_spec (2 ^ N.of_nat a) 1) as [E|E].
    + exists []. split; auto. split; auto. intros X i s res hX hi _. cbn. assert (i = 0) as -> by lia. f_equal. f_equal. lia.
    + exists [(2 ^ N.of_nat a, cmask (o - a) a)]. split; auto. split; auto. intros X i s res hX hi HX.
      cbn [map fst snd cv_strides_from cv_index_loop]. rewrite N.mul_1_r in hi. rewrite N.mod_small in HX by auto.
      rewrite extract_cmask by (auto; lia). rewrite (field_value X (o - a) a i _ HX hi).
      rewrite w64_mul_r, w64_add_l, w64_add_r. reflexivity.
  - inversion W as [|? ? wx Wt]; subst. cbn [merge_dims cv_init_loop product_dim total_bits stl] in *.
    set (m := 2 ^ N.of_nat a) in *. set (nb := es_nbits x) in *.
    assert (Pm : 0 < m) by apply pow_pos. pose proof (pow_pos nb) as Pn.
    pose proof (wf_dim x wx) as D. pose proof (dim_le x wx) as DL. fold nb in DL.
    assert (MN : m * 2 ^ N.of_nat nb <= 2 ^ 63) by (unfold m; rewrite <- N.pow_add_r; apply N.pow_le_mono_r; lia).
    assert (HW : w64 (m * es_dim x) = m * es_dim x).
    { apply w64_small. apply N.le_lt_trans with (2 ^ 63); [|reflexivity]. nia. }
    destruct (HR 0%nat x eq_refl) as [hi0 Hr0]. unfold offset in Hr0. cbn [firstn total_bits] in Hr0. rewrite Nat.add_0_r in Hr0.
    rewrite HW, Hr0. unfold pow2. destruct (Nat.ltb_spec nb 64) as [_|C]; [|lia].
    assert (HR' : forall j e, nth_error (map fst t) j = Some e -> exists hi, hs_bit_range io h e = Some (Z.of_nat (o + nb + offset (map fst t) j), hi)).
    { intros j e Hj. destruct (HR (S j) e Hj) as [hi Hh]. exists hi. rewrite Hh. unfold offset. cbn [firstn total_bits]. fold nb. do 2 f_equal. lia. }
    assert (MK : w64 (cmask (o - a) a + w64 (N.shiftl (sub64 (2 ^ N.of_nat nb) 1) (Z.to_N (Z.of_nat o)))) = cmask (o - a) (a + nb)).
    { rewrite w64_add_r. replace (Z.to_N (Z.of_nat o)) with (N.of_nat o) by lia.
      rewrite sub64_ge; [|unfold u64; apply N.pow_lt_mono_r; lia|lia].
      rewrite N.shiftl_mul_pow2, (N.mul_comm _ (2 ^ N.of_nat o)), <- (cmask_add (o - a) a nb). replace (o - a + a)%nat with o by lia.
      apply w64_small. pose proof (cmask_add (o - a) a nb) as Q. replace (o - a + a)%nat with o in Q by lia. rewrite Q. apply cmask_u64. lia. }
    rewrite MK. destruct (N.eqb_spec (es_dim x) (2 ^ N.of_nat nb)) as [E|E].
    + destruct (IH Wt (o + nb)%nat (a + nb)%nat ltac:(lia) ltac:(lia) HR') as [sm [E1 [E2 E3]]].
      replace (o + nb - (a + nb))%nat with (o - a)%nat in * by lia.
      rewrite Nat2N.inj_add, N.pow_add_r, <- E in *. fold m in E1, E2, E3.
      exists sm. split; auto. split; auto. intros X i s res hX hi HX. apply E3; auto; [rewrite <- N.mul_assoc; exact hi|].
      rewrite HX. rewrite N.mod_mul_r by lia. rewrite N.div_div by lia. lia.
    + destruct (IH Wt (o + nb)%nat 0%nat ltac:(lia) ltac:(lia) HR') as [sm [E1 [E2 E3]]].
      change (2 ^ N.of_nat 0) with 1 in *. rewrite Nat.sub_0_r in *.
      assert (CZ : cmask (o + nb) 0 = 0) by (unfold cmask; cbn; lia). rewrite CZ in E1. rewrite E1, E2. cbn [option_map].
      exists ((m * es_dim x, cmask (o - a) (a + nb)) :: sm). split; auto. split; auto. intros X i s res hX hi HX.
      cbn [map fst snd cv_strides_from cv_index_loop]. rewrite extract_cmask by (auto; lia).
      set (d := es_dim x) in *. assert (MD : m * d <> 0) by (clear - Pm D; nia). assert (MD' : 0 < m * d) by (clear - Pm D; nia).
      assert (MDL : m * d <= m * 2 ^ N.of_nat nb) by (apply N.mul_le_mono_l; exact DL).
      assert (U : i mod (m * d) < 2 ^ N.of_nat (a + nb)).
      { rewrite Nat2N.inj_add, N.pow_add_r. fold m. pose proof (N.mod_lt i (m * d) MD) as Q. eapply N.lt_le_trans; [exact Q|exact MDL]. }
      assert (HX' : N.shiftr X (N.of_nat (o - a)) = i mod (m * d) + 2 ^ N.of_nat (a + nb) * stl (map fst t) (i / (m * d))).
      { rewrite HX, N.mod_mul_r, N.div_div, Nat2N.inj_add, N.pow_add_r by (clear - Pm D Pn; lia). fold m. clear. lia. }
      rewrite (field_value X (o - a) (a + nb) _ _ HX' U).
      pose proof (shiftr_shiftr' X (o - a) (a + nb) _ _ HX' U) as HS. replace (o - a + (a + nb))%nat with (o + nb)%nat in HS by (clear - ha; lia).
      rewrite w64_mul_r, w64_add_l, w64_add_r, w64_mul_l. rewrite (E3 X (i / (m * d))); auto.
      * f_equal. f_equal. pose proof (N.div_mod i (m * d) MD) as DM. set (q := i / (m * d)) in *. set (u := i mod (m * d)) in *. clearbody q u.
        rewrite DM. lia.
      * rewrite N.mul_1_l. apply div_lt_prod; [exact MD'|]. rewrite <- N.mul_assoc. exact hi.
      * rewrite HS, N.mod_1_r, N.div_1_r. lia.
Qed.
End Comp.
