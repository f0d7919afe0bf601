(** Enumeration of the basis states of a product space: mixed-radix
    arithmetic and the sparse_foreach_basis_state loop. *)
From Coq Require Import NArith ZArith List Bool Sorted Lia.
From Verif Require Import BitsModel BitsSpec BitsProofs ExprModel ExprSpec HSModel HSSpec.
Import ListNotations.
Open Scope N_scope.
Open Scope list_scope.

Lemma w64_small n : n < 2 ^ 64 -> w64 n = n.
Proof. intros h. unfold w64. now apply N.mod_small. Qed.
Lemma w64_add_l a b : w64 (w64 a + b) = w64 (a + b).
Proof. unfold w64. rewrite N.add_mod_idemp_l; auto. discriminate. Qed.
Lemma w64_add_r a b : w64 (a + w64 b) = w64 (a + b).
Proof. unfold w64. rewrite N.add_mod_idemp_r; auto. discriminate. Qed.
Lemma w64_mul_l a b : w64 (w64 a * b) = w64 (a * b).
Proof. unfold w64. rewrite N.mul_mod_idemp_l; auto. discriminate. Qed.
Lemma w64_mul_r a b : w64 (a * w64 b) = w64 (a * b).
Proof. unfold w64. rewrite N.mul_mod_idemp_r; auto. discriminate. Qed.

(** one radix step *)
Lemma succ_carry i s : 0 < s -> i mod s + 1 = s -> (i + 1) mod s = 0 /\ (i + 1) / s = i / s + 1.
Proof.
  intros hs h. pose proof (N.div_mod i s ltac:(lia)) as E.
  assert (E2 : i + 1 = s * (i / s + 1) + 0) by nia.
  split.
  - symmetry. apply (N.mod_unique _ _ (i / s + 1)); lia.
  - symmetry. apply (N.div_unique _ _ _ 0); lia.
Qed.
Lemma succ_nocarry i s : 0 < s -> i mod s + 1 <> s -> (i + 1) mod s = i mod s + 1 /\ (i + 1) / s = i / s.
Proof.
  intros hs h. pose proof (N.div_mod i s ltac:(lia)) as E. pose proof (N.mod_lt i s ltac:(lia)) as B.
  assert (E2 : i + 1 = s * (i / s) + (i mod s + 1)) by lia.
  split.
  - symmetry. apply (N.mod_unique _ _ (i / s)); lia.
  - symmetry. apply (N.div_unique _ _ _ (i mod s + 1)); lia.
Qed.

Section Sparse.
(** [P s] is next_pow2 s *)
Definition np2 (s : N) : N := match next_pow2 s with Some p => p | None => 0 end.

(** the i-th state; the last digit is not reduced *)
Fixpoint stv (sizes : list N) (i : N) : N :=
  match sizes with
  | [] => 0
  | [_] => i
  | s :: t => i mod s + np2 s * stv t (i / s)
  end.
Fixpoint digs (sizes : list N) (i : N) : list N :=
  match sizes with
  | [] => []
  | [_] => [i]
  | s :: t => i mod s :: digs t (i / s)
  end.
Lemma digs_cons s t i : t <> [] -> digs (s :: t) i = i mod s :: digs t (i / s).
Proof. destruct t; [contradiction|reflexivity]. Qed.
Lemma stv_cons s t i : t <> [] -> stv (s :: t) i = i mod s + np2 s * stv t (i / s).
Proof. destruct t; [contradiction|reflexivity]. Qed.

Lemma np2_ge s p : s <= 2 ^ 63 -> next_pow2 s = Some p -> s <= p.
Proof.
  intros h E. destruct (next_pow2_correct s h) as [q [Eq [_ [L _]]]]. rewrite Eq in E. now inversion E; subst.
Qed.

Lemma carry_step sizes : sizes <> [] -> Forall (fun s => 0 < s /\ s <= 2 ^ 63) sizes ->
  forall sg jumps X i i0 r,
  init_jumps_loop sizes (w64 sg) = Some jumps ->
  digs sizes i = i0 :: r ->
  sfe_carry (i0 + 1 :: r) sizes jumps (w64 (X + sg * (stv sizes i + 1))) =
  (digs sizes (i + 1), w64 (X + sg * stv sizes (i + 1))).
Proof.
  induction sizes as [|s t IH]; intros NE F sg jumps X i i0 r Ej Ed; [contradiction|].
  inversion F as [|? ? [hs hs2] Ft]; subst. destruct t as [|s' t'].
  - simpl in *. inversion Ed; subst. inversion Ej; subst. reflexivity.
  - remember (s' :: t') as t eqn:Et. assert (TN : t <> []) by (subst; discriminate).
    rewrite digs_cons in Ed by auto. inversion Ed; subst i0 r.
    assert (Ej' : exists js, init_jumps_loop t (w64 (w64 sg * np2 s)) = Some js /\
                  jumps = w64 (w64 sg * (np2 s - s)) :: js /\ s <= np2 s).
    { assert (IJ : init_jumps_loop (s :: t) (w64 sg) =
        match next_pow2 s with None => None | Some p =>
          match init_jumps_loop t (w64 (w64 sg * p)) with None => None
          | Some js => Some (w64 (w64 sg * (p - s)) :: js) end end) by (subst t; reflexivity).
      rewrite IJ in Ej. unfold np2. destruct (next_pow2 s) as [p|] eqn:Ep; [|discriminate].
      destruct (init_jumps_loop t (w64 (w64 sg * p))) as [js|] eqn:E2; [|discriminate].
      inversion Ej; subst jumps. exists js. split; [reflexivity|]. split; auto. eapply np2_ge; eauto. }
    destruct Ej' as [js [E2 [-> LE]]]. rewrite w64_mul_l in *.
    destruct (digs t (i / s)) as [|d1 rest] eqn:Edt.
    { subst t. destruct t'; discriminate. }
    assert (SC : sfe_carry (i mod s + 1 :: d1 :: rest) (s :: t) (w64 (sg * (np2 s - s)) :: js)
              (w64 (X + sg * (stv (s :: t) i + 1))) =
            if i mod s + 1 =? s then
              let (ind, st) := sfe_carry (d1 + 1 :: rest) t js
                 (w64 (w64 (X + sg * (stv (s :: t) i + 1)) + w64 (sg * (np2 s - s)))) in (0 :: ind, st)
            else (i mod s + 1 :: d1 :: rest, w64 (X + sg * (stv (s :: t) i + 1)))) by reflexivity.
    rewrite SC. clear SC. rewrite !digs_cons, !stv_cons by auto.
    destruct (N.eqb_spec (i mod s + 1) s) as [C|C].
    + destruct (succ_carry i s hs C) as [M D]. rewrite M, D.
      rewrite w64_add_l, w64_add_r.
      replace (X + sg * (i mod s + np2 s * stv t (i / s) + 1) + sg * (np2 s - s))
        with (X + (sg * np2 s) * (stv t (i / s) + 1)) by nia.
      rewrite (IH TN Ft (sg * np2 s) js X (i / s) d1 rest) by (auto).
      f_equal. f_equal. lia.
    + destruct (succ_nocarry i s hs C) as [M D]. rewrite M, D, Edt. f_equal. f_equal. lia.
Qed.

Lemma digs_zero sizes : Forall (fun s => 0 < s /\ s <= 2 ^ 63) sizes -> digs sizes 0 = map (fun _ => 0) sizes.
Proof.
  induction sizes as [|s t IH]; intros F; auto. inversion F as [|? ? [h _] Ft]; subst.
  destruct t as [|s' t']; [reflexivity|]. rewrite digs_cons by discriminate.
  rewrite N.mod_0_l, N.div_0_l by lia. rewrite IH by auto. reflexivity.
Qed.
Lemma stv_zero sizes : Forall (fun s => 0 < s /\ s <= 2 ^ 63) sizes -> stv sizes 0 = 0.
Proof.
  induction sizes as [|s t IH]; intros F; auto. inversion F as [|? ? [h _] Ft]; subst.
  destruct t as [|s' t']; [reflexivity|]. rewrite stv_cons by discriminate.
  rewrite N.mod_0_l, N.div_0_l by lia. rewrite IH by auto. lia.
Qed.

Definition nseq (n : nat) : list N := map N.of_nat (seq 0 n).

Lemma sfe_loop_spec {A} (f : N -> A -> A) sizes jumps : sizes <> [] ->
  Forall (fun s => 0 < s /\ s <= 2 ^ 63) sizes -> init_jumps sizes = Some jumps ->
  forall k i acc,
  fst (sfe_loop (fun st ind a => (f st a, ind)) sizes jumps k (digs sizes (N.of_nat i)) (w64 (stv sizes (N.of_nat i))) acc) =
  fold_left (fun a j => f (w64 (stv sizes (N.of_nat j))) a) (seq i k) acc.
Proof.
  intros NE F Ej. induction k as [|k IH]; intros i acc; [reflexivity|].
  cbn [sfe_loop seq fold_left].
  destruct (digs sizes (N.of_nat i)) as [|i0 r] eqn:Ed.
  { destruct sizes as [|s [|s' t]]; try contradiction; discriminate. }
  pose proof (carry_step sizes NE F 1 jumps 0 (N.of_nat i) i0 r Ej Ed) as C.
  rewrite w64_add_l.
  replace (0 + 1 * (stv sizes (N.of_nat i) + 1)) with (stv sizes (N.of_nat i) + 1) in C by lia.
  rewrite C. replace (0 + 1 * stv sizes (N.of_nat i + 1)) with (stv sizes (N.of_nat i + 1)) by lia.
  replace (N.of_nat i + 1) with (N.of_nat (S i)) by lia. apply IH.
Qed.
End Sparse.

(** ** Enumeration of a product of elementary spaces *)
Section Enum.
Context {I : Type}.
Notation es := (espace I).

Fixpoint stl (l : list es) (i : N) : N :=
  match l with
  | [] => 0
  | e :: t => i mod es_dim e + 2 ^ N.of_nat (es_nbits e) * stl t (i / es_dim e)
  end.

Lemma wf_dim (e : es) : es_wf e -> 0 < es_dim e.
Proof. destruct e; simpl; intros; lia. Qed.
Lemma dim_le (e : es) : es_wf e -> es_dim e <= 2 ^ N.of_nat (es_nbits e).
Proof.
  destruct e as [i|d i|m i]; simpl; intros h.
  - vm_compute; discriminate.
  - rewrite N2Nat.id. destruct (N.eq_dec d 1) as [->|n]; [vm_compute; discriminate|].
    apply N.log2_up_spec. lia.
  - rewrite N2Nat.id. destruct (N.eq_dec (N.of_nat m) 1) as [->|n]; [vm_compute; discriminate|].
    apply N.log2_up_spec. lia.
Qed.
Lemma dim_gt (e : es) : es_wf e -> es_dim e <> 2 ^ N.of_nat (es_nbits e) ->
  exists n, es_nbits e = S n /\ 2 ^ N.of_nat n < es_dim e.
Proof.
  intros h ne. pose proof (dim_le e h) as LE. pose proof (wf_dim e h) as D.
  destruct (es_nbits e) as [|n] eqn:E; [exfalso; simpl in *; apply ne; lia|].
  exists n. split; auto.
  assert (LU : forall d, 1 < d -> N.to_nat (N.log2_up d) = S n -> 2 ^ N.of_nat n < d).
  { intros d hd E1. pose proof (N.log2_up_spec d hd) as [K _].
    replace (N.pred (N.log2_up d)) with (N.of_nat n) in K by lia. exact K. }
  destruct e as [i|d i|m i]; simpl in *.
  - inversion E; subst. simpl in ne. contradiction ne. reflexivity.
  - apply LU; auto. destruct (N.eq_dec d 1) as [->|]; [discriminate|lia].
  - apply LU; auto. destruct (N.eq_dec (N.of_nat m) 1) as [E1|]; [rewrite E1 in E; discriminate|lia].
Qed.

Lemma total_bits_le (l : list es) : Forall es_wf l -> product_dim l <= 2 ^ N.of_nat (total_bits l).
Proof.
  induction 1 as [|e t h _ IH]; [vm_compute; discriminate|].
  cbn [product_dim total_bits]. rewrite Nat2N.inj_add, N.pow_add_r.
  apply N.mul_le_mono; auto. now apply dim_le.
Qed.
Lemma product_pos (l : list es) : Forall es_wf l -> 0 < product_dim l.
Proof.
  induction 1 as [|e t h _ IH]; [reflexivity|]. cbn [product_dim]. pose proof (wf_dim e h). nia.
Qed.

Lemma div_lt_prod (i d p : N) : 0 < d -> i < d * p -> i / d < p.
Proof. intros h1 h2. apply N.div_lt_upper_bound; lia. Qed.

Lemma stl_bound (l : list es) : Forall es_wf l -> forall i, i < product_dim l -> stl l i < 2 ^ N.of_nat (total_bits l).
Proof.
  induction 1 as [|e t h _ IH]; intros i hi; [vm_compute; reflexivity|].
  cbn [stl product_dim total_bits] in *. rewrite Nat2N.inj_add, N.pow_add_r.
  pose proof (wf_dim e h) as D. pose proof (dim_le e h) as LE.
  pose proof (IH _ (div_lt_prod _ _ _ D hi)) as B. pose proof (N.mod_lt i (es_dim e) ltac:(lia)) as M.
  nia.
Qed.

Lemma stl_mono (l : list es) : Forall es_wf l -> forall i j, i < j -> j < product_dim l -> stl l i < stl l j.
Proof.
  induction 1 as [|e t h _ IH]; intros i j hij hj; [simpl in hj; lia|].
  cbn [stl product_dim] in *. pose proof (wf_dim e h) as D. pose proof (dim_le e h) as LE.
  pose proof (N.mod_lt i (es_dim e) ltac:(lia)) as Mi. pose proof (N.mod_lt j (es_dim e) ltac:(lia)) as Mj.
  pose proof (N.div_le_mono i j (es_dim e) ltac:(lia) ltac:(lia)) as DL.
  pose proof (N.div_mod i (es_dim e) ltac:(lia)) as Ei. pose proof (N.div_mod j (es_dim e) ltac:(lia)) as Ej.
  destruct (N.eq_dec (i / es_dim e) (j / es_dim e)) as [E|E].
  - rewrite E in *. lia.
  - pose proof (IH (i / es_dim e) (j / es_dim e) ltac:(lia) (div_lt_prod _ _ _ D hj)) as K. nia.
Qed.

(** recursive form of [valid_state] *)
Fixpoint validr (l : list es) (x : N) : Prop :=
  match l with
  | [] => x = 0
  | e :: t => x mod 2 ^ N.of_nat (es_nbits e) < es_dim e /\ validr t (x / 2 ^ N.of_nat (es_nbits e))
  end.

Lemma pow_pos n : 0 < 2 ^ N.of_nat n.
Proof. apply N.neq_0_lt_0. apply N.pow_nonzero. discriminate. Qed.

Lemma stl_valid (l : list es) : Forall es_wf l -> forall i, i < product_dim l -> validr l (stl l i).
Proof.
  induction 1 as [|e t h _ IH]; intros i hi; [reflexivity|].
  cbn [stl product_dim validr] in *. pose proof (wf_dim e h) as D. pose proof (dim_le e h) as LE.
  pose proof (N.mod_lt i (es_dim e) ltac:(lia)) as M.
  set (p := 2 ^ N.of_nat (es_nbits e)) in *.
  assert (Pp : 0 < p) by (apply pow_pos).
  rewrite (N.mul_comm p), N.mod_add, N.div_add by lia.
  rewrite N.mod_small, N.div_small by lia. split; auto.
  rewrite N.add_0_l. apply IH. now apply div_lt_prod.
Qed.
Lemma valid_stl (l : list es) : Forall es_wf l -> forall x, validr l x -> exists i, i < product_dim l /\ stl l i = x.
Proof.
  induction 1 as [|e t h _ IH]; intros x hx.
  - exists 0. simpl in hx. subst. split; reflexivity.
  - cbn [validr] in hx. destruct hx as [h1 h2]. destruct (IH _ h2) as [i [hi E]].
    set (p := 2 ^ N.of_nat (es_nbits e)) in *. pose proof (wf_dim e h) as D.
    exists (x mod p + es_dim e * i). cbn [stl product_dim]. fold p.
    rewrite (N.mul_comm (es_dim e)), N.mod_add, N.div_add by lia.
    rewrite (N.mod_small (x mod p)), (N.div_small (x mod p)) by lia. rewrite N.add_0_l, E. split.
    + nia.
    + assert (Pp : 0 < p) by (apply pow_pos). pose proof (N.div_mod x p ltac:(lia)). lia.
Qed.

Lemma validr_iff (l : list es) : Forall es_wf l -> forall x, validr l x <-> valid_state l x.
Proof.
  induction 1 as [|e t h _ IH]; intros x.
  - unfold valid_state. simpl. split.
    + intros ->. split; [reflexivity|]. intros [|k] e; discriminate.
    + intros [h _]. lia.
  - cbn [validr]. rewrite IH. unfold valid_state. cbn [total_bits].
    set (n := N.of_nat (es_nbits e)). rewrite Nat2N.inj_add. fold n. rewrite N.pow_add_r.
    assert (Pn : 2 ^ n <> 0) by (apply N.pow_nonzero; discriminate).
    assert (FK : forall k, bit_field (x / 2 ^ n) (offset t k) = bit_field x (offset (e :: t) (S k))).
    { intros k. unfold bit_field, offset. cbn [firstn total_bits]. rewrite Nat2N.inj_add. fold n.
      rewrite <- N.shiftr_shiftr, (N.shiftr_div_pow2 x n). reflexivity. }
    split.
    + intros [h1 [h2 h3]]. split.
      * pose proof (N.div_mod x (2 ^ n) Pn). pose proof (N.mod_lt x (2 ^ n) Pn). nia.
      * intros [|k] f Ef; simpl in Ef.
        -- inversion Ef; subst f. unfold bit_field, offset. simpl firstn. simpl total_bits.
           rewrite N.shiftr_0_r. exact h1.
        -- rewrite <- FK. apply h3; auto.
    + intros [h1 h2]. split; [|split].
      * specialize (h2 0%nat e eq_refl). unfold bit_field, offset in h2. simpl firstn in h2. simpl total_bits in h2.
        rewrite N.shiftr_0_r in h2. exact h2.
      * apply N.div_lt_upper_bound; auto.
      * intros k f Ef. rewrite FK. apply (h2 (S k) f Ef).
Qed.
End Enum.
