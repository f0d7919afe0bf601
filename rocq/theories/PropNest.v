(** C57: what nested iteration over one sparse Hilbert space does.
    The iteration state is a mutable member of the Hilbert space that is shared
    by the loops: hilbert_space.hpp l.56, l.93-109. *)
From Coq Require Import NArith ZArith List Bool Sorted Permutation Lia.
From Verif Require Import BitsModel BitsSpec BitsProofs ExprModel ExprSpec ExprOrder HSModel HSSpec HSEnum HSProofs HSMain PropHS.
Import ListNotations.
Open Scope N_scope.
Open Scope list_scope.

(** foreach(hs, [&](x) { f(x); foreach(hs, [&](y) { g(x, y); }); }) on a sparse
    space: hilbert_space.hpp l.93-109; the inner call leaves its final indices_
    behind *)
Definition foreach_nested {A} (s : sfe) (f : N -> A -> A) (g : N -> N -> A -> A) (a : A) : A :=
  fst (sfe_run (fun x _ a => sfe_run (fun y ind b => (g x y b, ind)) s (f x a)) s a).

Lemma loop_indices {A} (f : N -> A -> A) sizes jumps : sizes <> [] ->
  Forall (fun s => 0 < s /\ s <= 2 ^ 63) sizes -> init_jumps sizes = Some jumps ->
  forall k i acc,
  snd (sfe_loop (fun st ind a => (f st a, ind)) sizes jumps k (digs sizes (N.of_nat i)) (w64 (stv sizes (N.of_nat i))) acc) =
  digs sizes (N.of_nat (i + k)).
Proof.
  intros NE F Ej. induction k as [|k IH]; intros i acc; [now rewrite Nat.add_0_r|].
  cbn [sfe_loop].
  destruct (digs sizes (N.of_nat i)) as [|i0 r] eqn:Ed.
  { destruct sizes as [|s [|s' t]]; try contradiction; discriminate. }
  pose proof (carry_step sizes NE F 1 jumps 0 (N.of_nat i) i0 r Ej Ed) as C.
  rewrite w64_add_l.
  replace (0 + 1 * (stv sizes (N.of_nat i) + 1)) with (stv sizes (N.of_nat i) + 1) in C by lia.
  rewrite C. replace (0 + 1 * stv sizes (N.of_nat i + 1)) with (stv sizes (N.of_nat i + 1)) by lia.
  replace (N.of_nat i + 1) with (N.of_nat (S i)) by lia. rewrite IH. do 2 f_equal. lia.
Qed.

Section Merge.
Context {I : Type}.
Notation es := (espace I).
Lemma merge_first (l : list (es * (Z * Z))) : Forall es_wf (map fst l) -> forall a s0 s1 r,
  (a + total_bits (map fst l) <= 63)%nat ->
  merge_dims l (2 ^ N.of_nat a) = Some (s0 :: s1 :: r) -> 2 <= s0 /\
  (* and it is not a power of two: next_pow2 is larger *) s0 < np2 s0.
Proof.
  induction l as [|[x q] t IH]; intros W a s0 s1 r B E; cbn [map fst] in *; cbn [merge_dims] in E.
  - destruct (_ =? 1); discriminate.
  - inversion W as [|? ? wx Wt]; subst. cbn [total_bits] in B.
    pose proof (wf_dim x wx) as D. pose proof (dim_le x wx) as DL. set (nb := es_nbits x) in *.
    pose proof (pow_pos a) as Pm.
    assert (HW : w64 (2 ^ N.of_nat a * es_dim x) = 2 ^ N.of_nat a * es_dim x).
    { apply w64_small. apply N.le_lt_trans with (2 ^ 63); [|reflexivity].
      apply N.le_trans with (2 ^ N.of_nat a * 2 ^ N.of_nat nb); [nia|].
      rewrite <- N.pow_add_r. apply N.pow_le_mono_r; lia. }
    rewrite HW in E. unfold pow2 in E. destruct (Nat.ltb_spec nb 64) as [_|C]; [|lia].
    destruct (N.eqb_spec (es_dim x) (2 ^ N.of_nat nb)) as [E1|E1].
    + rewrite E1, <- N.pow_add_r, <- Nat2N.inj_add in E. apply (IH Wt (a + nb)%nat s0 s1 r); auto. lia.
    + destruct (merge_dims t 1) as [s|] eqn:Et; [|discriminate]. inversion E; subst s0 s.
      pose proof (dim_gt x wx E1) as [n [En Gn]]. fold nb in En.
      assert (K : np2 (2 ^ N.of_nat a * es_dim x) = 2 ^ (N.of_nat a + N.of_nat nb)).
      { rewrite En, Nat2N.inj_succ, <- N.add_1_r in *. apply (np2_pow2 (N.of_nat a) (N.of_nat n) (es_dim x)); try lia. }
      rewrite K, N.pow_add_r. assert (es_dim x <> 1).
      { intros X. rewrite X in Gn. pose proof (pow_pos n). lia. }
      split; nia.
Qed.
Lemma merge_ge2 (l : list (es * (Z * Z))) : Forall es_wf (map fst l) -> forall a s,
  (a + total_bits (map fst l) <= 63)%nat -> merge_dims l (2 ^ N.of_nat a) = Some s -> Forall (fun x => 2 <= x) s.
Proof.
  induction l as [|[x q] t IH]; intros W a s B E; cbn [map fst] in *; cbn [merge_dims] in E.
  - pose proof (pow_pos a). destruct (N.eqb_spec (2 ^ N.of_nat a) 1); inversion E; subst; repeat constructor. lia.
  - inversion W as [|? ? wx Wt]; subst. cbn [total_bits] in B.
    pose proof (wf_dim x wx) as D. pose proof (dim_le x wx) as DL. set (nb := es_nbits x) in *.
    pose proof (pow_pos a) as Pm.
    assert (HW : w64 (2 ^ N.of_nat a * es_dim x) = 2 ^ N.of_nat a * es_dim x).
    { apply w64_small. apply N.le_lt_trans with (2 ^ 63); [|reflexivity].
      apply N.le_trans with (2 ^ N.of_nat a * 2 ^ N.of_nat nb); [nia|].
      rewrite <- N.pow_add_r. apply N.pow_le_mono_r; lia. }
    rewrite HW in E. unfold pow2 in E. destruct (Nat.ltb_spec nb 64) as [_|C]; [|lia].
    destruct (N.eqb_spec (es_dim x) (2 ^ N.of_nat nb)) as [E1|E1].
    + rewrite E1, <- N.pow_add_r, <- Nat2N.inj_add in E. apply (IH Wt (a + nb)%nat s); auto. lia.
    + destruct (merge_dims t 1) as [s'|] eqn:Et; [|discriminate]. inversion E; subst s.
      pose proof (dim_gt x wx E1) as [n [En Gn]]. pose proof (pow_pos n).
      constructor; [nia|]. apply (IH Wt 0%nat s'); auto. lia.
Qed.
End Merge.

Lemma stv_one t : Forall (fun x => 2 <= x) t -> t <> [] -> stv t 1 = 1.
Proof.
  induction t as [|x t IH]; intros F NE; [contradiction|]. destruct t as [|y t]; [reflexivity|].
  rewrite stv_cons by discriminate. inversion F; subst. rewrite N.mod_small, N.div_small by lia.
  assert (Z : forall u, Forall (fun x => 2 <= x) u -> stv u 0 = 0).
  { clear. induction u as [|x u IH]; intros F; auto. inversion F; subst. destruct u; [reflexivity|].
    rewrite stv_cons by discriminate. rewrite N.mod_0_l, N.div_0_l, IH by (auto; lia). lia. }
  rewrite Z by auto. lia.
Qed.

(** The inner loops are correct, but the outer one visits 0, 1, ..., dim-1
    instead of the basis states. *)
Theorem C57_nested : forall I (io : index_ops I) (h : hspace I) s,
  index_order io -> hs_reachable io h -> hs_fa h = Some s -> hs_dim h < 2 ^ 31 ->
  exists states : list N,
  (forall A (f : N -> A -> A) (a : A), hs_foreach h f a = fold_left (fun a x => f x a) states a) /\
  (forall x, In x states <-> valid_state (spaces h) x) /\
  (forall A (f : N -> A -> A) (g : N -> N -> A -> A) a,
     foreach_nested s f g a =
     fold_left (fun a x => fold_left (fun a y => g x y a) states (f x a)) (map N.of_nat (seq 0 (N.to_nat (hs_dim h)))) a) /\
  (* which is always wrong *)
  exists x, x < hs_dim h /\ ~ valid_state (spaces h) x.
Proof.
  intros I io h s Hio R Ef Hd. pose proof (reachable_inv io Hio h R) as Hi.
  pose proof Hi as [S0 [W [P [E [B [D F]]]]]].
  assert (SN : sfe_n s = product_dim (spaces h)).
  { apply (sfe_n_iff io h s Hi Ef). unfold hs_dim in Hd. now rewrite <- D. }
  exists (basis_list (spaces h)).
  assert (FE : forall A (f : N -> A -> A) (a : A), hs_foreach h f a = fold_left (fun a x => f x a) (basis_list (spaces h)) a).
  { intros A f a. now apply (foreach_sparse io h s Hi Ef). }
  split; [exact FE|]. split; [now apply basis_list_In|].
  assert (BI := basis_list_In _ W).
  pose proof F as F'. unfold init_foreach_alg in F'.
  destruct (init_fa_spec (place (spaces h) 0)) as [fa [Ea K]]; rewrite ?place_fst in *; auto.
  rewrite F, Ef in Ea. inversion Ea; subst fa. clear Ea.
  destruct K as [K1 [K2 [K3 [K4 [K5 [K6 K7]]]]]].
  assert (MD : merge_dims (place (spaces h) 0) 1 = Some (sfe_sizes s)).
  { destruct (merge_dims (place (spaces h) 0) 1) as [sz|]; [|discriminate].
    destruct (Nat.leb (length sz) 1); [rewrite Ef in F'; discriminate|]. unfold sfe_make in F'.
    destruct (init_jumps sz); [|discriminate]. rewrite Ef in F'. inversion F'; subst. reflexivity. }
  destruct (sfe_sizes s) as [|s0 [|s1 rest]] eqn:Es; [contradiction|cbn in K6; lia|].
  set (t := s1 :: rest) in *.
  assert (G2 := merge_ge2 (place (spaces h) 0) ltac:(rewrite place_fst; auto) 0%nat _ ltac:(rewrite place_fst; auto) MD).
  assert (GF := merge_first (place (spaces h) 0) ltac:(rewrite place_fst; auto) 0%nat _ _ _ ltac:(rewrite place_fst; auto) MD).
  destruct GF as [g1 g2].
  assert (PT : 2 <= fold_right N.mul 1 t).
  { unfold t in *. cbn [fold_right]. inversion G2 as [|? ? _ G3]; subst. inversion G3 as [|? ? a1 G4]; subst.
    assert (1 <= fold_right N.mul 1 rest). { clear - G4. induction G4; cbn [fold_right]; [lia|]. nia. } nia. }
  change (fold_right N.mul 1 (s0 :: t)) with (s0 * fold_right N.mul 1 t) in K4.
  assert (ED : hs_dim h = product_dim (spaces h)) by exact D.
  split.
  - intros A f g a. unfold foreach_nested, sfe_run at 1. rewrite ED, <- SN.
    assert (INN : forall x b, exists ir, sfe_run (fun y ind b => (g x y b, ind)) s b =
      (fold_left (fun a y => g x y a) (basis_list (spaces h)) b, 0 :: ir)).
    { intros x b. pose proof (FE A (g x) b) as Q. unfold hs_foreach in Q. rewrite Ef in Q.
      assert (IX : exists ir, snd (sfe_run (fun y ind b => (g x y b, ind)) s b) = 0 :: ir).
      { unfold sfe_run. rewrite Es. rewrite <- digs_zero by auto.
        pose proof (loop_indices (g x) _ _ K1 K2 K3 (N.to_nat (sfe_n s)) 0 b) as L.
        change (N.of_nat 0) with 0 in L. rewrite (stv_zero _ K2) in L. change (w64 0) with 0 in L. rewrite L.
        cbn [Nat.add]. rewrite N2Nat.id, SN, <- K4. exists (digs t (s0 * fold_right N.mul 1 t / s0)).
        rewrite digs_cons by discriminate. f_equal. rewrite N.mul_comm. apply N.mod_mul. lia. }
      destruct IX as [ir IX]. exists ir. rewrite <- Q, <- IX. apply surjective_pairing. }
    assert (GEN : forall k i ind b, N.of_nat (i + k) < 2 ^ 32 ->
      fst (sfe_loop (fun x _ a => sfe_run (fun y ind b => (g x y b, ind)) s (f x a)) (sfe_sizes s) (sfe_jumps s) k ind (N.of_nat i) b) =
      fold_left (fun a x => fold_left (fun a y => g x y a) (basis_list (spaces h)) (f x a)) (map N.of_nat (seq i k)) b).
    { induction k as [|k IH]; intros i ind b hk; [reflexivity|]. cbn [sfe_loop seq map fold_left].
      destruct (INN (N.of_nat i) (f (N.of_nat i) b)) as [ir Ei]. rewrite Ei.
      rewrite w64_small by (clear - hk; change (2 ^ 32) with 4294967296 in hk; change (2 ^ 64) with 18446744073709551616; lia).
      assert (C : sfe_carry (0 + 1 :: ir) (sfe_sizes s) (sfe_jumps s) (N.of_nat i + 1) = (0 + 1 :: ir, N.of_nat i + 1)).
      { rewrite Es. destruct ir as [|i1 ir]; [reflexivity|]. destruct (sfe_jumps s) as [|j0 js]; [reflexivity|].
        cbn [sfe_carry]. destruct (N.eqb_spec (0 + 1) s0); [lia|reflexivity]. }
      rewrite C. replace (N.of_nat i + 1) with (N.of_nat (Datatypes.S i)) by lia. apply IH.
      replace (Datatypes.S i + k)%nat with (i + Datatypes.S k)%nat by lia. exact hk. }
    apply (GEN _ 0%nat). cbn [Nat.add]. rewrite N2Nat.id, SN, <- ED. apply N.lt_trans with (2 ^ 31); [exact Hd|reflexivity].
  - exists s0. assert (LT : s0 < product_dim (spaces h)) by (rewrite <- K4; nia).
    split; [rewrite ED; exact LT|]. intros V. apply BI in V. unfold basis_list in V. apply in_map_iff in V.
    destruct V as [i [Ei hi]]. apply in_seq in hi. rewrite <- K7 in Ei by lia.
    assert (ST : forall j, j < s0 -> stv (s0 :: t) j = j).
    { intros j hj. rewrite stv_cons by discriminate. rewrite N.mod_small, N.div_small by lia.
      rewrite stv_zero by (now inversion K2). lia. }
    assert (SS : stv (s0 :: t) s0 = np2 s0).
    { rewrite stv_cons by discriminate. rewrite N.mod_same, N.div_same by lia. rewrite stv_one; [lia| |discriminate]. now inversion G2. }
    destruct (N.lt_trichotomy (N.of_nat i) s0) as [hl|[he|hg]].
    + rewrite ST in Ei by auto. lia.
    + rewrite he, SS in Ei. lia.
    + pose proof (stl_mono (spaces h) W s0 (N.of_nat i) hg ltac:(lia)) as M.
      rewrite <- !K7 in M by lia. rewrite SS, Ei in M. lia.
Qed.
Print Assumptions C57_nested.

(** non-vacuity: two bosons with three states each *)
Example C57_nested_ex : let h := fst (hs_of_args ioZ [ESBoson 3 0%Z; ESBoson 3 1%Z]) in
  index_order ioZ /\ hs_reachable ioZ h /\ (exists s, hs_fa h = Some s) /\ hs_dim h < 2 ^ 31.
Proof.
  split; [exact sto_Z|]. split; [|split].
  - apply (of_args_reachable ioZ [ESBoson 3 0%Z; ESBoson 3 1%Z]); [vm_compute; reflexivity|repeat constructor].
  - eexists. vm_compute. reflexivity.
  - reflexivity.
Qed.
