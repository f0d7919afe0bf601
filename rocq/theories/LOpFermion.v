(** Bit-level facts about the fermionic action: masks versus the successive
    application of Jordan-Wigner operators. *)
From Coq Require Import NArith ZArith List Bool Sorted Lia.
From Verif Require Import BitsModel BitsSpec BitsProofs ExprModel HSModel LOpModel.
Import ListNotations.
Open Scope N_scope.
Open Scope list_scope.

Notation tb x i := (N.testbit x (N.of_nat i)).

(** parity of the bits below p *)
Definition par (x : N) (p : nat) : bool := xorall (fun i => tb x i) (seq 0 p).

Lemma xorall_ext f g l : (forall i, In i l -> f i = g i) -> xorall f l = xorall g l.
Proof.
  induction l as [|a l IH]; intros H; [reflexivity|]. cbn [xorall fold_right].
  fold (xorall f l) (xorall g l). rewrite IH, H; auto; [now left|]. intros i hi. apply H. now right.
Qed.
Lemma xorall_xor f g l : xorall (fun i => xorb (f i) (g i)) l = xorb (xorall f l) (xorall g l).
Proof.
  induction l as [|a l IH]; [reflexivity|]. cbn [xorall fold_right].
  fold (xorall f l) (xorall g l) (xorall (fun i => xorb (f i) (g i)) l). rewrite IH.
  destruct (f a), (g a), (xorall f l), (xorall g l); reflexivity.
Qed.
Lemma xorall_false l : xorall (fun _ => false) l = false.
Proof. rewrite xorall_parity. induction l; [reflexivity|]. exact IHl. Qed.
Lemma par_ext x y p : (forall i, (i < p)%nat -> tb x i = tb y i) -> par x p = par y p.
Proof. intros H. apply xorall_ext. intros i hi. apply in_seq in hi. apply H. lia. Qed.
Lemma par_weight x p : Nat.odd (weight (x mod 2 ^ N.of_nat p)) = par x p.
Proof.
  unfold weight, par. rewrite xorall_parity. rewrite (ones_seq _ p).
  - f_equal. f_equal. apply filter_ext_in. intros i hi. apply in_seq in hi.
    apply N.mod_pow2_bits_low. lia.
  - assert (x mod 2 ^ N.of_nat p < 2 ^ N.of_nat p) as H by (apply N.mod_lt, N.pow_nonzero; discriminate).
    apply size_lt_pow in H. rewrite <- size_nat_size in H. lia.
Qed.
Lemma parity_par x p : x < 2 ^ N.of_nat p -> parity x = par x p.
Proof. intros h. rewrite parity_correct, <- par_weight. now rewrite N.mod_small. Qed.

(** ** successive application *)
Definition fstep (dp : bool * nat) (x : N) : option (bool * N) :=
  if fst dp then (if tb x (snd dp) then None else Some (par x (snd dp), N.setbit x (N.of_nat (snd dp))))
  else (if tb x (snd dp) then Some (par x (snd dp), N.clearbit x (N.of_nat (snd dp))) else None).
Definition fbind (o : option (bool * N)) (f : N -> option (bool * N)) : option (bool * N) :=
  match o with
  | None => None
  | Some (b, y) => match f y with None => None | Some (b', z) => Some (xorb b b', z) end
  end.
Fixpoint fcomp (l : list (bool * nat)) (x : N) : option (bool * N) :=
  match l with
  | [] => Some (false, x)
  | p :: t => fbind (fcomp t x) (fstep p)
  end.
Lemma fbind_assoc o f g : fbind (fbind o f) g = fbind o (fun x => fbind (f x) g).
Proof.
  destruct o as [[b y]|]; cbn; auto. destruct (f y) as [[b' z]|]; cbn; auto.
  destruct (g z) as [[b'' w]|]; cbn; auto. now rewrite xorb_assoc.
Qed.
Lemma fbind_ext o f g : (forall y, f y = g y) -> fbind o f = fbind o g.
Proof. intros H. destruct o as [[b y]|]; cbn; auto. now rewrite H. Qed.
Lemma fcomp_app a b x : fcomp (a ++ b) x = fbind (fcomp b x) (fcomp a).
Proof.
  induction a as [|p a IH]; cbn [app fcomp].
  - destruct (fcomp b x) as [[s y]|]; cbn; auto. now rewrite xorb_false_r.
  - rewrite IH, fbind_assoc. apply fbind_ext. reflexivity.
Qed.

Definition memb (i : nat) (d : list nat) : bool := existsb (Nat.eqb i) d.
Lemma memb_In i d : memb i d = true <-> In i d.
Proof.
  unfold memb. rewrite existsb_exists. split.
  - intros [j [hj E]]. apply Nat.eqb_eq in E. now subst.
  - intros h. exists i. split; auto. apply Nat.eqb_refl.
Qed.
(** m has exactly the bits of d *)
Definition is_mask (m : N) (d : list nat) : Prop := forall i, tb m i = memb i d.
Definition tmask (d : list nat) : N := fold_right (fun p m => N.setbit m (N.of_nat p)) 0 d.
Lemma tmask_ok d : is_mask (tmask d) d.
Proof.
  intros i. induction d as [|p d IH]; cbn [tmask fold_right memb existsb].
  - apply N.bits_0.
  - rewrite N.setbit_eqb. fold (tmask d). rewrite IH. unfold memb. f_equal.
    destruct (Nat.eqb_spec i p) as [->|ne]; [now apply N.eqb_eq|apply N.eqb_neq; lia].
Qed.
Lemma is_mask_inj m m' d : is_mask m d -> is_mask m' d -> m = m'.
Proof. intros H H'. apply testbit_nat_ext. intros i. now rewrite H, H'. Qed.

Lemma fcomp_ann d : StronglySorted gt d -> forall x,
  fcomp (map (pair false) d) x =
  if forallb (fun p => tb x p) d
  then Some (xorall (par (N.ldiff x (tmask d))) d, N.ldiff x (tmask d)) else None.
Proof.
  induction 1 as [|p d S IH F]; intros x; cbn [map fcomp forallb].
  - cbn. now rewrite N.ldiff_0_r.
  - rewrite IH. destruct (forallb (fun p0 => tb x p0) d); [|now rewrite andb_false_r].
    rewrite andb_true_r. cbn [fbind]. unfold fstep; cbn [fst snd].
    assert (NI : memb p d = false).
    { destruct (memb p d) eqn:E; auto. apply memb_In in E. rewrite Forall_forall in F. specialize (F _ E). lia. }
    rewrite N.ldiff_spec, tmask_ok, NI, andb_true_r. destruct (tb x p) eqn:T; [|reflexivity].
    assert (E : N.clearbit (N.ldiff x (tmask d)) (N.of_nat p) = N.ldiff x (tmask (p :: d))).
    { apply testbit_nat_ext. intros i. rewrite N.clearbit_eqb, !N.ldiff_spec, !tmask_ok. cbn [memb existsb].
      fold (memb i d).
      destruct (Nat.eqb_spec i p) as [->|ne].
      - rewrite N.eqb_refl. cbn. now rewrite !andb_false_r.
      - replace (N.of_nat p =? N.of_nat i) with false by (symmetry; apply N.eqb_neq; lia).
        cbn. now rewrite andb_true_r. }
    rewrite E. f_equal. f_equal. cbn [xorall fold_right]. fold (xorall (par (N.ldiff x (tmask (p :: d)))) d).
    rewrite xorb_comm. f_equal.
    + apply par_ext. intros i hi. rewrite <- E, N.clearbit_eqb.
      replace (N.of_nat p =? N.of_nat i) with false by (symmetry; apply N.eqb_neq; lia). now rewrite andb_true_r.
    + apply xorall_ext. intros q hq. apply par_ext. intros i hi. rewrite <- E, N.clearbit_eqb.
      rewrite Forall_forall in F. specialize (F _ hq).
      replace (N.of_nat p =? N.of_nat i) with false by (symmetry; apply N.eqb_neq; lia). now rewrite andb_true_r.
Qed.

Lemma fcomp_cre d : StronglySorted lt d -> forall x,
  fcomp (map (pair true) d) x =
  if forallb (fun p => negb (tb x p)) d
  then Some (xorall (par x) d, N.lor x (tmask d)) else None.
Proof.
  induction 1 as [|p d S IH F]; intros x; cbn [map fcomp forallb].
  - cbn. now rewrite N.lor_0_r.
  - rewrite IH. destruct (forallb (fun p0 => negb (tb x p0)) d); [|now rewrite andb_false_r].
    rewrite andb_true_r. cbn [fbind]. unfold fstep; cbn [fst snd].
    assert (NI : memb p d = false).
    { destruct (memb p d) eqn:E; auto. apply memb_In in E. rewrite Forall_forall in F. specialize (F _ E). lia. }
    rewrite N.lor_spec, tmask_ok, NI, orb_false_r. destruct (tb x p) eqn:T; [reflexivity|]. cbn [negb].
    assert (E : N.setbit (N.lor x (tmask d)) (N.of_nat p) = N.lor x (tmask (p :: d))).
    { apply testbit_nat_ext. intros i. rewrite N.setbit_eqb, !N.lor_spec, !tmask_ok. cbn [memb existsb].
      fold (memb i d).
      destruct (Nat.eqb_spec i p) as [->|ne].
      - rewrite N.eqb_refl. cbn. now rewrite orb_true_r.
      - replace (N.of_nat p =? N.of_nat i) with false by (symmetry; apply N.eqb_neq; lia). reflexivity. }
    rewrite E. f_equal. f_equal. cbn [xorall fold_right]. fold (xorall (par x) d).
    rewrite xorb_comm. f_equal.
    apply par_ext. intros i hi. rewrite N.lor_spec, tmask_ok.
    destruct (memb i d) eqn:M; [|now rewrite orb_false_r]. apply memb_In in M.
    rewrite Forall_forall in F. specialize (F _ M). lia.
Qed.

(** ** the count masks *)
Definition above (d : list nat) (i : nat) : bool := xorall (fun q => Nat.ltb i q) d.

Lemma par_above (x : N) B d : Forall (fun q => (q <= B)%nat) d ->
  xorall (par x) d = xorall (fun i => tb x i && above d i) (seq 0 B).
Proof.
  induction 1 as [|q d hq F IH].
  - cbn [xorall fold_right]. erewrite xorall_ext; [symmetry; apply xorall_false|].
    intros i _. cbn. apply andb_false_r.
  - cbn [xorall fold_right]. fold (xorall (par x) d). rewrite IH.
    transitivity (xorall (fun i => xorb (tb x i && Nat.ltb i q) (tb x i && above d i)) (seq 0 B)).
    + rewrite xorall_xor. f_equal. unfold par.
      replace B with (q + (B - q))%nat by lia. rewrite seq_app, xorall_app.
      rewrite (xorall_ext (fun i => tb x i && Nat.ltb i q) (fun _ => false) (seq (0 + q) (B - q))).
      * rewrite xorall_false, xorb_false_r. apply xorall_ext. intros i hi. apply in_seq in hi.
        replace (Nat.ltb i q) with true by (symmetry; apply Nat.ltb_lt; lia). now rewrite andb_true_r.
      * intros i hi. apply in_seq in hi.
        replace (Nat.ltb i q) with false by (symmetry; apply Nat.ltb_ge; lia). apply andb_false_r.
    + apply xorall_ext. intros i _. change (above (q :: d) i) with (xorb (Nat.ltb i q) (above d i)).
      destruct (tb x i), (Nat.ltb i q), (above d i); reflexivity.
Qed.

Lemma existsb_Zeqb i d : existsb (Z.eqb (Z.of_nat i)) (map Z.of_nat d) = memb i d.
Proof.
  induction d as [|p d IH]; auto. cbn [map existsb memb]. rewrite IH. f_equal.
  destruct (Nat.eqb_spec i p) as [->|ne]; [apply Z.eqb_refl|apply Z.eqb_neq; lia].
Qed.
(** parity of the number of q in d with i <= q *)
Definition atleast (d : list nat) (i : nat) : bool := xorall (fun q => Nat.leb i q) d.
Lemma xorall_single d i : NoDup d -> xorall (fun q => Nat.eqb i q) d = memb i d.
Proof.
  induction 1 as [|q d NI ND IH]; auto. cbn [xorall fold_right memb existsb]. fold (memb i d).
  fold (xorall (fun q => Nat.eqb i q) d). rewrite IH.
  destruct (Nat.eqb_spec i q) as [->|ne]; cbn; [|now destruct (memb i d)].
  destruct (memb q d) eqn:E; auto. apply memb_In in E. contradiction.
Qed.
Lemma atleast_split d i : NoDup d -> atleast d i = xorb (memb i d) (above d i).
Proof.
  intros ND. rewrite <- (xorall_single d i ND). unfold atleast, above. rewrite <- xorall_xor.
  apply xorall_ext. intros q _. destruct (Nat.leb_spec i q), (Nat.eqb_spec i q), (Nat.ltb_spec i q); cbn; auto; lia.
Qed.
Lemma above_S d i : above d i = atleast d (S i).
Proof. reflexivity. Qed.

Lemma count_mask_loop_spec (d : list nat) : NoDup d -> forall k i on mask, (i + k <= 64)%nat ->
  on = atleast d i ->
  forall j, tb (count_mask_loop (map Z.of_nat d) k (Z.of_nat i) on mask) j =
    tb mask j || (Nat.leb i j && Nat.ltb j (i + k) && negb (memb j d) && above d j).
Proof.
  intros ND. induction k as [|k IH]; intros i on mask B On j; cbn [count_mask_loop].
  - destruct (Nat.leb_spec i j), (Nat.ltb_spec j (i + 0)); cbn; try now rewrite orb_false_r. lia.
  - rewrite existsb_Zeqb. replace (Z.of_nat i + 1)%Z with (Z.of_nat (S i)) by lia.
    rewrite (atleast_split d i ND) in On.
    destruct (memb i d) eqn:M.
    + rewrite IH; [|lia|]. 2:{ rewrite On. rewrite <- above_S. now destruct (above d i). }
      f_equal. destruct (Nat.eq_dec i j) as [<-|ne].
      * rewrite M. cbn. rewrite !andb_false_r. reflexivity.
      * f_equal. f_equal.
        destruct (Nat.leb_spec (S i) j), (Nat.ltb_spec j (S i + k)), (Nat.leb_spec i j), (Nat.ltb_spec j (i + S k)); auto; lia.
    + rewrite IH; [|lia|]. 2:{ rewrite On, xorb_false_l. apply above_S. }
      rewrite xorb_false_l in On.
      assert (TM : tb (if on then N.lor mask (w64 (N.shiftl 1 (Z.to_N (Z.of_nat i)))) else mask) j =
                   tb mask j || (Nat.eqb i j && on)).
      { destruct on; [|now rewrite andb_false_r, orb_false_r].
        rewrite N.lor_spec. f_equal. rewrite andb_true_r.
        replace (Z.to_N (Z.of_nat i)) with (N.of_nat i) by lia.
        rewrite N.shiftl_1_l, w64_small by (apply N.pow_lt_mono_r; lia).
        rewrite testbit_pow2. destruct (Nat.eqb_spec i j) as [->|ne]; [apply N.eqb_refl|apply N.eqb_neq; lia]. }
      rewrite TM, <- orb_assoc. f_equal.
      clear TM. destruct (Nat.eqb_spec i j) as [E|ne].
      * subst j. cbn [andb]. rewrite On, M. replace (Nat.leb (S i) i) with false by (symmetry; apply Nat.leb_gt; lia).
        rewrite Nat.leb_refl. replace (Nat.ltb i (i + S k)) with true by (symmetry; apply Nat.ltb_lt; lia).
        cbn. now rewrite orb_false_r.
      * cbn [andb orb]. f_equal. f_equal.
        destruct (Nat.leb_spec (S i) j), (Nat.ltb_spec j (S i + k)), (Nat.leb_spec i j), (Nat.ltb_spec j (i + S k)); auto; lia.
Qed.
Lemma xorall_true d : xorall (fun _ => true) d = Nat.odd (length d).
Proof.
  rewrite xorall_parity. f_equal. f_equal. induction d; cbn; congruence.
Qed.

(** bits lo..hi, all elements of d at or above lo *)
Lemma count_mask_spec (d : list nat) lo hi : NoDup d -> (lo <= hi < 64)%nat ->
  Forall (fun q => (lo <= q)%nat) d ->
  forall j, tb (compute_count_mask (map Z.of_nat d) (Z.of_nat lo, Z.of_nat hi)) j =
    Nat.leb lo j && Nat.leb j hi && negb (memb j d) && above d j.
Proof.
  intros ND B F j. unfold compute_count_mask; cbn [fst snd].
  rewrite count_mask_loop_spec; auto.
  - rewrite N.bits_0, orb_false_l. f_equal. f_equal. f_equal.
    replace (lo + Z.to_nat (Z.of_nat hi - Z.of_nat lo + 1))%nat with (S hi) by lia.
    destruct (Nat.ltb_spec j (S hi)), (Nat.leb_spec j hi); auto; lia.
  - lia.
  - rewrite map_length, <- xorall_true. unfold atleast. apply xorall_ext. intros q hq.
    rewrite Forall_forall in F. symmetry. apply Nat.leb_le. now apply F.
Qed.

(** ** the action *)
Lemma not64_spec x i : tb (not64 x) i = if Nat.ltb i 64 then negb (tb x i) else tb x i.
Proof.
  unfold not64. rewrite N.lxor_spec. destruct (Nat.ltb_spec i 64).
  - rewrite N.ones_spec_low by lia. now destruct (tb x i).
  - rewrite N.ones_spec_high by lia. now rewrite xorb_false_r.
Qed.
Lemma land_mask_all x m d : is_mask m d -> (N.land x m =? m) = forallb (fun p => tb x p) d.
Proof.
  intros M. destruct (N.eqb_spec (N.land x m) m) as [E|ne].
  - symmetry. apply forallb_forall. intros p hp. apply memb_In in hp. rewrite <- M in hp.
    rewrite <- E, N.land_spec in hp. now apply andb_true_iff in hp.
  - symmetry. apply not_true_iff_false. intros F. apply ne. apply testbit_nat_ext. intros i.
    rewrite N.land_spec, M. destruct (memb i d) eqn:E; [|apply andb_false_r].
    rewrite forallb_forall in F. apply memb_In in E. now rewrite (F _ E).
Qed.
Lemma u64_bits x : u64 x -> forall i, (64 <= i)%nat -> tb x i = false.
Proof. intros h i hi. unfold u64 in h. apply bits_lt_pow with (k := 64); auto. lia. Qed.

Lemma fermion_act_bits {S} (so : scalar_ops S) (a : fermion_action) cs an B lo hi x c :
  fa_const a = false ->
  is_mask (fa_cre a) cs -> is_mask (fa_ann a) an ->
  fa_cre_count a = compute_count_mask (map Z.of_nat cs) (Z.of_nat lo, Z.of_nat hi) ->
  fa_ann_count a = compute_count_mask (map Z.of_nat an) (Z.of_nat lo, Z.of_nat hi) ->
  StronglySorted lt cs -> StronglySorted gt an ->
  lo = 0%nat -> (hi < 64)%nat -> (B <= 64)%nat -> Forall (fun q => (q <= hi)%nat) (cs ++ an) -> (hi < B)%nat ->
  x < 2 ^ N.of_nat B ->
  fermion_act so a x c =
  match fcomp (map (pair true) cs ++ map (pair false) an) x with
  | None => AZero
  | Some (b, y) => AVal (if b then s_mul so c (minus_one so) else c) y
  end.
Proof.
  intros C Mc Ma Ec Ea Sc Sa -> hh hB F hB2 hx. unfold fermion_act. rewrite C.
  rewrite fcomp_app, (fcomp_ann an Sa).
  rewrite (land_mask_all _ _ _ Ma). destruct (forallb (fun p => tb x p) an); [|reflexivity]. cbn [negb fbind].
  assert (hx64 : u64 x).
  { unfold u64. apply N.lt_le_trans with (2 ^ N.of_nat B); auto. apply N.pow_le_mono_r; lia. }
  set (inter := N.land x (not64 (fa_ann a))).
  assert (TI : forall i, tb inter i = tb x i && negb (memb i an)).
  { intros i. unfold inter. rewrite N.land_spec, not64_spec, Ma.
    destruct (Nat.ltb_spec i 64); auto. rewrite (u64_bits x hx64 i) by auto. reflexivity. }
  assert (EI : N.ldiff x (tmask an) = inter).
  { apply testbit_nat_ext. intros i. now rewrite N.ldiff_spec, tmask_ok, TI. }
  rewrite EI, (fcomp_cre cs Sc).
  assert (E2 : (N.land (N.lxor inter (fa_cre a)) (fa_cre a) =? fa_cre a) = forallb (fun p => negb (tb inter p)) cs).
  { rewrite (land_mask_all _ _ _ Mc). clear -Mc.
    assert (H : forall l, (forall p, In p l -> In p cs) ->
       forallb (fun p => tb (N.lxor inter (fa_cre a)) p) l = forallb (fun p => negb (tb inter p)) l).
    { induction l as [|p l IH]; intros Hl; auto. cbn [forallb]. rewrite IH by (intros q hq; apply Hl; now right).
      f_equal. rewrite N.lxor_spec, Mc. replace (memb p cs) with true; [now rewrite xorb_true_r|].
      symmetry. apply memb_In, Hl. now left. }
    apply H. auto. }
  rewrite E2. destruct (forallb (fun p => negb (tb inter p)) cs) eqn:FC; [|reflexivity]. cbn [negb].
  assert (BI : forall i, (B <= i)%nat -> tb inter i = false).
  { intros i hi2. rewrite TI. replace (tb x i) with false; auto. symmetry.
    apply bits_lt_pow with (k := N.of_nat B); auto. lia. }
  assert (EX : not64 (N.land (not64 inter) (not64 (fa_cre a))) = N.lor inter (tmask cs)).
  { apply testbit_nat_ext. intros i. rewrite not64_spec, N.land_spec, !not64_spec, N.lor_spec, tmask_ok, Mc.
    destruct (Nat.ltb_spec i 64).
    - now destruct (tb inter i), (memb i cs).
    - rewrite BI by lia. cbn. destruct (memb i cs) eqn:E; auto. apply memb_In in E.
      rewrite Forall_forall in F. specialize (F i). rewrite in_app_iff in F. specialize (F (or_introl E)). lia. }
  rewrite EX. f_equal.
  replace (parity _) with (xorb (xorall (par inter) an) (xorall (par inter) cs)); [reflexivity|].
  assert (FA : Forall (fun q => (q <= hi)%nat) an /\ Forall (fun q => (q <= hi)%nat) cs).
  { apply Forall_app in F. tauto. }
  assert (ND1 : NoDup an) by (clear -Sa; induction Sa; constructor; auto; intros h; rewrite Forall_forall in H; specialize (H _ h); lia).
  assert (ND2 : NoDup cs) by (apply sorted_lt_NoDup; auto).
  assert (Lx : forall y d, (forall i, (B <= i)%nat -> tb y i = false) -> Forall (fun q => (q <= hi)%nat) d -> NoDup d ->
     (forall i, In i d -> tb y i = false) ->
     xorall (par y) d = xorall (fun i => tb (N.land y (compute_count_mask (map Z.of_nat d) (Z.of_nat 0, Z.of_nat hi))) i) (seq 0 B)).
  { intros y d Hy Fd ND Hd. rewrite (par_above y B d).
    - apply xorall_ext. intros i hi2. apply in_seq in hi2. rewrite N.land_spec, count_mask_spec; auto; [|lia|].
      2:{ eapply Forall_impl; [|exact Fd]. intros; lia. }
      cbn [Nat.leb]. destruct (memb i d) eqn:M.
      + apply memb_In in M. now rewrite (Hd _ M).
      + destruct (Nat.leb_spec i hi) as [l|l]; cbn [andb]; auto.
        f_equal. (* i > hi: above d i = false *)
        unfold above. transitivity (xorall (fun _ => false) d); [|apply xorall_false].
        apply xorall_ext. intros q hq. rewrite Forall_forall in Fd. specialize (Fd _ hq). apply Nat.ltb_ge. lia.
    - eapply Forall_impl; [|exact Fd]. intros q hq. cbn in hq. lia. }
  rewrite (Lx inter an), (Lx inter cs); auto; try tauto.
  - rewrite <- xorall_xor. rewrite Ea, Ec.
    match goal with |- _ = parity ?t => rewrite (parity_par t B) end.
    + unfold par. apply xorall_ext. intros i hi2. rewrite N.lxor_spec. f_equal.
      rewrite !N.land_spec, N.lor_spec, tmask_ok. rewrite count_mask_spec; auto; [|lia|].
      2:{ eapply Forall_impl; [|apply FA]. intros; lia. }
      cbn [Nat.leb]. destruct (memb i cs) eqn:M; [|now rewrite orb_false_r].
      now cbn [negb]; rewrite ?andb_false_r, ?andb_false_l, ?andb_false_r.
    + apply bits_lt_pow. intros i hi2. rewrite <- (N2Nat.id i). rewrite N.lxor_spec, !N.land_spec, N.lor_spec, tmask_ok.
      rewrite BI by lia. cbn. destruct (memb (N.to_nat i) cs) eqn:E; auto. apply memb_In in E.
      destruct FA as [_ FA]. rewrite Forall_forall in FA. specialize (FA _ E). lia.
  - intros i hi2. rewrite forallb_forall in FC. specialize (FC _ hi2). now destruct (tb inter i).
  - intros i hi2. rewrite TI. apply memb_In in hi2. rewrite hi2. apply andb_false_r.
Qed.
