(** The matrix elements of a monomial factorise over the elementary spaces;
    canonical monomials of fermions, truncated bosons and spins 1/2 are linearly
    independent as operators on a finite product of elementary spaces. *)
From Coq Require Import NArith ZArith List Bool Sorted Permutation Lia.
From Verif Require Import BitsModel BitsSpec BitsProofs ExprModel ExprSpec ExprOrder ExprMap ExprEval ExprStd FockSpec FockRep FockUnique
  HSModel HSSpec HSEnum HSProofs HSMain PropHS LOpModel LOpSpec LOpFermion LOpSite LOpActF LOpComm LOpApply.
Import ListNotations.
Open Scope N_scope.
Open Scope list_scope.

(** *** Parities *)
Lemma par_S x p : par x (Datatypes.S p) = xorb (par x p) (tb x p).
Proof.
  unfold par. rewrite seq_S, Nat.add_0_l.
  assert (A : forall f a b, xorall f (a ++ b) = xorb (xorall f a) (xorall f b)).
  { intros f a b. unfold xorall. induction a as [|q a IH]; cbn; [now destruct (fold_right _ _ b)|].
    rewrite IH. now rewrite xorb_assoc. }
  rewrite A. cbn. now rewrite xorb_false_r.
Qed.
Lemma par_flip x o v p : v < 2 -> v <> bit_field x o 1 ->
  par (set_field x o 1 v) p = xorb (par x p) (Nat.ltb o p).
Proof.
  intros hv ne. rewrite bit_field_1 in ne.
  induction p as [|p IH].
  - cbn. reflexivity.
  - rewrite !par_S, IH, set_field_bits by (exact hv).
    destruct (Nat.ltb_spec p o).
    + destruct (Nat.ltb_spec o p), (Nat.ltb_spec o (Datatypes.S p)); try (exfalso; lia). now rewrite !xorb_false_r.
    + destruct (Nat.ltb_spec p (o + 1)).
      * assert (p = o) as -> by lia. rewrite Nat.ltb_irrefl, Nat.sub_diag.
        destruct (Nat.ltb_spec o (Datatypes.S o)); [|lia]. rewrite !xorb_false_r.
        assert (tb v 0 = negb (tb x o)) as ->.
        { destruct (tb x o); cbn [negb]; assert (v = 0 \/ v = 1) as [-> | ->] by lia; try congruence; reflexivity. }
        destruct (par x o), (tb x o); reflexivity.
      * destruct (Nat.ltb_spec o p), (Nat.ltb_spec o (Datatypes.S p)); try (exfalso; lia).
        destruct (par x p), (tb x p); reflexivity.
Qed.

Section Fields.
Context {I : Type}.
Notation es := (espace I).
Definition fld (l : list es) (x : N) (k : nat) (e : es) : N := bit_field x (offset l k) (es_nbits e).

Fixpoint enc (l : list es) (ds : list N) : N :=
  match l, ds with
  | e :: t, d :: ds' => d + 2 ^ N.of_nat (es_nbits e) * enc t ds'
  | _, _ => 0
  end.
Definition digits_ok (l : list es) (ds : list N) : Prop := Forall2 (fun e d => d < es_dim e) l ds.
Lemma fld_div (e : es) t x k f : fld t (x / 2 ^ N.of_nat (es_nbits e)) k f = fld (e :: t) x (S k) f.
Proof.
  unfold fld, bit_field, offset. cbn [firstn total_bits]. rewrite Nat2N.inj_add.
  rewrite <- N.shiftr_shiftr, (N.shiftr_div_pow2 x (N.of_nat (es_nbits e))). reflexivity.
Qed.
Lemma enc_valid (l : list es) ds : Forall es_wf l -> digits_ok l ds -> validr l (enc l ds).
Proof.
  intros W H. revert W. induction H as [|e d t ds hd H IH]; intros W; [reflexivity|].
  inversion W as [|? ? we W']; subst. cbn [enc validr]. pose proof (dim_le e we) as LE.
  pose proof (pow_pos (es_nbits e)) as P.
  rewrite (N.mul_comm (2 ^ _)), N.mod_add, N.div_add by lia.
  rewrite N.mod_small, N.div_small by lia. split; auto.
Qed.
Lemma enc_fld (l : list es) ds : Forall es_wf l -> digits_ok l ds -> forall k e d,
  nth_error l k = Some e -> nth_error ds k = Some d -> fld l (enc l ds) k e = d.
Proof.
  intros W H. revert W. induction H as [|e d t ds hd H IH]; intros W [|k] f d' E E'; try discriminate;
    inversion W as [|? ? we W']; subst; cbn in E, E'; pose proof (dim_le e we) as LE; pose proof (pow_pos (es_nbits e)) as P.
  - injection E as <-. injection E' as <-. unfold fld, offset, bit_field. cbn [firstn total_bits enc].
    change (N.of_nat 0) with 0. rewrite N.shiftr_0_r. rewrite (N.mul_comm (2 ^ _)), N.mod_add by lia. apply N.mod_small. lia.
  - rewrite <- fld_div. cbn [enc]. rewrite (N.mul_comm (2 ^ _)), N.div_add by lia.
    rewrite (N.div_small d) by lia. rewrite N.add_0_l. apply IH; auto.
Qed.
(** a basis state is determined by its fields *)
Lemma state_ext (l : list es) : Forall es_wf l -> forall x y, valid_state l x -> valid_state l y ->
  (forall k e, nth_error l k = Some e -> fld l x k e = fld l y k e) -> x = y.
Proof.
  intros W x y Vx Vy. apply (validr_iff l W) in Vx, Vy. revert x y Vx Vy.
  induction W as [|e t we W IH]; intros x y Vx Vy H; cbn [validr] in Vx, Vy; [congruence|].
  destruct Vx as [_ Vx], Vy as [_ Vy].
  assert (P : 2 ^ N.of_nat (es_nbits e) <> 0) by (apply N.pow_nonzero; discriminate).
  pose proof (N.div_mod x _ P) as Dx. pose proof (N.div_mod y _ P) as Dy.
  assert (E1 : x / 2 ^ N.of_nat (es_nbits e) = y / 2 ^ N.of_nat (es_nbits e)).
  { apply IH; auto. intros k f Ef. rewrite !fld_div. now apply H. }
  pose proof (H 0%nat e eq_refl) as E0. unfold fld, bit_field, offset in E0. cbn [firstn total_bits] in E0.
  change (N.of_nat 0) with 0 in E0. rewrite !N.shiftr_0_r in E0. congruence.
Qed.
End Fields.

Section Factor.
Context {I S : Type} (io : index_ops I) (Hio : index_order io).
Context (so : scalar_ops S) (L : scalar_laws so) (MC : forall x y, s_mul so x y = s_mul so y x).
Context (sq : N -> S) (half : Z -> S).
Notation es := (espace I).
Notation mono := (list (gen I)).
Notation gact := (gen_act io so sq half).
Notation mact := (mono_act io so sq half).
Notation bnd := (obind so).
Notation loc := (loc so sq half).
Context (l : list es) (S0 : StronglySorted (es_before io) l) (W : Forall es_wf l).

(** the factors of m acting on the elementary space e *)
Definition part (e : es) (m : mono) : mono := filter (fun g => carries io g e) m.
(** their action *)
Fixpoint lrun (e : es) (u : mono) (n : N) : option (S * N) :=
  match u with [] => Some (s_one so, n) | g :: t => bnd (lrun e t n) (loc g e) end.

Fixpoint prod (f : nat -> S) (n : nat) : S :=
  match n with O => s_one so | Datatypes.S n' => s_mul so (f O) (prod (fun k => f (Datatypes.S k)) n') end.
Lemma prod_ext n : forall f g, (forall k, (k < n)%nat -> f k = g k) -> prod f n = prod g n.
Proof.
  induction n as [|n IH]; intros f g H; cbn; auto. rewrite H by lia. f_equal. apply IH. intros k hk. apply H. lia.
Qed.
Lemma prod_one n : forall f, (forall k, (k < n)%nat -> f k = s_one so) -> prod f n = s_one so.
Proof.
  induction n as [|n IH]; intros f H; cbn; auto. rewrite H, IH by (intros; try apply H; lia). apply (sl_mul_1_l so L).
Qed.
Lemma prod_zero n : forall f k, (k < n)%nat -> f k = s_zero so -> prod f n = s_zero so.
Proof.
  induction n as [|n IH]; intros f k hk E; [lia|]. cbn. destruct k as [|k].
  - rewrite E. apply (mul_0_l so L).
  - rewrite (IH _ k) by (auto; lia). apply (mul_0_r so L).
Qed.
Lemma prod_upd n : forall f g k0 c, (k0 < n)%nat -> g k0 = s_mul so (f k0) c ->
  (forall k, k <> k0 -> g k = f k) -> prod g n = s_mul so (prod f n) c.
Proof.
  induction n as [|n IH]; intros f g k0 c hk E H; [lia|]. cbn. destruct k0 as [|k0].
  - rewrite E. rewrite (prod_ext n (fun k => g (Datatypes.S k)) (fun k => f (Datatypes.S k))) by (intros; apply H; lia).
    rewrite <- !(sl_mul_assoc so L). f_equal. apply MC.
  - rewrite (H O) by lia. rewrite (IH (fun k => f (Datatypes.S k)) (fun k => g (Datatypes.S k)) k0 c) by (auto; try lia; intros; apply H; lia).
    now rewrite <- (sl_mul_assoc so L).
Qed.

(** the sign: depends on the fermionic bits of x only *)
Definition off (g : gen I) : nat := match find_site io l 0 g with Some (o, _) => o | None => 0%nat end.
Fixpoint cntb (m : mono) (o : nat) : bool :=
  match m with [] => false | g :: t => xorb (is_f g && Nat.ltb (off g) o) (cntb t o) end.
Fixpoint sg (m : mono) (x : N) : bool :=
  match m with [] => false | g :: t => xorb (is_f g && xorb (par x (off g)) (cntb t (off g))) (sg t x) end.

Lemma off_site g k e : site io l g k e -> off g = offset l k.
Proof. intros H. unfold off. rewrite (proj2 (find_site_iff io Hio l g (offset l k) e S0)); eauto. Qed.
Lemma sign_xor a b : sign so (xorb a b) = s_mul so (sign so a) (sign so b).
Proof.
  destruct a, b; cbn; rewrite ?(sl_mul_1_l so L), ?(sl_mul_1_r so L); auto.
  rewrite (s_mul_neg_l so L), (s_mul_neg_r so L), (sl_mul_1_l so L). now rewrite (s_neg_neg so L).
Qed.
Lemma fld_set k0 e0 z n' k e : nth_error l k0 = Some e0 -> nth_error l k = Some e -> k <> k0 -> n' <N es_nbits e0 ->
  fld l (set_field z (offset l k0) (es_nbits e0) n') k e = fld l z k e.
Proof.
  intros E0 E ne hn. unfold fld. apply bit_field_set_other; auto.
  pose proof (sites_disjoint l k0 e0 k e E0 E ltac:(auto)). lia.
Qed.
Lemma part_other g k0 e0 k e m : site io l g k0 e0 -> nth_error l k = Some e -> k <> k0 -> part e (g :: m) = part e m.
Proof.
  intros H E ne. unfold part. cbn [filter]. destruct (carries io g e) eqn:C; auto.
  exfalso. apply ne. apply (site_unique io Hio l g k e k0 e0 S0 (conj E C) H).
Qed.
Lemma part_same g k0 e0 m : site io l g k0 e0 -> part e0 (g :: m) = g :: part e0 m.
Proof. intros [_ C]. unfold part. cbn [filter]. now rewrite C. Qed.
Lemma fermion_before g k e k' j : site io l g k e -> LOpSite.is_f g = false -> nth_error l k' = Some (ESFermion j) ->
  (offset l k' + 1 <= offset l k)%nat.
Proof.
  intros H F E'. assert (H' : site io l (GFermion true j) k' (ESFermion j)).
  { split; auto. cbn. now apply (sto_eq _ _ _ Hio). }
  exact (fermion_first io Hio l (GFermion true j) k' (ESFermion j) g k e S0 H' H eq_refl F).
Qed.

Lemma act_runs m : Forall (known io l) m -> forall x, valid_state l x ->
  match mact l m x with
  | Some (c, z) => valid_state l z /\
      (forall k j, nth_error l k = Some (ESFermion j) -> par z (offset l k) = xorb (par x (offset l k)) (cntb m (offset l k))) /\
      exists cs, (forall k e, nth_error l k = Some e -> lrun e (part e m) (fld l x k e) = Some (cs k, fld l z k e)) /\
        c = s_mul so (sign so (sg m x)) (prod cs (length l))
  | None => exists k e, nth_error l k = Some e /\ lrun e (part e m) (fld l x k e) = None
  end.
Proof.
  induction m as [|g m IH]; intros KN x V; cbn [mono_act].
  - split; auto. split; [intros; cbn; now rewrite xorb_false_r|]. exists (fun _ => s_one so). split.
    + intros k e E. reflexivity.
    + cbn. rewrite prod_one by auto. symmetry. apply (sl_mul_1_l so L).
  - inversion KN as [|? ? Kg KN']; subst. specialize (IH KN' x V).
    assert (exists k0 e0, site io l g k0 e0) as [k0 [e0 H0]].
    { destruct Kg as [e [i c]]. apply In_nth_error in i. destruct i as [k E]. exists k, e. split; auto. }
    destruct (mact l m x) as [[c z]|].
    2: { cbn [obind]. destruct IH as [k [e [E N0]]]. exists k, e. split; auto.
         destruct (Nat.eq_dec k k0) as [->|ne].
         - pose proof (proj1 H0) as E'. rewrite E in E'. injection E' as ->. rewrite (part_same g k0) by auto.
           cbn [lrun]. now rewrite N0.
         - now rewrite (part_other g k0 e0 k) by auto. }
    destruct IH as [Vz [Pz [cs [R C]]]]. cbn [obind].
    rewrite (gen_act_loc io Hio so sq half L l g k0 e0 z S0 H0).
    fold (fld l z k0 e0). destruct (loc g e0 (fld l z k0 e0)) as [[c' n']|] eqn:EL.
    2: { exists k0, e0. split; [apply H0|]. rewrite (part_same g k0) by auto. cbn [lrun]. rewrite (R k0 e0) by apply H0.
         cbn [obind]. now rewrite EL. }
    assert (hd : n' < es_dim e0).
    { eapply (loc_dim io Hio so sq half); [apply H0| |exact EL]. apply (valid_field l k0 e0 z Vz (proj1 H0)). }
    assert (hn : n' <N es_nbits e0).
    { eapply N.lt_le_trans; [exact hd|]. apply dim_le. rewrite Forall_forall in W. apply W. eapply nth_error_In. apply H0. }
    pose proof (valid_update l k0 e0 z n' W Vz (proj1 H0) hd) as Vz'.
    assert (hk0 : (k0 < length l)%nat) by (apply nth_error_Some; destruct H0 as [-> _]; discriminate).
    split; auto. split.
    + intros k j E. destruct (LOpSite.is_f g) eqn:F.
      * destruct g as [d i| |]; try discriminate. pose proof (proj2 H0) as C0. apply (carries_f io Hio) in C0. subst e0.
        cbn [es_nbits]. rewrite par_flip.
        -- rewrite (Pz k j E). cbn [cntb is_f FockRep.is_f]. rewrite (off_site _ k0 _ H0). cbn [andb].
           destruct (par x (offset l k)), (cntb m (offset l k)), (Nat.ltb (offset l k0) (offset l k)); reflexivity.
        -- exact hd.
        -- unfold fld in EL. cbn [LOpSite.loc es_nbits] in EL.
           destruct d; [destruct (N.eqb_spec (bit_field z (offset l k0) 1) 0)|destruct (N.eqb_spec (bit_field z (offset l k0) 1) 1)];
             inversion EL; subst; lia.
      * rewrite (par_ext _ z).
        -- rewrite (Pz k j E). cbn [cntb].
           assert (is_f g = false) as -> by (destruct g; cbn in *; congruence).
           destruct (par x (offset l k)), (cntb m (offset l k)); reflexivity.
        -- intros i hi. rewrite set_field_bits by auto. pose proof (fermion_before g k0 e0 k j H0 F E).
           destruct (Nat.ltb_spec i (offset l k0)); [reflexivity|lia].
    + exists (fun k => if Nat.eqb k k0 then s_mul so (cs k) c' else cs k). split.
      * intros k e E. destruct (Nat.eqb_spec k k0) as [->|ne].
        -- pose proof (proj1 H0) as E'. rewrite E in E'. injection E' as ->. rewrite (part_same g k0) by auto.
           cbn [lrun]. rewrite (R k0 e0 E). cbn [obind]. rewrite EL. f_equal. f_equal. unfold fld. now rewrite bit_field_set.
        -- rewrite (part_other g k0 e0 k) by auto. rewrite (R k e E). rewrite fld_set; auto. apply H0.
      * rewrite (prod_upd (length l) cs _ k0 c'); auto.
        2: { now rewrite Nat.eqb_refl. }
        2: { intros k ne. apply Nat.eqb_neq in ne. now rewrite ne. }
        rewrite C. cbn [sg]. rewrite sign_xor.
        assert (JW : jwf so g (offset l k0) z = sign so (is_f g && xorb (par x (off g)) (cntb m (off g)))).
        { unfold jwf. rewrite (off_site g k0 e0 H0). destruct g as [d i| |]; cbn [LOpSite.is_f is_f FockRep.is_f andb]; auto.
          pose proof (proj2 H0) as C0. apply (carries_f io Hio) in C0. subst e0. now rewrite (Pz k0 i (proj1 H0)). }
        rewrite JW. set (b := sign so (sg m x)). set (a := sign so (is_f g && _)). set (p := prod cs (length l)).
        rewrite (MC a b), <- !(sl_mul_assoc so L). f_equal. rewrite !(sl_mul_assoc so L). f_equal. apply MC.
Qed.

(** matrix elements of one elementary space *)
Definition lel (e : es) (u : mono) (a b : N) : S := amp1 so (lrun e u a) b.
Lemma factorise m x y : Forall (known io l) m -> valid_state l x -> valid_state l y ->
  forall f, (forall k e, nth_error l k = Some e -> f k = lel e (part e m) (fld l x k e) (fld l y k e)) ->
  amp1 so (mact l m x) y = s_mul so (sign so (sg m x)) (prod f (length l)).
Proof.
  intros KN Vx Vy f Hf. pose proof (act_runs m KN x Vx) as A. destruct (mact l m x) as [[c z]|]; cbn [amp1].
  - destruct A as [Vz [_ [cs [R C]]]]. destruct (N.eqb_spec z y) as [->|ne].
    + rewrite C. f_equal. apply prod_ext. intros k hk. apply nth_error_Some in hk.
      destruct (nth_error l k) as [e|] eqn:E; [|congruence]. rewrite (Hf k e E). unfold lel. rewrite (R k e E). cbn [amp1].
      now rewrite N.eqb_refl.
    + assert (exists k e, nth_error l k = Some e /\ fld l z k e <> fld l y k e) as [k [e [E nf]]].
      { clear -ne W Vz Vy. pose proof (state_ext l W z y Vz Vy) as SE.
        assert (D : forall n, (forall k e, (k < n)%nat -> nth_error l k = Some e -> fld l z k e = fld l y k e) \/
          exists k e, nth_error l k = Some e /\ fld l z k e <> fld l y k e).
        { induction n as [|n [IH|IH]]; [left; intros; lia| |auto].
          destruct (nth_error l n) as [e|] eqn:E.
          - destruct (N.eq_dec (fld l z n e) (fld l y n e)) as [Q|Q]; [|right; eauto].
            left. intros k f hk Ef. destruct (Nat.eq_dec k n) as [->|]; [congruence|]. apply IH; auto. lia.
          - left. intros k f hk Ef. destruct (Nat.eq_dec k n) as [->|]; [congruence|]. apply IH; auto. lia. }
        destruct (D (length l)) as [H|H]; auto. exfalso. apply ne, SE. intros k e E. apply H; auto.
        apply nth_error_Some. congruence. }
      symmetry. rewrite (prod_zero (length l) f k); [apply (mul_0_r so L)|apply nth_error_Some; congruence|].
      rewrite (Hf k e E). unfold lel. rewrite (R k e E). cbn [amp1]. destruct (N.eqb_spec (fld l z k e) (fld l y k e)); congruence.
  - destruct A as [k [e [E N0]]]. symmetry.
    rewrite (prod_zero (length l) f k); [apply (mul_0_r so L)|apply nth_error_Some; congruence|].
    rewrite (Hf k e E). unfold lel. now rewrite N0.
Qed.

(** the sign is the same for states with equal fermionic parts *)
Lemma sg_agree m x x' : Forall (known io l) m ->
  (forall k j i, nth_error l k = Some (ESFermion j) -> (i < offset l k)%nat -> tb x i = tb x' i) -> sg m x = sg m x'.
Proof.
  intros KN H. induction KN as [|g m Kg KN IH]; cbn [sg]; auto. rewrite IH. f_equal.
  destruct g as [d i| |]; cbn [is_f FockRep.is_f andb]; auto. f_equal.
  destruct Kg as [e [ie c]]. apply In_nth_error in ie. destruct ie as [k E].
  rewrite (off_site _ k e (conj E c)). apply (carries_f io Hio) in c. subst e. apply par_ext. intros b hb. eapply H; eauto.
Qed.
End Factor.
