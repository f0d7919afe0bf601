(** The matrices of the generators satisfy the relations of their algebras, so
    that the linear operator of a product is the product of the linear
    operators. *)
From Coq Require Import NArith ZArith List Bool Sorted Permutation Lia Setoid Morphisms.
From Verif Require Import BitsModel BitsSpec BitsProofs ExprModel ExprSpec ExprOrder ExprEval ExprStd HSModel HSSpec HSEnum
  HSProofs HSMain PropHS LOpModel LOpSpec LOpFermion LOpSite LOpActF LOpActB LOpActS LOpComm LOpApply.
Import ListNotations.
Open Scope N_scope.
Open Scope list_scope.

(** ** Square matrices indexed by the elements of a list *)
Section Mat.
Context {S : Type} (so : scalar_ops S) (L : scalar_laws so) (bas : list N) (NB : NoDup bas).
Definition mat : Type := N -> N -> S.
Definition mat_ops : ring_ops mat := mk_ring mat
  (fun A B => forall y x, In y bas -> In x bas -> A y x = B y x)
  (fun _ _ => s_zero so)
  (fun y x => if N.eqb y x then s_one so else s_zero so)
  (fun A B y x => s_add so (A y x) (B y x))
  (fun A B y x => ssum so (fun z => s_mul so (A y z) (B z x)) bas)
  (fun A y x => s_neg so (A y x)).

Lemma mat_ring : is_ring mat_ops.
Proof.
  constructor; cbn.
  - split.
    + intros A y x _ _. reflexivity.
    + intros A B H y x iy ix. symmetry. now apply H.
    + intros A B C H H' y x iy ix. rewrite H by auto. now apply H'.
  - intros A A' HA B B' HB y x iy ix. now rewrite HA, HB.
  - intros A A' HA B B' HB y x iy ix. apply ssum_ext. intros z iz. now rewrite HA, HB.
  - intros A A' HA y x iy ix. now rewrite HA.
  - intros A B y x _ _. apply (sl_add_comm so L).
  - intros A B C y x _ _. apply (sl_add_assoc so L).
  - intros A y x _ _. apply (sl_add_0 so L).
  - intros A y x _ _. apply (sl_neg so L).
  - intros A B C y x _ _.
    rewrite (ssum_ext so _ (fun z => ssum so (fun w => s_mul so (A y z) (s_mul so (B z w) (C w x))) bas)) by (intros; symmetry; apply (ssum_mul_l so L)).
    rewrite (ssum_swap so L). apply ssum_ext. intros w _. rewrite <- (ssum_mul_r so L). apply ssum_ext. intros z _. apply (sl_mul_assoc so L).
  - intros A y x iy ix. rewrite (ssum_single so L bas y); auto.
    + now rewrite N.eqb_refl, (sl_mul_1_l so L).
    + intros z _ ne. destruct (N.eqb_spec y z); [congruence|]. apply (mul_0_l so L).
  - intros A y x iy ix. rewrite (ssum_single so L bas x); auto.
    + now rewrite N.eqb_refl, (sl_mul_1_r so L).
    + intros z _ ne. destruct (N.eqb_spec z x); [congruence|]. apply (mul_0_r so L).
  - intros A B C y x _ _. rewrite <- (ssum_add so L). apply ssum_ext. intros. apply (sl_dist_l so L).
  - intros A B C y x _ _. rewrite <- (ssum_add so L). apply ssum_ext. intros. apply (sl_dist_r so L).
Qed.

Definition mat_scalar (c : S) : mat := fun y x => if N.eqb y x then c else s_zero so.
Lemma scalar_mul_l c (A : mat) y x : In y bas -> rmul mat_ops (mat_scalar c) A y x = s_mul so c (A y x).
Proof.
  intros iy. cbn. unfold mat_scalar. rewrite (ssum_single so L bas y); auto.
  - now rewrite N.eqb_refl.
  - intros z _ ne. destruct (N.eqb_spec y z); [congruence|]. apply (mul_0_l so L).
Qed.
Lemma scalar_mul_r c (A : mat) y x : In x bas -> rmul mat_ops A (mat_scalar c) y x = s_mul so (A y x) c.
Proof.
  intros ix. cbn. unfold mat_scalar. rewrite (ssum_single so L bas x); auto.
  - now rewrite N.eqb_refl.
  - intros z _ ne. destruct (N.eqb_spec z x); [congruence|]. apply (mul_0_r so L).
Qed.
Context (MC : forall x y, s_mul so x y = s_mul so y x).
Lemma mat_scalars {G} (rho : G -> mat) : scalar_image so mat_ops mat_scalar rho.
Proof.
  constructor.
  - intros y x _ _. cbn. unfold mat_scalar. now destruct (y =? x).
  - intros y x _ _. reflexivity.
  - intros c d y x _ _. cbn. unfold mat_scalar. destruct (y =? x); auto. now rewrite (sl_add_0 so L).
  - intros c d y x iy _. rewrite scalar_mul_l by auto. unfold mat_scalar. destruct (y =? x); auto. now rewrite (mul_0_r so L).
  - intros c g y x iy ix. rewrite scalar_mul_l, scalar_mul_r by auto. apply MC.
Qed.
End Mat.

(** ** Fermions *)
Lemma par_flip x y p p' : (forall i, tb y i = xorb (tb x i) (Nat.eqb p i)) -> par y p' = xorb (par x p') (Nat.ltb p p').
Proof.
  intros H. unfold par. rewrite (xorall_ext _ (fun i => xorb (tb x i) (Nat.eqb p i))) by (intros; apply H).
  rewrite xorall_xor. f_equal. rewrite xorall_single by apply seq_NoDup.
  apply eq_true_iff_eq. rewrite memb_In, in_seq, Nat.ltb_lt. lia.
Qed.
Lemma setbit_flip x p i : tb x p = false -> tb (N.setbit x (N.of_nat p)) i = xorb (tb x i) (Nat.eqb p i).
Proof.
  intros h. rewrite N.setbit_eqb. destruct (Nat.eqb_spec p i) as [->|ne].
  - rewrite N.eqb_refl, h. reflexivity.
  - destruct (N.eqb_spec (N.of_nat p) (N.of_nat i)); [lia|]. now rewrite xorb_false_r.
Qed.
Lemma clearbit_flip x p i : tb x p = true -> tb (N.clearbit x (N.of_nat p)) i = xorb (tb x i) (Nat.eqb p i).
Proof.
  intros h. rewrite N.clearbit_eqb. destruct (Nat.eqb_spec p i) as [->|ne].
  - rewrite N.eqb_refl, h. reflexivity.
  - destruct (N.eqb_spec (N.of_nat p) (N.of_nat i)); [lia|]. cbn. now rewrite xorb_false_r, andb_true_r.
Qed.
Definition flip (d : bool) (x : N) (p : nat) : N := if d then N.setbit x (N.of_nat p) else N.clearbit x (N.of_nat p).
Lemma fstep_eq d p x : fstep (d, p) x = if Bool.eqb (tb x p) d then None else Some (par x p, flip d x p).
Proof. unfold fstep; cbn. destruct d, (tb x p); reflexivity. Qed.
Lemma flip_bits d x p i : tb x p = negb d -> tb (flip d x p) i = xorb (tb x i) (Nat.eqb p i).
Proof. destruct d; intros h; [now apply setbit_flip|now apply clearbit_flip]. Qed.

Definition fneg (o : option (bool * N)) : option (bool * N) := option_map (fun q => (negb (fst q), snd q)) o.
Lemma fstep_anti d d' p p' x : p <> p' ->
  fbind (fstep (d', p') x) (fstep (d, p)) = fneg (fbind (fstep (d, p) x) (fstep (d', p'))).
Proof.
  intros ne. rewrite !fstep_eq.
  destruct (Bool.eqb (tb x p) d) eqn:E1, (Bool.eqb (tb x p') d') eqn:E2; cbn [fbind fneg option_map]; auto.
  - assert (h2 : tb x p' = negb d') by (destruct (tb x p'), d'; cbn in *; congruence).
    rewrite fstep_eq, flip_bits by auto. destruct (Nat.eqb_spec p' p); [congruence|]. rewrite xorb_false_r, E1. reflexivity.
  - assert (h1 : tb x p = negb d) by (destruct (tb x p), d; cbn in *; congruence).
    rewrite fstep_eq, flip_bits by auto. destruct (Nat.eqb_spec p p'); [congruence|]. rewrite xorb_false_r, E2. reflexivity.
  - assert (h1 : tb x p = negb d) by (destruct (tb x p), d; cbn in *; congruence).
    assert (h2 : tb x p' = negb d') by (destruct (tb x p'), d'; cbn in *; congruence).
    rewrite !fstep_eq, !flip_bits by auto.
    destruct (Nat.eqb_spec p' p); [congruence|]. destruct (Nat.eqb_spec p p'); [congruence|].
    rewrite !xorb_false_r, E1, E2. unfold fneg. cbn [option_map fst snd]. f_equal. f_equal.
    + rewrite (par_flip x (flip d' x p') p' p) by (intros; now apply flip_bits).
      rewrite (par_flip x (flip d x p) p p') by (intros; now apply flip_bits).
      destruct (Nat.ltb_spec p p'), (Nat.ltb_spec p' p); try lia; destruct (par x p), (par x p'); reflexivity.
    + apply testbit_nat_ext. intros i.
      assert (g1 : tb (flip d' x p') p = negb d).
      { rewrite flip_bits by auto. destruct (Nat.eqb_spec p' p); [congruence|]. now rewrite xorb_false_r. }
      assert (g2 : tb (flip d x p) p' = negb d').
      { rewrite flip_bits by auto. destruct (Nat.eqb_spec p p'); [congruence|]. now rewrite xorb_false_r. }
      rewrite (flip_bits d _ p i g1), (flip_bits d' _ p' i g2), !flip_bits by auto.
      destruct (tb x i), (Nat.eqb p i), (Nat.eqb p' i); reflexivity.
Qed.
Lemma fstep_twice d p x : fbind (fstep (d, p) x) (fstep (d, p)) = None.
Proof.
  rewrite fstep_eq. destruct (Bool.eqb (tb x p) d) eqn:E1; cbn [fbind]; auto.
  assert (h1 : tb x p = negb d) by (destruct (tb x p), d; cbn in *; congruence).
  rewrite fstep_eq, flip_bits, Nat.eqb_refl, h1 by auto. destruct d; reflexivity.
Qed.
Lemma fstep_back d p x : fbind (fstep (d, p) x) (fstep (negb d, p)) =
  if Bool.eqb (tb x p) d then None else Some (false, x).
Proof.
  rewrite fstep_eq. destruct (Bool.eqb (tb x p) d) eqn:E1; cbn [fbind]; auto.
  assert (h1 : tb x p = negb d) by (destruct (tb x p), d; cbn in *; congruence).
  rewrite fstep_eq, flip_bits, Nat.eqb_refl, h1 by auto.
  replace (Bool.eqb (xorb (negb d) true) (negb d)) with false by (destruct d; reflexivity).
  f_equal. f_equal.
  - rewrite (par_flip x (flip d x p) p p) by (intros; now apply flip_bits). rewrite Nat.ltb_irrefl. now destruct (par x p).
  - apply testbit_nat_ext. intros i.
    assert (g : tb (flip d x p) p = negb (negb d)) by (rewrite flip_bits, Nat.eqb_refl, h1 by auto; now destruct d).
    rewrite (flip_bits (negb d) _ p i g), flip_bits by auto. destruct (tb x i), (Nat.eqb p i); reflexivity.
Qed.

(** ** Half-integers *)
Section Half.
Context {S : Type} (so : scalar_ops S) (sq : N -> S) (half : Z -> S) (LL : lop_laws so sq half).
Let L := ll_ring _ _ _ LL.
Lemma half_0 : half 0%Z = s_zero so.
Proof.
  pose proof (ll_half_add _ _ _ LL 0%Z 0%Z) as E. cbn in E.
  apply (f_equal (fun v => s_add so v (s_neg so (half 0%Z)))) in E.
  rewrite <- (sl_add_assoc so L), (sl_neg so L), (sadd_0_r so L) in E. auto.
Qed.
Lemma half_neg z : half (- z)%Z = s_neg so (half z).
Proof.
  assert (E : s_add so (half z) (half (- z)%Z) = s_zero so).
  { rewrite <- (ll_half_add _ _ _ LL), Z.add_opp_diag_r. apply half_0. }
  apply (f_equal (fun v => s_add so (s_neg so (half z)) v)) in E.
  rewrite (sl_add_assoc so L), (sl_add_comm so L (s_neg so _)), (sl_neg so L), (sl_add_0 so L), (sadd_0_r so L) in E. auto.
Qed.
Lemma zmul_half z : zmul so z (s_one so) = half (2 * z)%Z.
Proof.
  assert (H : forall n, nmul so n (s_one so) = half (2 * Z.of_nat n)%Z).
  { induction n as [|n IH]; cbn [nmul]; [symmetry; apply half_0|].
    rewrite IH, <- (ll_half_2 _ _ _ LL), <- (ll_half_add _ _ _ LL). f_equal. lia. }
  destruct z as [|p|p]; cbn [zmul].
  - symmetry. apply half_0.
  - rewrite H. f_equal. lia.
  - rewrite H, <- half_neg. f_equal. lia.
Qed.
Lemma sq_half n : s_mul so (sq n) (sq n) = half (2 * Z.of_N n)%Z.
Proof. rewrite (ll_sq _ _ _ LL). apply zmul_half. Qed.
Lemma half_unique h k : s_add so h h = s_one so -> s_add so k k = s_one so -> h = k.
Proof.
  intros H K. rewrite <- (sl_mul_1_r so L h), <- K, (sl_dist_l so L), <- (sl_dist_r so L), H. apply (sl_mul_1_l so L).
Qed.
Lemma half_1 h : s_add so h h = s_one so -> half 1%Z = h.
Proof.
  intros H. apply half_unique; auto. rewrite <- (ll_half_add _ _ _ LL). apply (ll_half_2 _ _ _ LL).
Qed.
End Half.

Section Rep.
Context {I S : Type} (io : index_ops I) (Hio : index_order io).
Context (so : scalar_ops S) (sq : N -> S) (half : Z -> S) (LL : lop_laws so sq half).
Let L : scalar_laws so := ll_ring _ _ _ LL.
Let MC : forall x y, s_mul so x y = s_mul so y x := ll_comm _ _ _ LL.
Notation es := (espace I).
Notation gact := (gen_act io so sq half).
Notation mact := (mono_act io so sq half).
Notation bnd := (obind so).
Context (l : list es) (S0 : StronglySorted (es_before io) l) (W : Forall es_wf l).
Context (bas : list N) (HB : basis_of l bas).
Notation ro := (mat_ops so bas).
Notation inj := (mat_scalar so).

Definition col (f : N -> option (S * N)) : mat := fun y x => amp1 so (f x) y.
Definition rho (g : gen I) : @mat S := col (gact l g).

Lemma col_mul f g : (forall x c z, valid_state l x -> g x = Some (c, z) -> valid_state l z) ->
  req ro (rmul ro (col f) (col g)) (col (fun x => bnd (g x) f)).
Proof.
  intros Vg y x iy ix. cbn. unfold col. destruct HB as [ND B]. destruct (g x) as [[c z]|] eqn:E; cbn [obind amp1].
  - assert (iz : In z bas) by (apply B; eapply Vg; eauto; now apply B).
    rewrite (ssum_single so L bas z); auto.
    + rewrite N.eqb_refl. destruct (f z) as [[k w]|]; cbn [amp1]; [|apply (mul_0_l so L)].
      destruct (w =? y); [apply MC|apply (mul_0_l so L)].
    + intros w _ ne. destruct (N.eqb_spec z w); [congruence|]. apply (mul_0_r so L).
  - rewrite (ssum_ext so _ (fun _ => s_zero so)); [apply (ssum_0 so L)|]. intros. apply (mul_0_r so L).
Qed.
Lemma gact_valid g x c z : valid_state l x -> gact l g x = Some (c, z) -> valid_state l z.
Proof. intros. eapply (gen_act_valid io Hio so sq half L); eauto. Qed.
Lemma rho_mul g h : req ro (rmul ro (rho g) (rho h)) (col (fun x => bnd (gact l h x) (gact l g))).
Proof. apply col_mul. intros. eapply gact_valid; eauto. Qed.
Lemma eval_mono_col m : req ro (eval_mono ro rho m) (col (mact l m)).
Proof.
  induction m as [|g m IH]; cbn [eval_mono mono_act].
  - intros y x _ _. cbn. unfold col. cbn. rewrite (N.eqb_sym x y). reflexivity.
  - pose proof (mat_ring so L bas (proj1 HB)) as MR.
    pose proof (ri_equiv _ MR) as EQ.
    etransitivity; [apply (ri_mul_ext _ MR); [reflexivity|exact IH]|].
    apply col_mul. intros x c z V E. eapply mono_act_valid; eauto.
Qed.
Lemma eval_expr_mel e y x : In y bas -> In x bas -> eval_expr ro inj rho e y x = mel io so sq half l e y x.
Proof.
  intros iy ix. induction e as [|[m c] e IH]; cbn [eval_expr LOpSpec.mel]; auto.
  cbn [radd mat_ops]. rewrite IH. f_equal. rewrite (scalar_mul_l so L bas (proj1 HB)) by auto. f_equal. now apply eval_mono_col.
Qed.

(** generators for which the relations hold: present in the space and not bosonic *)
Definition good (g : gen I) : Prop := known io l g /\ is_b g = false.
Lemma good_site g : good g -> exists k e, site io l g k e.
Proof. intros [[e [i C]] _]. apply In_nth_error in i. destruct i as [k E]. exists k, e. split; auto. Qed.
Lemma good_spin m c c' i : good (GSpin m c i) -> good (GSpin m c' i).
Proof. intros [[e [i0 C]] _]. split; [|reflexivity]. exists e. split; [exact i0|]. destruct e; exact C. Qed.

Lemma good_fsite d i : good (GFermion d i) -> exists p, fsite l (GFermion d i) (d, p) /\ fsite l (GFermion (negb d) i) (negb d, p).
Proof.
  intros G. destruct (good_site _ G) as [k [e [E C]]]. apply (carries_f io Hio) in C. subst e.
  exists (offset l k). split; exists i, k; auto.
Qed.
Lemma fsite_pos d d' i j p p' : fsite l (GFermion d i) (d, p) -> fsite l (GFermion d' j) (d', p') -> i <> j -> p <> p'.
Proof.
  intros [i1 [k [E1 [E2 E3]]]] [j1 [k' [F1 [F2 F3]]]] ne. cbn in *. inversion E1; subst. inversion F1; subst. intros E.
  assert (k <> k') by (intros ->; rewrite E2 in F2; congruence).
  pose proof (sites_disjoint l k _ k' _ E2 F2 H) as D. cbn in D. lia.
Qed.
Definition fo (o : option (bool * N)) : option (S * N) := option_map (fun p => (sign so (fst p), snd p)) o.
Lemma fo_bind o f g : (forall y, g y = fo (f y)) -> bnd (fo o) g = fo (fbind o f).
Proof.
  intros H. destruct o as [[b y]|]; cbn; auto. rewrite H. destruct (f y) as [[b' z]|]; cbn; auto. now rewrite (sign_mul so L).
Qed.
Lemma fpair d i p d' j p' x : fsite l (GFermion d i) (d, p) -> fsite l (GFermion d' j) (d', p') ->
  bnd (gact l (GFermion d' j) x) (gact l (GFermion d i)) = fo (fbind (fstep (d', p') x) (fstep (d, p))).
Proof.
  intros H H'. rewrite (gact_fstep io Hio so L sq half l _ _ x S0 H').
  apply fo_bind. intros y. apply (gact_fstep io Hio so L sq half l _ _ y S0 H).
Qed.
Lemma sign_negb b : sign so (negb b) = s_neg so (sign so b).
Proof.
  destruct b; cbn; auto. 
  assert (E : s_add so (s_one so) (s_neg so (s_one so)) = s_zero so) by apply (sl_neg so L).
  apply (f_equal (fun v => s_add so v (s_neg so (s_neg so (s_one so))))) in E.
  rewrite <- (sl_add_assoc so L), (sl_neg so L), (sl_add_0 so L), (sadd_0_r so L) in E. exact E.
Qed.
Lemma neg_0 : s_neg so (s_zero so) = s_zero so.
Proof. pose proof (sl_neg so L (s_zero so)) as E. now rewrite (sl_add_0 so L) in E. Qed.

(** spins *)
Lemma spin_site m c i : good (GSpin m c i) -> exists k e, nth_error l k = Some e /\
  (forall c', site io l (GSpin m c' i) k e) /\ es_dim e = N.of_nat m.
Proof.
  intros G. destruct (good_site _ G) as [k [e St]]. exists k, e. split; [apply St|]. split.
  - intros c'. destruct St as [E C]. split; [exact E|]. destruct e; exact C.
  - exact (carries_dim io Hio (GSpin m c i) e m c i eq_refl (proj2 St)).
Qed.
Section OneSpin.
Context (m : nat) (i : I) (k : nat) (e : es) (E : nth_error l k = Some e)
  (St : forall c', site io l (GSpin m c' i) k e) (DE : es_dim e = N.of_nat m).
Context (x : N) (V : valid_state l x).
Let n := bit_field x (offset l k) (es_nbits e).
Notation tgt v := (set_field x (offset l k) (es_nbits e) v).
Lemma os_n : n < N.of_nat m.
Proof. rewrite <- DE. apply (valid_field l k e x V E). Qed.
Lemma os_bits v : v < N.of_nat m -> v <N es_nbits e.
Proof. rewrite <- DE. apply (lad_lt io l W (GSpin m Plus i) k e (St Plus)). Qed.
Lemma os_one c : gact l (GSpin m c i) x =
  match loc so sq half (GSpin m c i) e n with None => None | Some (a, n') => Some (a, tgt n') end.
Proof.
  rewrite (gen_act_loc io Hio so sq half L l _ k e x S0 (St c)). fold n.
  destruct (loc so sq half (GSpin m c i) e n) as [[a n']|]; auto. unfold jwf. cbn [is_f]. now rewrite (sl_mul_1_l so L).
Qed.
Lemma os_two c c' : bnd (gact l (GSpin m c' i) x) (gact l (GSpin m c i)) =
  match loc so sq half (GSpin m c' i) e n with None => None | Some (a, n') =>
    match loc so sq half (GSpin m c i) e n' with None => None | Some (b, n'') => Some (s_mul so a b, tgt n'') end end.
Proof.
  rewrite os_one. destruct (loc so sq half (GSpin m c' i) e n) as [[a n']|] eqn:E1; cbn [obind]; auto.
  assert (hn' : n' < N.of_nat m).
  { rewrite <- DE. eapply (loc_dim io Hio so sq half (GSpin m c' i)); [apply St| |exact E1]. rewrite DE. apply os_n. }
  rewrite (gen_act_loc io Hio so sq half L l _ k e _ S0 (St c)), bit_field_set by (now apply os_bits).
  destruct (loc so sq half (GSpin m c i) e n') as [[b n'']|] eqn:E2; auto. unfold jwf. cbn [is_f]. rewrite (sl_mul_1_l so L).
  rewrite set_field_set; auto; apply os_bits; auto.
  rewrite <- DE. eapply (loc_dim io Hio so sq half (GSpin m c i)); [apply St| |exact E2]. now rewrite DE.
Qed.
Lemma os_same : tgt n = x.
Proof. apply set_field_same. Qed.
End OneSpin.

Lemma spin_pow m c i p : good (GSpin m c i) -> req ro (rpow ro (rho (GSpin m c i)) p) (col (mact l (repeat (GSpin m c i) p))).
Proof.
  intros _. assert (H : rpow ro (rho (GSpin m c i)) p = eval_mono ro rho (repeat (GSpin m c i) p)).
  { induction p as [|p IH]; cbn [rpow repeat eval_mono]; [reflexivity|]. now rewrite IH. }
  rewrite H. apply eval_mono_col.
Qed.

Lemma prod_at g h y x : In y bas -> In x bas -> rmul ro (rho g) (rho h) y x = amp1 so (bnd (gact l h x) (gact l g)) y.
Proof. intros iy ix. now apply rho_mul. Qed.
Lemma amp_fneg o y : amp1 so (fo (fneg o)) y = s_neg so (amp1 so (fo o) y).
Proof.
  destruct o as [[b z]|]; cbn [fo fneg option_map amp1 fst snd]; [|now rewrite neg_0].
  destruct (z =? y); [apply sign_negb|now rewrite neg_0].
Qed.
Lemma far_commute g h : (forall k e k' e', site io l g k e -> site io l h k' e' -> k <> k') ->
  is_f g = false \/ is_f h = false -> req ro (rmul ro (rho g) (rho h)) (rmul ro (rho h) (rho g)).
Proof.
  intros D NF y x iy ix. rewrite !prod_at by auto. f_equal. symmetry.
  apply (gen_commute io Hio so L sq half MC l S0 W); auto. now apply HB.
Qed.
Lemma not_boson d i : good (GBoson d i) -> False.
Proof. intros [_ H]. discriminate. Qed.

Section SpinRel.
Context (m : nat) (i : I) (G : good (GSpin m Plus i)).
Lemma spin_pm_at x y : In x bas -> In y bas -> exists k e, nth_error l k = Some e /\
  let n := bit_field x (offset l k) (es_nbits e) in n < N.of_nat m /\
  rmul ro (rho (GSpin m Plus i)) (rho (GSpin m Minus i)) y x =
    (if x =? y then half (2 * Z.of_N ((N.of_nat m - n) * n)) else s_zero so) /\
  rmul ro (rho (GSpin m Minus i)) (rho (GSpin m Plus i)) y x =
    (if x =? y then half (2 * Z.of_N ((N.of_nat m - 1 - n) * (n + 1))) else s_zero so) /\
  rho (GSpin m Zcomp i) y x = (if x =? y then half (2 * Z.of_N n - (Z.of_nat m - 1)) else s_zero so).
Proof.
  intros ix iy. destruct (spin_site m Plus i G) as [k [e [E [St DE]]]].
  assert (V : valid_state l x) by now apply HB.
  exists k, e. split; auto. intros n. pose proof (os_n m k e E DE x V) as hn. fold n in hn. pose proof (os_same k e x) as OS. fold n in OS.
  assert (Z0 : forall b, amp1 so (if b : bool then None else None) y = s_zero so) by (intros []; reflexivity).
  split; [exact hn|]. split; [|split].
  - rewrite prod_at by auto. rewrite (os_two m i k e E St DE x V). fold n. cbn [loc].
    destruct (N.eqb_spec n 0) as [Z|nz].
    + rewrite Z, N.mul_0_r. cbn [amp1]. change (2 * Z.of_N 0)%Z with 0%Z. rewrite (half_0 so sq half LL). now destruct (x =? y).
    + destruct (N.ltb_spec (n - 1 + 1) (N.of_nat m)); [|lia].
      replace (n - 1 + 1) with n by lia. replace (N.of_nat m - 1 - (n - 1)) with (N.of_nat m - n) by lia.
      rewrite OS. cbn [amp1]. rewrite (sq_half so sq half LL). reflexivity.
  - rewrite prod_at by auto. rewrite (os_two m i k e E St DE x V). fold n. cbn [loc].
    destruct (N.ltb_spec (n + 1) (N.of_nat m)) as [lt|ge].
    + destruct (N.eqb_spec (n + 1) 0); [lia|]. replace (n + 1 - 1) with n by lia.
      replace (N.of_nat m - (n + 1)) with (N.of_nat m - 1 - n) by lia.
      rewrite OS. cbn [amp1]. rewrite (sq_half so sq half LL). reflexivity.
    + replace (N.of_nat m - 1 - n) with 0 by lia. rewrite N.mul_0_l. cbn [amp1]. change (2 * Z.of_N 0)%Z with 0%Z. rewrite (half_0 so sq half LL). now destruct (x =? y).
  - unfold rho, col. rewrite (os_one m i k e St x). fold n. cbn [loc]. rewrite OS. reflexivity.
Qed.
Lemma spin_z_at c : c <> Zcomp -> forall x y, In x bas -> In y bas -> exists k e, nth_error l k = Some e /\
  let n := bit_field x (offset l k) (es_nbits e) in n < N.of_nat m /\
  exists a y', rho (GSpin m c i) y x = (if y' =? y then a else s_zero so) /\
  ((if match c with Plus => n + 1 <? N.of_nat m | _ => negb (n =? 0) end then True else a = s_zero so)) /\
  rmul ro (rho (GSpin m Zcomp i)) (rho (GSpin m c i)) y x =
    (if y' =? y then s_mul so (half (2 * Z.of_N n + (match c with Plus => 2 | _ => -2 end) - (Z.of_nat m - 1))) a else s_zero so) /\
  rmul ro (rho (GSpin m c i)) (rho (GSpin m Zcomp i)) y x =
    (if y' =? y then s_mul so (half (2 * Z.of_N n - (Z.of_nat m - 1))) a else s_zero so).
Proof.
  intros nz x y ix iy. destruct (spin_site m Plus i G) as [k [e [E [St DE]]]].
  assert (V : valid_state l x) by now apply HB.
  exists k, e. split; auto. intros n. pose proof (os_n m k e E DE x V) as hn. fold n in hn. pose proof (os_same k e x) as OS. fold n in OS. split; [exact hn|].
  rewrite !prod_at by auto. rewrite !(os_two m i k e E St DE x V). unfold rho, col. rewrite !(os_one m i k e St x). fold n. cbn [loc].
  destruct c; [| |congruence].
  - destruct (N.ltb_spec (n + 1) (N.of_nat m)) as [lt|ge]; cbn [amp1].
    + eexists _, _. split; [reflexivity|]. split; [exact Logic.I|].
      split; [|reflexivity]. rewrite MC. destruct (_ =? y); auto. f_equal. f_equal. lia.
    + exists (s_zero so), 0. rewrite !(mul_0_r so L). destruct (0 =? y); repeat split; reflexivity.
  - destruct (N.eqb_spec n 0) as [z|nn]; cbn [amp1].
    + exists (s_zero so), 0. rewrite !(mul_0_r so L). destruct (0 =? y); repeat split; reflexivity.
    + eexists _, _. split; [reflexivity|]. split; [exact Logic.I|].
      split; [|reflexivity]. rewrite MC. destruct (_ =? y); auto. f_equal. f_equal. lia.
Qed.
End SpinRel.

Lemma good_plus m c i : good (GSpin m c i) -> good (GSpin m Plus i).
Proof. apply good_spin. Qed.

Lemma h_neg h : s_add so h h = s_one so -> half (-1)%Z = s_neg so h.
Proof. intros H. change (-1)%Z with (- (1))%Z. rewrite (half_neg so sq half LL). f_equal. now apply (half_1 so sq half LL). Qed.
Lemma mul_neg_l a b : s_mul so (s_neg so a) b = s_neg so (s_mul so a b).
Proof.
  assert (E : s_add so (s_mul so a b) (s_mul so (s_neg so a) b) = s_zero so).
  { rewrite <- (sl_dist_r so L), (sl_neg so L). apply (mul_0_l so L). }
  apply (f_equal (fun v => s_add so (s_neg so (s_mul so a b)) v)) in E.
  rewrite (sl_add_assoc so L), (sl_add_comm so L (s_neg so _)), (sl_neg so L), (sl_add_0 so L), (sadd_0_r so L) in E. exact E.
Qed.
Lemma neg_neg a : s_neg so (s_neg so a) = a.
Proof.
  assert (E : s_add so a (s_neg so a) = s_zero so) by apply (sl_neg so L).
  apply (f_equal (fun v => s_add so v (s_neg so (s_neg so a)))) in E.
  rewrite <- (sl_add_assoc so L), (sl_neg so L), (sl_add_0 so L), (sadd_0_r so L) in E. now symmetry.
Qed.

Theorem matrices_relations : relations_on good so ro inj rho.
Proof.
  constructor.
  - (* c c = 0 *)
    intros d i G y x iy ix. destruct (good_fsite d i G) as [p [F _]]. rewrite prod_at by auto.
    rewrite (fpair d i p d i p x F F), fstep_twice. reflexivity.
  - intros d d' i j G G' ne y x iy ix. destruct (good_fsite d i G) as [p [F _]]. destruct (good_fsite d' j G') as [p' [F' _]].
    pose proof (fsite_pos d d' i j p p' F F' ne) as np. cbn [ropp mat_ops]. rewrite !prod_at by auto.
    rewrite (fpair d i p d' j p' x F F'), (fpair d' j p' d i p x F' F), (fstep_anti d d' p p' x np). apply amp_fneg.
  - intros i G G' y x iy ix. destruct (good_fsite false i G) as [p [F F']]. cbn [negb] in F'.
    cbn [radd mat_ops r1]. rewrite !prod_at by auto.
    rewrite (fpair _ _ _ _ _ _ x F F'), (fpair _ _ _ _ _ _ x F' F).
    pose proof (fstep_back true p x) as B1. pose proof (fstep_back false p x) as B2. cbn [negb] in B1, B2. rewrite B1, B2.
    rewrite (N.eqb_sym y x). destruct (tb x p); cbn; destruct (x =? y); rewrite ?(sl_add_0 so L), ?(sadd_0_r so L); auto.
  - intros d i j G. destruct (not_boson _ _ G).
  - intros i j G. destruct (not_boson _ _ G).
  - intros i G. destruct (not_boson _ _ G).
  - intros m m' c c' i j G G' ne. apply far_commute; [|now left].
    intros k e k' e' [E C] [E' C'] ->. rewrite E in E'. injection E' as <-.
    apply (carries_slot io Hio) in C. apply (carries_slot io Hio) in C'. inversion C; subst. inversion C'; subst. congruence.
  - intros m i G y x iy ix. destruct (spin_pm_at m i G x y ix iy) as [k [e [E [hn [H1 [H2 H3]]]]]].
    cbn [radd mat_ops]. rewrite H1, H2, H3. destruct (x =? y); [|now rewrite !(sl_add_0 so L)].
    rewrite <- !(ll_half_add _ _ _ LL). f_equal. set (n := bit_field x (offset l k) (es_nbits e)) in *. clearbody n. clear - hn.
    rewrite !N2Z.inj_mul, !N2Z.inj_sub, N2Z.inj_add by lia. rewrite nat_N_Z. nia.
  - intros m i G y x iy ix. destruct (spin_z_at m i G Plus ltac:(discriminate) x y ix iy) as [k [e [E [hn [a [y' [H0 [H1 [H2 H3]]]]]]]]].
    cbn [radd mat_ops]. rewrite H0, H2, H3. destruct (y' =? y); [|now rewrite !(sl_add_0 so L)].
    rewrite <- (sl_mul_1_l so L a) at 3. rewrite <- (sl_dist_r so L), <- (ll_half_2 _ _ _ LL), <- (ll_half_add _ _ _ LL). f_equal. f_equal. lia.
  - intros m i G y x iy ix. destruct (spin_z_at m i (good_plus _ _ _ G) Minus ltac:(discriminate) x y ix iy) as [k [e [E [hn [a [y' [H0 [H1 [H2 H3]]]]]]]]].
    cbn [radd ropp mat_ops]. rewrite H0, H2, H3. destruct (y' =? y); [|now rewrite neg_0, !(sl_add_0 so L)].
    rewrite <- (sl_mul_1_l so L a) at 3. rewrite <- mul_neg_l, <- (sl_dist_r so L), <- (ll_half_2 _ _ _ LL), <- (half_neg so sq half LL), <- (ll_half_add _ _ _ LL).
    f_equal. f_equal. lia.
  - intros m i c G nz hm y x iy ix. rewrite (spin_pow m c i m G y x iy ix).
    destruct (spin_site m c i G) as [k [e [E [St DE]]]].
    assert (V : valid_state l x) by now apply HB. pose proof (os_n m k e E DE x V) as hn.
    unfold col. destruct c; [| |congruence].
    + rewrite (ladder_up io Hio so L sq half l S0 W _ k e (St Plus) eq_refl (fun n => (N.of_nat m - 1 - n) * (n + 1))); [|intros; cbn [loc]; now rewrite DE|auto].
      match goal with |- context [?a <? ?b] => destruct (N.ltb_spec a b) as [lt|ge] end; [rewrite DE in lt; lia|reflexivity].
    + rewrite (ladder_down io Hio so L sq half l S0 W _ k e (St Minus) eq_refl (fun n => (N.of_nat m - n) * n)); [|intros; reflexivity|auto].
      match goal with |- context [?a <=? ?b] => destruct (N.leb_spec a b) as [lt|ge] end; [lia|reflexivity].
  - intros i h G Hh y x iy ix. destruct (spin_pm_at 2 i G x y ix iy) as [k [e [E [hn [H1 [_ H3]]]]]].
    cbn [radd mat_ops]. unfold mat_scalar. rewrite (N.eqb_sym y x), H1, H3. destruct (x =? y); [|now rewrite (sl_add_0 so L)].
    rewrite <- (half_1 so sq half LL h Hh), <- (ll_half_add _ _ _ LL). f_equal.
    set (n := bit_field x (offset l k) (es_nbits e)) in *. clearbody n.
    assert (n = 0 \/ n = 1) as [-> | ->] by lia; reflexivity.
  - intros i h G Hh y x iy ix. destruct (spin_z_at 2 i G Plus ltac:(discriminate) x y ix iy) as [k [e [E [hn [a [y' [H0 [H1 [_ H3]]]]]]]]].
    cbn [ropp mat_ops]. rewrite (scalar_mul_l so L bas (proj1 HB)) by auto. rewrite H0, H3.
    destruct (y' =? y); [|now rewrite (mul_0_r so L), neg_0].
    rewrite <- mul_neg_l, <- (h_neg h Hh).
    set (n := bit_field x (offset l k) (es_nbits e)) in *. clearbody n.
    assert (n = 0 \/ n = 1) as [-> | ->] by lia; [reflexivity|]. cbn in H1. rewrite H1, !(mul_0_r so L). reflexivity.
  - intros i h G Hh y x iy ix. destruct (spin_z_at 2 i (good_plus _ _ _ G) Minus ltac:(discriminate) x y ix iy) as [k [e [E [hn [a [y' [H0 [H1 [_ H3]]]]]]]]].
    rewrite (scalar_mul_l so L bas (proj1 HB)) by auto. rewrite H0, H3.
    destruct (y' =? y); [|now rewrite (mul_0_r so L)].
    rewrite <- (half_1 so sq half LL h Hh).
    set (n := bit_field x (offset l k) (es_nbits e)) in *. clearbody n.
    assert (n = 0 \/ n = 1) as [-> | ->] by lia; [|reflexivity]. cbn in H1. rewrite H1, !(mul_0_r so L). reflexivity.
  - intros i h G Hh y x iy ix. destruct (spin_site 2 Zcomp i G) as [k [e [E [St DE]]]].
    assert (V : valid_state l x) by now apply HB. pose proof (os_n 2 k e E DE x V) as hn.
    rewrite prod_at by auto. rewrite (os_two 2 i k e E St DE x V). cbn [loc]. rewrite (os_same k e x). cbn [amp1]. unfold mat_scalar.
    rewrite (N.eqb_sym y x). destruct (x =? y); auto.
    set (n := bit_field x (offset l k) (es_nbits e)) in *. clearbody n.
    assert (n = 0 \/ n = 1) as [-> | ->] by lia; cbn -[N.eqb].
    + rewrite (h_neg h Hh), mul_neg_l, MC, mul_neg_l, neg_neg. reflexivity.
    + now rewrite (half_1 so sq half LL h Hh).
  - intros d i d' j G G'. destruct (not_boson _ _ G').
  - intros d i m c j G G'. apply far_commute; [|now right].
    intros k e k' e' [E C] [E' C'] ->. rewrite E in E'. injection E' as <-. destruct e; discriminate.
  - intros d i m c j G. destruct (not_boson _ _ G).
Qed.
End Rep.
