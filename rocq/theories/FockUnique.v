(** Linear independence of the canonical monomials (fermions, bosons, spins
    1/2) as operators on the Fock space; hence two canonical expressions with
    equal values everywhere are equal. *)
From Coq Require Import ZArith Bool Lia List Sorted Permutation Setoid Morphisms Ncring Ncring_tac.
From Verif Require Import ExprModel ExprSpec ExprOrder ExprMap ExprEval ExprStd FockSpec FockRep.
Import ListNotations.
Open Scope nat_scope.
Open Scope list_scope.

Lemma SSorted_filter {A} (Q : A -> A -> Prop) f l : StronglySorted Q l -> StronglySorted Q (filter f l).
Proof.
  induction 1 as [|a l h IH hd]; simpl; [constructor|]. destruct (f a); auto. constructor; auto.
  rewrite Forall_forall in *. intros x i. apply filter_In in i. now apply hd.
Qed.

Section Unique.
Context {I S : Type} (io : index_ops I) (Hio : index_order io).
Context (so : scalar_ops S) (D : scalar_domain so) (h : S).
Let L := sd_laws _ D.
Local Instance sopsU : @Ring_ops S (s_zero so) (s_one so) (s_add so) (s_mul so) (rsub (scalar_ring so)) (s_neg so) (@eq S)
  := nc_ops (scalar_ring so).
Local Instance sringU : @Ring _ _ _ _ _ _ _ _ sopsU := nc_ring (scalar_ring so) (scalar_is_ring so L).
Notation "x +s y" := (s_add so x y) (at level 50, left associativity).
Notation "x *s y" := (s_mul so x y) (at level 40, left associativity).
Ltac sr := non_commutative_ring.
Notation mono := (list (gen I)).
Notation sgn := (sgn so).
Notation fact := (fact io so h).
Notation fmono := (fmono io so h).
Notation fpoly := (fpoly io so h).
Notation local := (local so h).
Notation lact := (lact so h).
Notation lmono := (lmono so h).

(** *** Canonical monomials, pairwise *)
Definition cpair (g g' : gen I) : Prop := gen_before_eq io g g' /\ ~ collapsible g g'.

Lemma sandwich g x g' : gen_before_eq io g x -> gen_before_eq io x g' ->
  collapsible g g' -> collapsible g x.
Proof.
  intros H1 H2 C. pose proof (gen_sto io Hio) as T.
  assert (LT : forall a b, gen_before io a b -> gen_ltb io a b = true) by (intros; now apply (gen_before_ltb io Hio)).
  destruct C as [d i|c c' i].
  - destruct H1 as [E|H1]; [rewrite <- E; constructor|].
    destruct H2 as [E|H2]; [subst x; apply LT in H1; rewrite (sto_irrefl _ _ _ T) in H1; discriminate|].
    apply LT in H1, H2. pose proof (sto_trans _ _ _ T _ _ _ H1 H2) as K.
    rewrite (sto_irrefl _ _ _ T) in K. discriminate.
  - destruct H1 as [E|H1]; [rewrite <- E; constructor|].
    destruct H2 as [E|H2]; [rewrite E; constructor|].
    assert (IR : forall i, idx_lt io i i -> False) by (intros i0; apply (idx_lt_irrefl io Hio)).
    assert (TR : forall i j k, idx_lt io i j -> idx_lt io j k -> idx_lt io i k)
      by (intros a b c0; apply (sto_trans _ _ _ Hio)).
    inversion H1; subst; inversion H2; subst; try lia; try constructor;
      exfalso; solve [eauto | lia].
Qed.

Lemma canonical_pairs m : canonical_mono io m -> StronglySorted cpair m.
Proof.
  intros [H1 [H2 _]]. induction H1 as [|g m hs IH hd]; [constructor|]. constructor.
  - apply IH. intros pre g0 h0 post E. apply (H2 (g :: pre) g0 h0 post). simpl. now rewrite E.
  - destruct m as [|x m]; [constructor|].
    assert (N : ~ collapsible g x) by (apply (H2 [] g x m); reflexivity).
    rewrite Forall_forall in *. intros y i. split; [auto|]. intros C. apply N.
    assert (gen_before_eq io x y) as Hxy.
    { destruct i as [->|i]; [left; reflexivity|]. inversion hs; subst.
      match goal with F : Forall _ m |- _ => rewrite Forall_forall in F; apply F; auto end. }
    eapply sandwich; [|exact Hxy|exact C]. apply hd. now left.
Qed.

Lemma sorted_perm (a b : mono) : StronglySorted (gen_before_eq io) a -> StronglySorted (gen_before_eq io) b ->
  Permutation a b -> a = b.
Proof.
  revert b. induction a as [|x a IH]; intros b Ha Hb P.
  - now apply Permutation_nil in P.
  - destruct b as [|y b]; [symmetry in P; apply Permutation_nil in P; discriminate|].
    apply StronglySorted_inv in Ha, Hb. destruct Ha as [Ha1 Ha2], Hb as [Hb1 Hb2].
    rewrite Forall_forall in Ha2, Hb2.
    assert (x = y).
    { assert (i1 : In y (x :: a)) by (apply (Permutation_in _ (Permutation_sym P)); now left).
      assert (i2 : In x (y :: b)) by (apply (Permutation_in _ P); now left).
      destruct i1 as [|i1]; [auto|]. destruct i2 as [|i2]; [auto|].
      apply Ha2 in i1. apply Hb2 in i2. destruct i1 as [|i1]; auto. destruct i2 as [|i2]; auto.
      pose proof (gen_sto io Hio) as T. apply (gen_before_ltb io Hio) in i1, i2.
      pose proof (sto_trans _ _ _ T _ _ _ i1 i2) as K. rewrite (sto_irrefl _ _ _ T) in K. discriminate. }
    subst y. f_equal. apply IH; auto. now apply Permutation_cons_inv in P.
Qed.

Lemma cpair_sorted (m : mono) : StronglySorted cpair m -> StronglySorted (gen_before_eq io) m.
Proof.
  induction 1 as [|g m hs IH hd]; constructor; auto.
  eapply Forall_impl; [|exact hd]. now intros a [k _].
Qed.

(** *** Splitting off the head site *)
Definition onb (b : site I) (g : gen I) : bool := site_eqb io b (site_of g).
Definition upart (b : site I) (m : mono) : mono := filter (onb b) m.
Definition wpart (b : site I) (m : mono) : mono := filter (fun g => negb (onb b g)) m.

Lemma filter_split {A} (f : A -> bool) l : Permutation l (filter f l ++ filter (fun x => negb (f x)) l).
Proof.
  induction l as [|a l IH]; simpl; auto. destruct (f a); simpl.
  - now constructor.
  - now apply Permutation_cons_app.
Qed.

Lemma parts_inj b m m' : StronglySorted cpair m -> StronglySorted cpair m' ->
  upart b m = upart b m' -> wpart b m = wpart b m' -> m = m'.
Proof.
  intros H H' E E'. apply sorted_perm; auto using cpair_sorted.
  eapply Permutation_trans; [apply (filter_split (onb b))|].
  eapply Permutation_trans; [|symmetry; apply (filter_split (onb b))].
  fold (upart b m) (upart b m') (wpart b m) (wpart b m'). rewrite E, E'. reflexivity.
Qed.

(** rows of products of generators of one site *)
Fixpoint lrow (u : mono) (d : digit) : option (S * digit) :=
  match u with
  | [] => Some (s_one so, d)
  | g :: u' =>
      match local g d with
      | Some (c, d') => match lrow u' d' with Some (c', d'') => Some (c *s c', d'') | None => None end
      | None => None
      end
  end.
Lemma lmono_row u : forall psi d, lmono u psi d = oact so digit (lrow u d) psi.
Proof.
  induction u as [|g u IH]; intros psi d; cbn [FockRep.lmono lrow].
  - unfold oact. sr.
  - unfold FockRep.lact, oact. destruct (local g d) as [[c d']|]; [|reflexivity].
    rewrite IH. unfold oact. destruct (lrow u d') as [[c' d'']|]; sr.
Qed.

Fixpoint eps (b : site I) (m : mono) : bool :=
  match m with
  | [] => false
  | g :: m' => xorb (onb b g && is_sf b && npar (wpart b m')) (eps b m')
  end.

Definition spins_ok (m : mono) : Prop := forall g, In g m -> forall mu i c, g = GSpin mu c i -> h +s h = s_one so.

Lemma lrow_central u d c d' : spins_ok u -> lrow u d = Some (c, d') -> central so c.
Proof.
  revert d c. induction u as [|g u IH]; intros d c Hs; simpl.
  - intros E. injection E as <- _. apply (central_1 so L).
  - destruct (local g d) as [[c1 d1]|] eqn:E1; [|discriminate].
    destruct (lrow u d1) as [[c2 d2]|] eqn:E2; [|discriminate].
    intros E. injection E as <- <-. apply (central_mul so L).
    + eapply (local_central so L); [|exact E1]. intros. eapply Hs; [now left|eauto].
    + eapply IH; [|exact E2]. intros x i. apply Hs. now right.
Qed.

Lemma lmono_sgn (u : mono) b psi d : lmono u (fun z => sgn b (psi z)) d = sgn b (lmono u psi d).
Proof.
  revert psi d. induction u as [|g u IH]; intros psi d; cbn [FockRep.lmono]; auto.
  erewrite (lact_ext so h); [|intros z; apply IH]. apply (lact_sgn so L).
Qed.
Lemma lmono_ext (u : mono) : forall psi psi', (forall z, psi z = psi' z) -> forall d, lmono u psi d = lmono u psi' d.
Proof.
  induction u as [|g u IH]; intros psi psi' e d; cbn [FockRep.lmono]; auto.
  apply (lact_ext so h). auto.
Qed.

Lemma fact_lmono B g u (X : digit -> St B -> S) d ys : spins_ok u ->
  fact B g (fun z => lmono u (fun d' => X d' z) d) ys = lmono u (fun d' => fact B g (X d') ys) d.
Proof.
  intros Hs. rewrite lmono_row.
  rewrite (fact_ext io so h B g _ (fun z => oact so digit (lrow u d) (fun d' => X d' z)))
    by (intros z; apply lmono_row).
  unfold FockRep.fact, oact. destruct (lrow u d) as [[c d']|] eqn:E.
  - pose proof (lrow_central _ _ _ _ Hs E) as C.
    destruct (back io so h B g ys) as [[c' x]|]; [|now rewrite (s_mul_0_r so L)].
    transitivity ((c *s c') *s X d' x); [rewrite (C c'); sr|sr].
  - destruct (back io so h B g ys) as [[c' x]|]; auto. apply (s_mul_0_r so L).
Qed.

Lemma factor b B m : spins_ok m -> forall psi d ys,
  fmono (b :: B) m psi (d, ys) =
  sgn (xorb (eps b m) (is_sf b && fst d && npar (wpart b m)))
    (lmono (upart b m) (fun d' => fmono B (wpart b m) (fun ys' => psi (d', ys')) ys) d).
Proof.
  induction m as [|g m IH]; intros Hs psi d ys.
  - simpl. now rewrite andb_false_r.
  - assert (Hs' : spins_ok m) by (intros x i; apply Hs; now right).
    specialize (IH Hs'). cbn [FockRep.fmono eps].
    unfold upart, wpart in *. cbn [filter]. destruct (onb b g) eqn:E; cbn [negb].
    + assert (Eb : site_of g = b) by (symmetry; apply (site_eqb_eq io Hio); exact E).
      rewrite (fact_head io Hio) by auto. cbn [FockRep.lmono].
      rewrite <- (lact_sgn so L). unfold FockRep.lact, oact.
      destruct (local g d) as [[c d']|] eqn:E'; [|reflexivity]. f_equal. rewrite IH. f_equal.
      destruct (is_sf b) eqn:F; [|destruct (eps b m); reflexivity].
      assert (fst d' = negb (fst d)) as ->.
      { eapply (local_flip so h g); [|exact E']. unfold is_f. now rewrite Eb. }
      destruct (fst d), (npar (filter (fun g0 => negb (onb b g0)) m)), (eps b m); reflexivity.
    + assert (Eb : site_of g <> b) by (intros e; unfold onb in E; apply (site_eqb_neq io Hio) in E; congruence).
      rewrite (fact_tail io Hio so L) by auto. cbn [FockRep.fmono].
      erewrite (fact_ext io so h B g); [|intros z; apply IH].
      rewrite (fact_sgn io so L), (sgn_sgn so L), fact_lmono.
      * f_equal. cbn [npar fold_right]. fold (npar (filter (fun g0 => negb (onb b g0)) m)).
        destruct (is_sf b), (is_f g), (fst d), (npar (filter (fun g0 => negb (onb b g0)) m)), (eps b m); reflexivity.
      * intros x i. apply filter_In in i. apply Hs'. tauto.
Qed.

(** *** Matrix elements of one site *)
Definition digit_eqb (a b : digit) : bool := Bool.eqb (fst a) (fst b) && Nat.eqb (snd a) (snd b).
Lemma digit_eqb_eq a b : digit_eqb a b = true <-> a = b.
Proof.
  destruct a, b. unfold digit_eqb. simpl. rewrite andb_true_iff, eqb_true_iff, Nat.eqb_eq. split; [intros []; congruence|intros E; injection E; auto].
Qed.
Definition lel (u : mono) (d1 d2 : digit) : S :=
  match lrow u d1 with Some (c, d') => if digit_eqb d' d2 then c else s_zero so | None => s_zero so end.

Definition functional : Type := list (bool * digit * digit).
Fixpoint kap (b : site I) (lam : functional) (par : bool) (u : mono) : S :=
  match lam with
  | [] => s_zero so
  | (s, d1, d2) :: lam' => sgn (xorb s (is_sf b && fst d1 && par)) (lel u d1 d2) +s kap b lam' par u
  end.

(** applying a functional to an expression on [b :: B] gives an expression on [B] *)
Definition kcoef (b : site I) (lam : functional) (t : mono * S) : S :=
  snd t *s sgn (eps b (fst t)) (kap b lam (npar (wpart b (fst t))) (upart b (fst t))).
Definition reduce (b : site I) (lam : functional) (e : list (mono * S)) : list (mono * S) :=
  map (fun t => (wpart b (fst t), kcoef b lam t)) e.

Lemma delta b B m psi d1 d2 ys : spins_ok m ->
  fmono (b :: B) m (fun x => if digit_eqb (fst x) d2 then psi (snd x) else s_zero so) (d1, ys) =
  sgn (xorb (eps b m) (is_sf b && fst d1 && npar (wpart b m))) (lel (upart b m) d1 d2) *s fmono B (wpart b m) psi ys.
Proof.
  intros Hs. rewrite factor by auto. rewrite (sgn_mul so L). f_equal.
  rewrite lmono_row. unfold lel, oact. destruct (lrow (upart b m) d1) as [[c d']|]; [|now rewrite (s_mul_0_l so L)].
  cbn [fst snd]. destruct (digit_eqb d' d2).
  - f_equal.
  - assert (Z : forall w y, fmono B w (fun _ => s_zero so) y = s_zero so).
    { induction w as [|g w IH]; intros y; cbn [FockRep.fmono]; auto.
      unfold FockRep.fact, oact. destruct (back io so h B g y) as [[c' x]|]; auto. rewrite IH. apply (s_mul_0_r so L). }
    rewrite Z, (s_mul_0_l so L). apply (s_mul_0_r so L).
Qed.

Lemma reduce_zero b B lam e : (forall t, In t e -> spins_ok (fst t)) ->
  (forall psi y, fpoly (b :: B) e psi y = s_zero so) ->
  forall psi ys, fpoly B (reduce b lam e) psi ys = s_zero so.
Proof.
  intros Hs Z psi ys. induction lam as [|[[s d1] d2] lam IH].
  - assert (K : forall l, fpoly B (reduce b [] l) psi ys = s_zero so).
    { induction l as [|[m c] l IHl]; cbn [reduce map FockRep.fpoly fst]; auto.
      unfold reduce in IHl. rewrite IHl. unfold kcoef. cbn [kap fst snd].
      rewrite (sgn_0 so L), (s_mul_0_r so L), (s_mul_0_l so L). sr. }
    apply K.
  - specialize (Z (fun x => if digit_eqb (fst x) d2 then psi (snd x) else s_zero so) (d1, ys)).
    assert (K : fpoly B (reduce b ((s, d1, d2) :: lam) e) psi ys =
      sgn s (fpoly (b :: B) e (fun x => if digit_eqb (fst x) d2 then psi (snd x) else s_zero so) (d1, ys))
      +s fpoly B (reduce b lam e) psi ys).
    { clear Z IH. induction e as [|[m c] e IHe]; cbn [reduce map FockRep.fpoly fst].
      - rewrite (sgn_0 so L). sr.
      - unfold reduce in IHe. rewrite IHe by (intros; apply Hs; now right). clear IHe.
        rewrite delta by (apply (Hs (m, c)); now left). cbn [fst snd].
        unfold kcoef at 1. cbn [fst snd kap].
        rewrite (sgn_add so L s). set (E1 := sgn s (fpoly (b :: B) e _ (d1, ys))).
        set (rest := fpoly B (map _ e) psi ys).
        assert (A : sgn s (c *s (sgn (xorb (eps b m) (is_sf b && fst d1 && npar (wpart b m))) (lel (upart b m) d1 d2) *s fmono B (wpart b m) psi ys))
          = c *s sgn (eps b m) (sgn (xorb s (is_sf b && fst d1 && npar (wpart b m))) (lel (upart b m) d1 d2)) *s fmono B (wpart b m) psi ys).
        { set (q := is_sf b && fst d1 && npar (wpart b m)). destruct s, (eps b m), q; cbn [xorb FockRep.sgn]; sr. }
        rewrite A. unfold kcoef. cbn [fst snd]. rewrite (sgn_add so L). sr. }
    rewrite K, Z, IH, (sgn_0 so L). sr.
Qed.

(** *** Classification of canonical products on one site *)
Definition local_mono (b : site I) (u : mono) : Prop :=
  StronglySorted cpair u /\ Forall (fun g => site_of g = b /\ simple g) u.

Definition rank (u : mono) : nat :=
  length (filter (fun g => match g with GFermion false _ | GBoson false _ => true | _ => false end) u).

Lemma cpair_irrefl_f d i : ~ cpair (GFermion d i) (GFermion d i).
Proof. intros [_ n]. apply n. constructor. Qed.
Lemma cpair_f i : ~ cpair (GFermion false i) (GFermion true i).
Proof. intros [[E|E] _]; inversion E. Qed.
Lemma cpair_b i : ~ cpair (GBoson false i) (GBoson true i).
Proof. intros [[E|E] _]; inversion E. Qed.
Lemma cpair_s c c' i : ~ cpair (GSpin 2 c i) (GSpin 2 c' i).
Proof. intros [_ n]. apply n. constructor. Qed.

Lemma local_cons b g u : local_mono b (g :: u) -> site_of g = b /\ simple g /\ local_mono b u /\ Forall (cpair g) u.
Proof.
  intros [H1 H2]. apply StronglySorted_inv in H1. inversion H2; subst. destruct H1. repeat split; tauto.
Qed.

Lemma local_fermion i u : local_mono (SF i) u ->
  u = [] \/ u = [GFermion true i] \/ u = [GFermion false i] \/ u = [GFermion true i; GFermion false i].
Proof.
  intros H. destruct u as [|g u]; auto. apply local_cons in H. destruct H as [E [_ [H F]]].
  destruct g as [d j| |]; try discriminate. injection E as ->.
  destruct u as [|g u]; [destruct d; auto|]. apply local_cons in H. destruct H as [E [_ [H F']]].
  destruct g as [d' j'| |]; try discriminate. injection E as ->. inversion F as [|? ? f1 f2]; subst.
  destruct d, d'; try (now apply cpair_irrefl_f in f1); try (now apply cpair_f in f1).
  destruct u as [|g u]; [auto|]. apply local_cons in H. destruct H as [E [_ [H F'']]].
  destruct g as [d j'| |]; try discriminate. injection E as ->.
  inversion F'; subst. inversion f2; subst. destruct d.
  - exfalso; eapply cpair_irrefl_f; eauto.
  - exfalso; eapply cpair_irrefl_f; eauto.
Qed.
Lemma local_spin i u : local_mono (SH i) u -> u = [] \/ exists c, u = [GSpin 2 c i].
Proof.
  intros H. destruct u as [|g u]; auto. right. apply local_cons in H. destruct H as [E [s [H F]]].
  destruct g as [| |m c j]; try discriminate. injection E as ->. simpl in s. subst m. exists c. f_equal.
  destruct u as [|g u]; auto. apply local_cons in H. destruct H as [E [s [H F']]].
  destruct g as [| |m c' j]; try discriminate. injection E as ->. simpl in s. subst m.
  inversion F; subst. exfalso; eapply cpair_s; eauto.
Qed.
Lemma local_boson i u : local_mono (SB i) u ->
  exists p q, u = repeat (GBoson true i) p ++ repeat (GBoson false i) q.
Proof.
  induction u as [|g u IH]; intros H; [now exists 0, 0|].
  apply local_cons in H. destruct H as [E [_ [H F]]]. destruct g as [|d j|]; try discriminate. injection E as ->.
  destruct (IH H) as [p [q ->]]. destruct d; [now exists (Datatypes.S p), q|].
  destruct p as [|p]; [now exists 0, (Datatypes.S q)|].
  inversion F; subst. exfalso; eapply cpair_b; eauto.
Qed.

(** *** Dual functionals *)
Lemma nat_nonzero n : 0 < n -> nmul so n (s_one so) <> s_zero so.
Proof.
  intros hn. apply (sd_const _ D (VInt (Z.of_nat n))).
  - rewrite (sl_make_int _ L). f_equal. destruct n; [lia|]. simpl. now rewrite SuccNat2Pos.id_succ.
  - simpl. apply Z.eqb_neq. lia.
Qed.
Lemma one_nonzero : s_one so <> s_zero so.
Proof. intros E. apply (nat_nonzero 1); [lia|]. simpl. rewrite E. sr. Qed.
Lemma sgn_nonzero b x : x <> s_zero so -> sgn b x <> s_zero so.
Proof.
  intros n. destruct b; simpl; auto. intros E. apply n. now apply (proj1 (s_neg_zero_iff so L _)).
Qed.

Fixpoint fall (k q : nat) : S :=
  match q with O => s_one so | Datatypes.S q' => nmul so (k + 1) (s_one so) *s fall (k + 1) q' end.
Lemma fall_nonzero q : forall k, fall k q <> s_zero so.
Proof.
  induction q as [|q IH]; intros k; simpl; [apply one_nonzero|]. intros E.
  apply (sd_nzd _ D) in E. destruct E as [E|E].
  - now apply nat_nonzero in E; [|lia].
  - now apply IH in E.
Qed.
Lemma lrow_ann i q : forall o k, lrow (repeat (GBoson false i) q) (o, k) = Some (fall k q, (o, k + q)).
Proof.
  induction q as [|q IH]; intros o k; cbn [repeat lrow fall FockRep.local].
  - now rewrite Nat.add_0_r.
  - rewrite IH. now replace (k + 1 + q) with (k + Datatypes.S q) by lia.
Qed.
Lemma lrow_boson i p q : forall o k,
  lrow (repeat (GBoson true i) p ++ repeat (GBoson false i) q) (o, k) =
  if Nat.leb p k then Some (fall (k - p) q, (o, k - p + q)) else None.
Proof.
  induction p as [|p IH]; intros o k; cbn [repeat lrow app FockRep.local].
  - rewrite lrow_ann, Nat.sub_0_r. reflexivity.
  - destruct k as [|k]; [reflexivity|]. rewrite IH. cbn [Nat.leb Nat.sub].
    destruct (Nat.leb p k); auto. now rewrite (sl_mul_1_l _ L).
Qed.
Lemma rank_boson i p q : rank (repeat (GBoson true i) p ++ repeat (GBoson false i) q) = q.
Proof.
  unfold rank. rewrite filter_app, app_length.
  assert (A : filter (fun g : gen I => match g with GFermion false _ | GBoson false _ => true | _ => false end) (repeat (GBoson true i) p) = [])
    by (clear; induction p; simpl; auto).
  assert (A' : length (filter (fun g : gen I => match g with GFermion false _ | GBoson false _ => true | _ => false end) (repeat (GBoson false i) q)) = q)
    by (clear; induction q; simpl; auto).
  now rewrite A, A'.
Qed.

Lemma dual b u : local_mono b u -> (forall i, b = SH i -> h +s h = s_one so) ->
  exists lam, (forall par, kap b lam par u <> s_zero so) /\
    (forall u' par, local_mono b u' -> u' <> u -> rank u <= rank u' -> kap b lam par u' = s_zero so).
Proof.
  intros Hu Hh. destruct b as [i|i|i].
  - apply local_fermion in Hu.
    set (o := (false, 0)). set (p := (true, 0)).
    assert (Z : forall b, sgn b (s_zero so) +s s_zero so = s_zero so) by (intros; rewrite (sgn_0 so L); sr).
    assert (NZ : forall b x, x <> s_zero so -> sgn b x +s s_zero so <> s_zero so).
    { intros b x n. rewrite (s_add_0_r so L). now apply sgn_nonzero. }
    assert (N1 : s_one so *s s_one so <> s_zero so) by (rewrite (sl_mul_1_l _ L); apply one_nonzero).
    assert (N2 : s_one so *s (s_one so *s s_one so) <> s_zero so) by (rewrite !(sl_mul_1_l _ L); apply one_nonzero).
    destruct Hu as [-> |[-> |[-> | ->]]].
    + exists [(false, o, o)]. split; [intros par; apply NZ, one_nonzero|].
      intros u' par Hu' ne rk. apply local_fermion in Hu'.
      destruct Hu' as [-> |[-> |[-> | ->]]]; try congruence; apply Z.
    + exists [(false, p, o)]. split; [intros par; apply NZ, N1|].
      intros u' par Hu' ne rk. apply local_fermion in Hu'.
      destruct Hu' as [-> |[-> |[-> | ->]]]; try congruence; apply Z.
    + exists [(false, o, p)]. split; [intros par; apply NZ, N1|].
      intros u' par Hu' ne rk. apply local_fermion in Hu'.
      destruct Hu' as [-> |[-> |[-> | ->]]]; try congruence; apply Z.
    + exists [(false, p, p)]. split; [intros par; apply NZ, N2|].
      intros u' par Hu' ne rk. apply local_fermion in Hu'.
      destruct Hu' as [-> |[-> |[-> | ->]]]; try congruence; try (cbn in rk; lia); apply Z.
  - apply local_boson in Hu. destruct Hu as [p [q ->]].
    exists [(false, (false, p), (false, q))]. split.
    + intros par. cbn [kap is_sf andb xorb FockRep.sgn]. rewrite (s_add_0_r so L). unfold lel.
      rewrite lrow_boson, Nat.leb_refl, Nat.sub_diag. rewrite (proj2 (digit_eqb_eq _ _) eq_refl). apply fall_nonzero.
    + intros u' par Hu' ne rk. apply local_boson in Hu'. destruct Hu' as [p' [q' ->]]. rewrite !rank_boson in rk.
      cbn [kap is_sf andb xorb FockRep.sgn]. rewrite (s_add_0_r so L). unfold lel. rewrite lrow_boson.
      destruct (Nat.leb_spec p' p) as [le|]; [|reflexivity].
      destruct (digit_eqb (false, p - p' + q') (false, q)) eqn:E; [|reflexivity].
      apply digit_eqb_eq in E. injection E as E. exfalso. apply ne.
      assert (p' = p /\ q' = q) as [-> ->] by lia. reflexivity.
  - specialize (Hh i eq_refl). apply local_spin in Hu.
    set (o := (false, 0)). set (p := (true, 0)).
    assert (N1 : s_one so *s s_one so <> s_zero so) by (rewrite (sl_mul_1_l _ L); apply one_nonzero).
    assert (Z : s_zero so +s s_zero so = s_zero so) by sr.
    destruct Hu as [-> |[c ->]]; [|destruct c].
    + exists [(false, o, o); (false, p, p)]. split.
      * intros par E. apply (nat_nonzero 2); [lia|]. rewrite <- E. cbn. reflexivity.
      * intros u' par Hu' ne rk. apply local_spin in Hu'. destruct Hu' as [-> |[[] ->]]; try congruence; cbn; sr.
    + exists [(false, p, o)]. split.
      * intros par. cbn. rewrite (s_add_0_r so L). exact N1.
      * intros u' par Hu' ne rk. apply local_spin in Hu'. destruct Hu' as [-> |[[] ->]]; try congruence; cbn; sr.
    + exists [(false, o, p)]. split.
      * intros par. cbn. rewrite (s_add_0_r so L). exact N1.
      * intros u' par Hu' ne rk. apply local_spin in Hu'. destruct Hu' as [-> |[[] ->]]; try congruence; cbn; sr.
    + exists [(false, p, p); (true, o, o)]. split.
      * intros par E. apply one_nonzero. rewrite <- E, <- Hh. cbn. sr.
      * intros u' par Hu' ne rk. apply local_spin in Hu'. destruct Hu' as [-> |[[] ->]]; try congruence; cbn; sr.
Qed.

(** *** Independence *)
Definition good (B : list (site I)) (m : mono) : Prop :=
  StronglySorted cpair m /\ Forall (on_sites B) m.

Lemma good_w b B m : good (b :: B) m -> good B (wpart b m).
Proof.
  intros [H1 H2]. split; [now apply SSorted_filter|]. rewrite Forall_forall in *. intros g i.
  apply filter_In in i. destruct i as [i n]. destruct (H2 g i) as [s1 s2]. split; auto.
  destruct s1 as [s1|s1]; auto. unfold onb in n. rewrite s1, (proj2 (site_eqb_eq io Hio _ _) eq_refl) in n. discriminate.
Qed.
Lemma good_u b B m : good (b :: B) m -> local_mono b (upart b m).
Proof.
  intros [H1 H2]. split; [now apply SSorted_filter|]. rewrite Forall_forall in *. intros g i.
  apply filter_In in i. destruct i as [i n]. destruct (H2 g i) as [_ s2]. split; auto.
  symmetry. now apply (site_eqb_eq io Hio).
Qed.

Lemma NoDup_map_filter {A C} (f : A -> C) (p : A -> bool) l : NoDup (map f l) -> NoDup (map f (filter p l)).
Proof.
  induction l as [|a l IH]; simpl; intros N; [constructor|]. inversion N; subst. destruct (p a); simpl; auto.
  constructor; auto. intros i. apply in_map_iff in i. destruct i as [x [E i]]. apply filter_In in i.
  apply H1. rewrite <- E. apply in_map. tauto.
Qed.

Theorem independence B : (forall i, In (SH i) B -> h +s h = s_one so) -> forall e,
  NoDup (map fst e) -> (forall t, In t e -> good B (fst t)) ->
  (forall psi y, fpoly B e psi y = s_zero so) -> forall m c, In (m, c) e -> c = s_zero so.
Proof.
  intros Hh. induction B as [|b B IH]; intros e ND G Z m c Hi.
  - assert (E : forall t, In t e -> fst t = []).
    { intros t i. destruct (G t i) as [_ F]. destruct (fst t) as [|g l]; auto. inversion F; subst. now destruct H1. }
    destruct e as [|[m1 c1] [|[m2 c2] e]]; [contradiction| |].
    + specialize (Z (fun _ => s_one so) tt). cbn [FockRep.fpoly] in Z.
      pose proof (E _ (or_introl eq_refl)) as E1. simpl in E1. subst m1. cbn [FockRep.fmono] in Z.
      rewrite (sl_mul_1_r _ L), (s_add_0_r so L) in Z. destruct Hi as [K|[]]. injection K as <- <-. exact Z.
    + exfalso. pose proof (E _ (or_introl eq_refl)) as E1. pose proof (E _ (or_intror (or_introl eq_refl))) as E2.
      simpl in *. subst. inversion ND; subst. apply H1. now left.
  - assert (Hh' : forall i, In (SH i) B -> h +s h = s_one so) by (intros i i'; apply (Hh i); now right).
    specialize (IH Hh').
    assert (SO : forall t, In t e -> spins_ok (fst t)).
    { intros t i g ig mu j c0 ->. destruct (G t i) as [_ F]. rewrite Forall_forall in F.
      destruct (F _ ig) as [s _]. simpl in s. eauto. }
    (* strong induction on the rank of the head part *)
    assert (K : forall n m c, In (m, c) e -> rank (upart b m) < n -> c = s_zero so).
    { induction n as [|n IHn]; [lia|]. intros m0 c0 i0 hr.
      pose proof (good_u _ _ _ (G _ i0)) as Lu. cbn [fst] in Lu.
      destruct (dual b (upart b m0) Lu) as [lam [d1 d2]]; [intros i ->; apply (Hh i); now left|].
      assert (Udec : forall u : mono, {u = upart b m0} + {u <> upart b m0}).
      { intros u. apply (list_eq_dec (sto_eq_dec (gen_sto io Hio))). }
      set (sel := fun t : mono * S => if Udec (upart b (fst t)) then true else false).
      pose proof (reduce_zero b B lam e SO Z) as RZ.
      assert (RZ' : forall psi y, fpoly B (reduce b lam (filter sel e)) psi y = s_zero so).
      { intros psi y. rewrite <- (RZ psi y). unfold reduce.
        assert (Q : forall l, (forall t, In t l -> In t e) ->
          fpoly B (map (fun t => (wpart b (fst t), kcoef b lam t)) (filter sel l)) psi y =
          fpoly B (map (fun t => (wpart b (fst t), kcoef b lam t)) l) psi y).
        { induction l as [|t l IHl]; intros Hl; cbn [filter map]; auto.
          assert (Hl' : forall t, In t l -> In t e) by (intros; apply Hl; now right).
          destruct (sel t) eqn:Es; cbn [map FockRep.fpoly]; rewrite IHl by auto; auto.
          assert (kcoef b lam t = s_zero so) as ->; [|sr].
          unfold sel in Es. destruct (Udec (upart b (fst t))) as [|ne]; [discriminate|].
          assert (It : In t e) by (apply Hl; now left). destruct t as [mt ct]. cbn [fst] in *.
          unfold kcoef. cbn [fst snd].
          destruct (Nat.lt_ge_cases (rank (upart b mt)) (rank (upart b m0))) as [lt|ge].
          - rewrite (IHn mt ct It) by lia. apply (s_mul_0_l so L).
          - rewrite d2; auto.
            + rewrite (sgn_0 so L). apply (s_mul_0_r so L).
            + apply (good_u _ _ _ (G _ It)). }
        apply Q. auto. }
      assert (KZ : kcoef b lam (m0, c0) = s_zero so).
      { apply (IH (reduce b lam (filter sel e))) with (m := wpart b m0); auto.
        - unfold reduce. rewrite map_map. cbn [fst].
          assert (Q : forall l, NoDup (map fst l) -> (forall t, In t l -> In t e /\ upart b (fst t) = upart b m0) ->
            NoDup (map (fun t : mono * S => wpart b (fst t)) l)).
          { induction l as [|t l IHl]; intros Nl Hl; simpl; [constructor|]. inversion Nl; subst. constructor.
            - intros i. apply in_map_iff in i. destruct i as [t' [E i]]. apply H1.
              destruct (Hl t (or_introl eq_refl)) as [a1 a2]. destruct (Hl t' (or_intror i)) as [a3 a4].
              assert (fst t' = fst t) as <-; [|now apply in_map].
              apply (parts_inj b); [apply (G _ a3)|apply (G _ a1)|congruence|exact E].
            - apply IHl; auto. intros. apply Hl. now right. }
          apply Q; [now apply NoDup_map_filter|]. intros t i. apply filter_In in i. destruct i as [i s]. split; auto.
          unfold sel in s. destruct (Udec (upart b (fst t))); [auto|discriminate].
        - intros t i. unfold reduce in i. apply in_map_iff in i. destruct i as [t' [<- i]]. cbn [fst].
          apply good_w. apply G. apply filter_In in i. tauto.
        - unfold reduce. apply in_map_iff. exists (m0, c0). split; auto. apply filter_In. split; auto.
          unfold sel. cbn [fst]. destruct (Udec (upart b m0)); congruence. }
      unfold kcoef in KZ. cbn [fst snd] in KZ. apply (sd_nzd _ D) in KZ. destruct KZ as [KZ|KZ]; auto.
      exfalso. eapply sgn_nonzero; [|exact KZ]. apply d1. }
    apply (K (Datatypes.S (rank (upart b m))) m c Hi). lia.
Qed.

End Unique.
