(** Linear independence of canonical monomials on a finite product of
    elementary spaces. *)
From Coq Require Import NArith ZArith List Bool Sorted Permutation Lia.
From Verif Require Import BitsModel BitsSpec BitsProofs ExprModel ExprSpec ExprOrder ExprMap ExprEval ExprStd FockSpec FockRep FockUnique
  HSModel HSSpec HSEnum HSProofs HSMain PropHS LOpModel LOpSpec LOpFermion LOpSite LOpActF LOpComm LOpApply LOpMatrix LOpFaithful LOpFaithSpec.
Import ListNotations.
Open Scope N_scope.
Open Scope list_scope.

Section Low.
Context {I : Type} (io : index_ops I) (Hio : index_order io).
Notation es := (espace I).
Lemma enc_low (l : list es) ds : Forall es_wf l -> digits_ok l ds -> forall k i, (i < offset l k)%nat ->
  tb (enc l ds) i = tb (enc (firstn k l) (firstn k ds)) i.
Proof.
  intros W H. revert W. induction H as [|e d t ds hd H IH]; intros W k i hi.
  - destruct k; reflexivity.
  - inversion W as [|? ? we W']; subst. destruct k as [|k].
    + unfold offset in hi. cbn in hi. lia.
    + cbn [firstn enc]. unfold offset in hi. cbn [firstn total_bits] in hi. pose proof (dim_le e we) as LE.
      rewrite !split_bits by lia. destruct (Nat.ltb_spec i (es_nbits e)); auto. apply IH; auto. unfold offset. lia.
Qed.
Definition esf (e : es) : Prop := match e with ESFermion _ => True | _ => False end.
Lemma fermions_first (l : list es) : StronglySorted (es_before io) l -> forall k j, nth_error l k = Some (ESFermion j) ->
  Forall esf (firstn k l).
Proof.
  induction 1 as [|e t St IH F]; intros [|k] j E; cbn in *; try constructor; try discriminate.
  - rewrite Forall_forall in F. assert (i : In (ESFermion j) t) by (eapply nth_error_In; eauto).
    apply F in i. inversion i; exact Logic.I.
  - eapply IH; eauto.
Qed.
End Low.

Section Indep.
Context {I S : Type} (io : index_ops I) (Hio : index_order io).
Context (so : scalar_ops S) (D : scalar_domain so).
Context (sq : N -> S) (half : Z -> S) (LL : lop_laws so sq half).
Let L : scalar_laws so := ll_ring _ _ _ LL.
Let MC : forall x y, s_mul so x y = s_mul so y x := ll_comm _ _ _ LL.
Notation es := (espace I).
Notation mono := (list (gen I)).
Notation mact := (mono_act io so sq half).
Notation mel := (mel io so sq half).
Notation part := (part io).
Notation lrun := (lrun so sq half).
Notation lel := (lel so sq half).
Notation prod := (prod so).
Notation sign := (sign so).
Notation "x *s y" := (s_mul so x y) (at level 40, left associativity).
Notation "x +s y" := (s_add so x y) (at level 50, left associativity).
Notation zero := (s_zero so).
Notation one := (s_one so).

(** *** sums *)
Fixpoint gsum {A} (f : A -> S) (l : list A) : S := match l with [] => zero | a :: t => f a +s gsum f t end.
Lemma gsum_ext {A} (f g : A -> S) l : (forall a, In a l -> f a = g a) -> gsum f l = gsum g l.
Proof. induction l as [|a l IH]; cbn; intros H; auto. rewrite H, IH by auto. reflexivity. Qed.
Lemma gsum_zero {A} (f : A -> S) l : (forall a, In a l -> f a = zero) -> gsum f l = zero.
Proof. induction l as [|a l IH]; cbn; intros H; auto. rewrite H, IH by auto. apply (sl_add_0 so L). Qed.
Lemma gsum_add {A} (f g : A -> S) l : gsum (fun a => f a +s g a) l = gsum f l +s gsum g l.
Proof.
  induction l as [|a l IH]; cbn; [symmetry; apply (sl_add_0 so L)|]. rewrite IH.
  rewrite <- !(sl_add_assoc so L). f_equal. rewrite !(sl_add_assoc so L). f_equal. apply (sl_add_comm so L).
Qed.
Lemma gsum_mul_l {A} c (f : A -> S) l : gsum (fun a => c *s f a) l = c *s gsum f l.
Proof. induction l as [|a l IH]; cbn; [symmetry; apply (mul_0_r so L)|]. now rewrite IH, (sl_dist_l so L). Qed.
Lemma gsum_app {A} (f : A -> S) l l' : gsum f (l ++ l') = gsum f l +s gsum f l'.
Proof. induction l as [|a l IH]; cbn; [symmetry; apply (sl_add_0 so L)|]. now rewrite IH, (sl_add_assoc so L). Qed.
Lemma gsum_map {A B} (f : B -> S) (g : A -> B) l : gsum f (map g l) = gsum (fun a => f (g a)) l.
Proof. induction l; cbn; congruence. Qed.

(** *** nonzero constants *)
Lemma nat_nz n : (0 < n)%nat -> nmul so n one <> zero.
Proof.
  intros hn. apply (sd_const _ D (VInt (Z.of_nat n))).
  - rewrite (sl_make_int _ L). f_equal. destruct n; [lia|]. simpl. now rewrite SuccNat2Pos.id_succ.
  - simpl. apply Z.eqb_neq. lia.
Qed.
Lemma one_nz : one <> zero.
Proof. intros E. apply (nat_nz 1); [lia|]. simpl. rewrite E. apply (sl_add_0 so L). Qed.
Lemma mul_nz a b : a <> zero -> b <> zero -> a *s b <> zero.
Proof. intros na nb E. apply (sd_nzd _ D) in E. tauto. Qed.
Lemma sq_nz n : 0 < n -> sq n <> zero.
Proof.
  intros hn E. pose proof (ll_sq _ _ _ LL n) as Q. rewrite E, (mul_0_l so L) in Q.
  destruct n as [|p]; [lia|]. cbn [Z.of_N zmul] in Q. symmetry in Q. revert Q. apply nat_nz. lia.
Qed.
Lemma half_nz : half 1 <> zero.
Proof.
  intros E. pose proof (ll_half_add _ _ _ LL 1 1)%Z as Q. change (1 + 1)%Z with 2%Z in Q. rewrite (ll_half_2 _ _ _ LL), E in Q.
  rewrite (sl_add_0 so L) in Q. now apply one_nz.
Qed.
Lemma half_m1 : half (-1) = s_neg so (half 1).
Proof. exact (half_neg so sq half LL 1%Z). Qed.
Lemma neg_nz x : x <> zero -> s_neg so x <> zero.
Proof. intros n E. apply n. now apply (proj1 (s_neg_zero_iff so L x)). Qed.
Lemma sign_nz b : sign b <> zero.
Proof. destruct b; cbn; [apply neg_nz|]; apply one_nz. Qed.
Lemma prod_nz n : forall f, (forall k, (k < n)%nat -> f k <> zero) -> prod f n <> zero.
Proof.
  induction n as [|n IH]; intros f H; cbn; [apply one_nz|]. apply mul_nz; [apply H; lia|]. apply IH. intros k hk. apply H. lia.
Qed.

(** *** Local parts of canonical monomials *)
Definition adm (l : list es) (m : mono) : Prop :=
  canonical_mono io m /\ Forall (known io l) m /\ Forall spin_half m /\ below_truncation io l m.

Lemma part_local l e m b : adm l m -> (forall g, carries io g e = true -> spin_half g -> site_of g = b) ->
  local_mono io b (part e m).
Proof.
  intros [C [_ [Sp _]]] H. split.
  - apply SSorted_filter. now apply (canonical_pairs io Hio).
  - rewrite Forall_forall in *. intros g i. apply filter_In in i. destruct i as [i c]. split; [apply H; auto|].
    specialize (Sp g i). destruct g; exact Sp.
Qed.
Definition bmono (i : I) (p q : nat) : mono := repeat (GBoson true i) p ++ repeat (GBoson false i) q.
Definition npow (dag : bool) (u : mono) : nat :=
  length (filter (fun g => match g with GFermion d _ | GBoson d _ => Bool.eqb d dag | _ => false end) u).
Lemma npow_app dag u v : npow dag (u ++ v) = (npow dag u + npow dag v)%nat.
Proof. unfold npow. now rewrite filter_app, app_length. Qed.
Lemma npow_rep dag d i n : npow dag (repeat (GBoson d i) n) = if Bool.eqb d dag then n else 0%nat.
Proof.
  unfold npow. induction n as [|n IH]; cbn [repeat filter]; [now destruct (Bool.eqb d dag)|].
  destruct (Bool.eqb d dag); cbn [length]; congruence.
Qed.
Lemma npow_b dag i p q : npow dag (bmono i p q) = if dag then p else q.
Proof. unfold bmono. rewrite npow_app, !npow_rep. destruct dag; cbn; lia. Qed.
Lemma part_boson l d i m : adm l m -> In (ESBoson d i) l -> exists p q, part (ESBoson d i) m = bmono i p q /\ N.of_nat p < d /\ N.of_nat q < d.
Proof.
  intros A Hl. pose proof A as [C [_ [Sp BT]]].
  destruct (local_boson io i (part (ESBoson d i) m)) as [p [q E]].
  { apply (part_local l); auto. intros g c _. destruct g as [| |]; cbn in c; try discriminate.
    apply (sto_eq _ _ _ Hio) in c. now subst. }
  exists p, q. split; [exact E|]. pose proof (BT d i Hl) as B.
  assert (BP : forall dag, boson_power io dag i m = npow dag (part (ESBoson d i) m)).
  { intros dag. unfold boson_power, npow, LOpFaithful.part. f_equal. clear. induction m as [|g m IH]; cbn [filter]; auto.
    destruct g as [d' j|d' j|mu c j]; cbn [carries]; auto.
    destruct (i_eq io j i); cbn [filter]; rewrite ?andb_true_r, ?andb_false_r; auto. destruct (Bool.eqb d' dag); congruence. }
  pose proof (B true) as B1. pose proof (B false) as B2. rewrite BP, E in B1, B2. fold (bmono i p q) in B1, B2. rewrite npow_b in B1, B2. auto.
Qed.
Lemma part_fermion l i m : adm l m ->
  let u := part (ESFermion i) m in
  u = [] \/ u = [GFermion true i] \/ u = [GFermion false i] \/ u = [GFermion true i; GFermion false i].
Proof.
  intros A. apply (local_fermion io). apply (part_local l); auto. intros g c _. destruct g; cbn in c; try discriminate.
  apply (sto_eq _ _ _ Hio) in c. now subst.
Qed.
Lemma part_spin l mu i m : adm l m -> part (ESSpin mu i) m = [] \/ mu = 2%nat /\ exists c, part (ESSpin mu i) m = [GSpin 2 c i].
Proof.
  intros A. destruct (Nat.eq_dec mu 2) as [->|ne].
  - destruct (local_spin io i (part (ESSpin 2 i) m)) as [E|E]; auto.
    apply (part_local l); auto. intros g c _. destruct g as [| |mu c' j]; cbn in c; try discriminate.
    apply andb_true_iff in c. destruct c as [_ c]. apply (sto_eq _ _ _ Hio) in c. now subst.
  - left. destruct A as [_ [_ [Sp _]]]. unfold LOpFaithful.part. induction Sp as [|g m hg Sp IH]; cbn [filter]; auto.
    destruct g as [| |mu' c j]; cbn [carries]; auto. cbn in hg. subst mu'.
    destruct (Nat.eqb_spec 2 mu); [lia|]. cbn [andb]. auto.
Qed.

(** *** Local action of bosons *)
Lemma lrun_ann d (i : I) q : forall n, exists c, c <> zero /\
  lrun (ESBoson d i) (repeat (GBoson false i) q) n = if N.of_nat q <=? n then Some (c, n - N.of_nat q) else None.
Proof.
  induction q as [|q IH]; intros n.
  - exists one. split; [apply one_nz|]. cbn [repeat LOpFaithful.lrun]. change (N.of_nat 0) with 0. rewrite N.sub_0_r. destruct n; reflexivity.
  - destruct (IH n) as [c [nc E]]. cbn [repeat LOpFaithful.lrun]. rewrite E.
    destruct (N.leb_spec (N.of_nat q) n) as [h|h].
    + cbn [obind LOpSite.loc]. destruct (N.eqb_spec (n - N.of_nat q) 0) as [z|z].
      * exists one. split; [apply one_nz|]. destruct (N.leb_spec (N.of_nat (Datatypes.S q)) n); [lia|reflexivity].
      * exists (c *s sq (n - N.of_nat q)). split; [apply mul_nz; auto; apply sq_nz; lia|].
        destruct (N.leb_spec (N.of_nat (Datatypes.S q)) n); [|lia]. f_equal. f_equal. lia.
    + exists one. split; [apply one_nz|]. cbn [obind]. destruct (N.leb_spec (N.of_nat (Datatypes.S q)) n); [lia|reflexivity].
Qed.
Lemma lrun_boson d (i : I) p q n : n < d -> exists c, c <> zero /\
  lrun (ESBoson d i) (bmono i p q) n =
  if (N.of_nat q <=? n) && (n - N.of_nat q + N.of_nat p <? d) then Some (c, n - N.of_nat q + N.of_nat p) else None.
Proof.
  intros hn. unfold bmono. induction p as [|p IH].
  - cbn [repeat app]. destruct (lrun_ann d i q n) as [c [nc E]]. exists c. split; auto. rewrite E.
    destruct (N.leb_spec (N.of_nat q) n); cbn [andb]; auto. destruct (N.ltb_spec (n - N.of_nat q + N.of_nat 0) d); [|lia].
    f_equal. f_equal. lia.
  - destruct IH as [c [nc E]]. cbn [repeat app LOpFaithful.lrun]. rewrite E.
    destruct (N.leb_spec (N.of_nat q) n) as [h|h]; cbn [andb].
    2: { exists one. split; [apply one_nz|reflexivity]. }
    destruct (N.ltb_spec (n - N.of_nat q + N.of_nat p) d) as [h'|h'].
    + cbn [obind LOpSite.loc es_dim]. destruct (N.ltb_spec (n - N.of_nat q + N.of_nat p + 1) d) as [h2|h2].
      * exists (c *s sq (n - N.of_nat q + N.of_nat p + 1)). split; [apply mul_nz; auto; apply sq_nz; lia|].
        destruct (N.ltb_spec (n - N.of_nat q + N.of_nat (Datatypes.S p)) d); [|lia]. f_equal. f_equal. lia.
      * exists one. split; [apply one_nz|]. destruct (N.ltb_spec (n - N.of_nat q + N.of_nat (Datatypes.S p)) d); [lia|reflexivity].
    + exists one. split; [apply one_nz|]. destruct (N.ltb_spec (n - N.of_nat q + N.of_nat (Datatypes.S p)) d); [lia|reflexivity].
Qed.

(** *** Dual functionals *)
Definition choices (e : es) (u : mono) : list (bool * N * N) :=
  match e with
  | ESSpin _ _ =>
      match u with
      | [] => match e with ESSpin 2 _ => [(false, 0, 0); (false, 1, 1)] | _ => [(false, 0, 0)] end
      | GSpin _ Plus _ :: _ => [(false, 0, 1)]
      | GSpin _ Minus _ :: _ => [(false, 1, 0)]
      | _ => [(false, 1, 1); (true, 0, 0)]
      end
  | _ => [(false, N.of_nat (npow false u), N.of_nat (npow true u))]
  end.
Definition kap (e : es) (ch : list (bool * N * N)) (u : mono) : S :=
  gsum (fun t => sign (fst (fst t)) *s lel e u (snd (fst t)) (snd t)) ch.
Definition rk (u : mono) : nat := npow false u.

Ltac ev := unfold kap, LOpFaithful.lel; cbn;
  change (0 + 1) with 1; change (1 + 1) with 2; change (1 <? 2) with true; change (2 <? 2) with false;
  change (2 - 1) with 1; change (1 - 0) with 1; change (1 - 1) with 0; change (1 * 1) with 1; cbn;
  change (1 =? 1) with true; change (0 =? 0) with true; change (1 =? 0) with false; change (0 =? 1) with false; cbn.
Ltac s1 := rewrite ?(sl_mul_1_l so L), ?(sl_mul_1_r so L), ?(mul_0_r so L), ?(mul_0_l so L), ?(sadd_0_r so L), ?(sl_add_0 so L).
Lemma choices_ok l m k e : Forall es_wf l -> adm l m -> nth_error l k = Some e ->
  Forall (fun t => snd (fst t) < es_dim e /\ snd t < es_dim e) (choices e (part e m)).
Proof.
  intros W A E. assert (Hl : In e l) by (eapply nth_error_In; eauto).
  destruct e as [i|d i|mu i].
  - destruct (part_fermion l i m A) as [-> |[-> |[-> | ->]]]; cbn; repeat constructor; cbn; lia.
  - destruct (part_boson l d i m A Hl) as [p [q [-> [hp hq]]]]. cbn [choices]. rewrite !npow_b. repeat constructor; cbn; auto.
  - rewrite Forall_forall in W. specialize (W _ Hl). cbn in W.
    destruct (part_spin l mu i m A) as [-> |[-> [c ->]]].
    + cbn [choices]. destruct mu as [|[|[|mu]]]; try lia; repeat constructor; cbn; lia.
    + destruct c; cbn; repeat constructor; cbn; lia.
Qed.
Lemma kap_self l m k e : Forall es_wf l -> adm l m -> nth_error l k = Some e ->
  kap e (choices e (part e m)) (part e m) <> zero.
Proof.
  intros W A E. assert (Hl : In e l) by (eapply nth_error_In; eauto).
  pose proof one_nz as O1. pose proof (sq_nz 1 ltac:(lia)) as O2.
  destruct e as [i|d i|mu i].
  - destruct (part_fermion l i m A) as [-> |[-> |[-> | ->]]]; ev; s1; auto.
  - destruct (part_boson l d i m A Hl) as [p [q [-> [hp hq]]]]. cbn [choices]. rewrite !npow_b. unfold kap. cbn [gsum fst snd]. s1.
    unfold LOpFaithful.lel. destruct (lrun_boson d i p q (N.of_nat q) hq) as [c [nc ->]]. rewrite N.leb_refl, N.sub_diag, N.add_0_l.
    cbn [andb]. destruct (N.ltb_spec (N.of_nat p) d); [|lia]. cbn [amp1]. now rewrite N.eqb_refl.
  - destruct (part_spin l mu i m A) as [-> |[-> [c ->]]].
    + cbn [choices]. assert (T : one +s one <> zero) by (intros Q; apply (nat_nz 2); [lia|]; cbn; rewrite (sadd_0_r so L); exact Q).
      destruct mu as [|[|[|mu]]]; ev; s1; auto.
    + destruct c; ev; s1; auto.
      rewrite half_m1. rewrite (s_mul_neg_l so L), (s_mul_neg_r so L), (s_neg_neg so L), (sl_mul_1_l so L).
      rewrite <- (ll_half_add _ _ _ LL). change (1 + 1)%Z with 2%Z. now rewrite (ll_half_2 _ _ _ LL).
Qed.
Lemma kap_other l m m' k e : Forall es_wf l -> adm l m -> adm l m' -> nth_error l k = Some e ->
  part e m' <> part e m -> (rk (part e m) <= rk (part e m'))%nat -> kap e (choices e (part e m)) (part e m') = zero.
Proof.
  intros W A A' E ne hr. assert (Hl : In e l) by (eapply nth_error_In; eauto). destruct e as [i|d i|mu i].
  - destruct (part_fermion l i m A) as [E1 |[E1 |[E1 | E1]]]; destruct (part_fermion l i m' A') as [E2 |[E2 |[E2 | E2]]];
      rewrite E1, E2 in *; try congruence; try (cbn in hr; lia); ev; s1; auto.
  - destruct (part_boson l d i m A Hl) as [p [q [E1 [hp hq]]]]. destruct (part_boson l d i m' A' Hl) as [p' [q' [E2 [hp' hq']]]].
    rewrite E1, E2 in *. unfold rk in hr. rewrite !npow_b in hr. cbn [choices]. rewrite !npow_b. unfold kap. cbn [gsum fst snd]. s1.
    unfold LOpFaithful.lel. destruct (lrun_boson d i p' q' (N.of_nat q) hq) as [c [nc ->]].
    destruct (N.leb_spec (N.of_nat q') (N.of_nat q)); cbn [andb amp1]; auto.
    destruct (N.ltb_spec (N.of_nat q - N.of_nat q' + N.of_nat p') d); cbn [amp1]; auto.
    destruct (N.eqb_spec (N.of_nat q - N.of_nat q' + N.of_nat p') (N.of_nat p)); auto.
    exfalso. apply ne. assert (q' = q) by lia. assert (p' = p) by lia. now subst.
  - destruct (part_spin l mu i m A) as [E1 |[H1 [c E1]]]; destruct (part_spin l mu i m' A') as [E2 |[H2 [c' E2]]]; rewrite E1, E2 in *; try congruence.
    + subst mu. destruct c'; ev; s1; auto. rewrite half_m1. rewrite (sl_add_comm so L). apply (sl_neg so L).
    + destruct c; ev; s1; auto. apply (sl_neg so L).
    + destruct c, c'; try congruence; ev; s1; auto.
Qed.

(** *** Products of functionals *)
Fixpoint cart (ch : es -> list (bool * N * N)) (l : list es) : list (bool * list N * list N) :=
  match l with
  | [] => [(false, [], [])]
  | e :: t => flat_map (fun a => map (fun r => (xorb (fst (fst a)) (fst (fst r)), snd (fst a) :: snd (fst r), snd a :: snd r)) (cart ch t)) (ch e)
  end.
Fixpoint prodl (f : es -> N -> N -> S) (l : list es) (xs ys : list N) : S :=
  match l, xs, ys with
  | e :: t, x :: xs', y :: ys' => f e x y *s prodl f t xs' ys'
  | _, _, _ => one
  end.
Fixpoint prode (f : es -> S) (l : list es) : S := match l with [] => one | e :: t => f e *s prode f t end.
Lemma cart_sum ch f l :
  gsum (fun r => sign (fst (fst r)) *s prodl f l (snd (fst r)) (snd r)) (cart ch l) =
  prode (fun e => gsum (fun a => sign (fst (fst a)) *s f e (snd (fst a)) (snd a)) (ch e)) l.
Proof.
  induction l as [|e t IH]; cbn [cart prode].
  - cbn. s1. reflexivity.
  - rewrite <- IH. generalize (ch e) as c. induction c as [|a c IHc]; cbn [flat_map gsum]; [now s1|].
    rewrite gsum_app, gsum_map, IHc, (sl_dist_r so L). f_equal. rewrite <- gsum_mul_l. apply gsum_ext.
    intros [[s xs] ys] _. cbn [fst snd prodl]. rewrite (sign_xor so L).
    rewrite <- !(sl_mul_assoc so L). f_equal. rewrite !(sl_mul_assoc so L). f_equal. apply MC.
Qed.
Lemma cart_In ch l s xs ys : In (s, xs, ys) (cart ch l) ->
  Forall2 (fun e p => exists s, In (s, fst p, snd p) (ch e)) l (combine xs ys) /\ length xs = length l /\ length ys = length l.
Proof.
  revert s xs ys. induction l as [|e t IH]; intros s xs ys H; cbn [cart] in H.
  - destruct H as [E|[]]. injection E as <- <- <-. repeat split; constructor.
  - apply in_flat_map in H. destruct H as [[[sa a] b] [Ha H]]. apply in_map_iff in H. destruct H as [[[s' xs'] ys'] [E H]].
    cbn in E. injection E as <- <- <-. destruct (IH _ _ _ H) as [F [l1 l2]]. cbn. repeat split; auto. constructor; auto. cbn. eauto.
Qed.
Lemma cart_digits ch l s xs ys : (forall e, In e l -> Forall (fun t => snd (fst t) < es_dim e /\ snd t < es_dim e) (ch e)) ->
  In (s, xs, ys) (cart ch l) -> digits_ok l xs /\ digits_ok l ys.
Proof.
  intros H i. apply cart_In in i. destruct i as [F [l1 l2]].
  revert xs ys F l1 l2. induction l as [|e t IH]; intros [|x xs] [|y ys] F l1 l2; try discriminate; [split; constructor|].
  cbn in F. inversion F as [|? ? ? ? h F']; subst. cbn in h. destruct h as [s0 h].
  pose proof (H e (or_introl eq_refl)) as He. rewrite Forall_forall in He. apply He in h. cbn in h.
  destruct (IH (fun e' i' => H e' (or_intror i')) xs ys F') as [d1 d2]; try (cbn in *; lia). split; constructor; tauto.
Qed.
Lemma cart_prefix ch l k s xs ys s' xs' ys' : (forall i, exists t, ch (ESFermion i) = [t]) -> Forall esf (firstn k l) ->
  In (s, xs, ys) (cart ch l) -> In (s', xs', ys') (cart ch l) -> firstn k xs = firstn k xs'.
Proof.
  intros Hf. revert k s xs ys s' xs' ys'. induction l as [|e t IH]; intros k s xs ys s' xs' ys' F H H'; cbn [cart] in H, H'.
  - destruct H as [E|[]], H' as [E'|[]]. congruence.
  - destruct k as [|k]; [reflexivity|]. cbn in F. inversion F as [|? ? fe F']; subst.
    destruct e as [i| |]; cbn in fe; try contradiction. destruct (Hf i) as [a Ea]. rewrite Ea in H, H'. cbn in H, H'.
    rewrite app_nil_r in H, H'. apply in_map_iff in H, H'.
    destruct H as [[[s1 x1] y1] [E H]], H' as [[[s2 x2] y2] [E' H']]. cbn in E, E'. injection E as <- <- <-. injection E' as <- <- <-.
    cbn. f_equal. eapply IH; eauto.
Qed.

Definition nthf (f : es -> N -> N -> S) (l : list es) (xs ys : list N) (k : nat) : S :=
  match nth_error l k, nth_error xs k, nth_error ys k with Some e, Some x, Some y => f e x y | _, _, _ => one end.
Lemma prodl_prod f l : forall xs ys, length xs = length l -> length ys = length l ->
  prodl f l xs ys = prod (nthf f l xs ys) (length l).
Proof.
  induction l as [|e t IH]; intros [|x xs] [|y ys] l1 l2; try discriminate; auto.
  cbn [prodl length LOpFaithful.prod]. cbn in l1, l2. rewrite IH by lia. reflexivity.
Qed.
Lemma prode_zero f l e : In e l -> f e = zero -> prode f l = zero.
Proof.
  intros i E. induction l as [|a l IH]; [contradiction|]. cbn. destruct i as [->|i].
  - rewrite E. apply (mul_0_l so L).
  - rewrite IH by auto. apply (mul_0_r so L).
Qed.
Lemma prode_nz f l : (forall e, In e l -> f e <> zero) -> prode f l <> zero.
Proof. induction l as [|a l IH]; cbn; intros H; [apply one_nz|]. apply mul_nz; auto. Qed.

Section OnSpace.
Context (l : list es) (S0 : StronglySorted (es_before io) l) (W : Forall es_wf l).

(** a monomial is determined by its parts *)
Lemma parts_determine m m' : adm l m -> adm l m' -> (forall e, In e l -> part e m = part e m') -> m = m'.
Proof.
  intros [C [K _]] [C' [K' _]] H.
  apply (sorted_perm io Hio); [apply C|apply C'|].
  assert (DEC : forall x y : gen I, {x = y} + {x <> y}) by apply (sto_eq_dec (gen_sto io Hio)).
  rewrite (Permutation_count_occ DEC). intros g.
  assert (CO : forall e u, carries io g e = true -> count_occ DEC (part e u) g = count_occ DEC u g).
  { intros e u c. unfold LOpFaithful.part. induction u as [|a u IH]; cbn [filter count_occ]; auto.
    destruct (DEC a g) as [->|n].
    - rewrite c. cbn [count_occ]. destruct (DEC g g); congruence.
    - destruct (carries io a e); auto. cbn [count_occ]. destruct (DEC a g); congruence. }
  assert (Z : forall u, Forall (known io l) u -> (forall e, In e l -> carries io g e = false) -> count_occ DEC u g = 0%nat).
  { intros u Ku nc. apply count_occ_not_In. intros i. rewrite Forall_forall in Ku. destruct (Ku g i) as [e [ie c]].
    rewrite nc in c by auto. discriminate. }
  destruct (site_or io l g) as [[k [e [E c]]]|nc].
  - rewrite <- (CO e m c), <- (CO e m' c). now rewrite H by (eapply nth_error_In; eauto).
  - now rewrite !Z by auto.
Qed.

(** total rank *)
Fixpoint trk (l' : list es) (m : mono) : nat := match l' with [] => 0%nat | e :: t => (rk (part e m) + trk t m)%nat end.
Lemma rank_differs l' m m' : (forall e, In e l' -> part e m = part e m' \/ (rk (part e m') < rk (part e m))%nat) ->
  (exists e, In e l' /\ part e m' <> part e m) -> (trk l' m' < trk l' m)%nat.
Proof.
  intros H [e0 [i0 n0]].
  assert (LE : forall l'', (forall e, In e l'' -> In e l') -> (trk l'' m' <= trk l'' m)%nat).
  { induction l'' as [|a l'' IH]; intros Hs; cbn; auto.
    assert (trk l'' m' <= trk l'' m)%nat by (apply IH; intros; apply Hs; now right).
    destruct (H a (Hs a (or_introl eq_refl))) as [->|]; lia. }
  induction l' as [|a l' IH]; [contradiction|]. cbn.
  assert (LE' : (trk l' m' <= trk l' m)%nat) by (apply LE; intros; now right).
  destruct i0 as [->|i0].
  - destruct (H e0 (or_introl eq_refl)) as [E|]; [congruence|lia].
  - assert (trk l' m' < trk l' m)%nat.
    { apply IH; auto.
      - intros e i. apply H. now right.
      - intros l'' Hs. apply LE. intros e i. right. auto. }
    destruct (H a (or_introl eq_refl)) as [->|]; lia.
Qed.

Definition Lam (ch : es -> list (bool * N * N)) (F : N -> N -> S) : S :=
  gsum (fun r => sign (fst (fst r)) *s F (enc l (snd r)) (enc l (snd (fst r)))) (cart ch l).

Lemma Lam_mel ch e : Lam ch (mel l e) = gsum (fun t => snd t *s Lam ch (fun y x => amp1 so (mact l (fst t) x) y)) e.
Proof.
  induction e as [|[m c] e IH]; cbn [gsum LOpSpec.mel].
  - unfold Lam. cbn [LOpSpec.mel]. apply gsum_zero. intros r _. apply (mul_0_r so L).
  - rewrite <- IH. unfold Lam. cbn [fst snd LOpSpec.mel]. rewrite <- gsum_mul_l, <- gsum_add. apply gsum_ext. intros r _.
    rewrite (sl_dist_l so L). f_equal. rewrite !(sl_mul_assoc so L). f_equal. apply MC.
Qed.
Lemma Lam_mono ch m' : (forall i, exists t, ch (ESFermion i) = [t]) ->
  (forall e, In e l -> Forall (fun t => snd (fst t) < es_dim e /\ snd t < es_dim e) (ch e)) -> adm l m' ->
  exists s, Lam ch (fun y x => amp1 so (mact l m' x) y) = sign s *s prode (fun e => kap e (ch e) (part e m')) l.
Proof.
  intros Hf Hd A. pose proof A as [_ [KN _]].
  destruct (cart ch l) as [|[[s0 x0] y0] rest] eqn:EC.
  - exists false. unfold Lam. rewrite EC. cbn [gsum]. unfold kap. rewrite <- (cart_sum ch (fun e a b => lel e (part e m') a b) l), EC.
    cbn [gsum]. symmetry. apply (mul_0_r so L).
  - exists (sg io l m' (enc l x0)). unfold kap. rewrite <- (cart_sum ch (fun e a b => lel e (part e m') a b) l), <- gsum_mul_l. unfold Lam.
    assert (I0 : In (s0, x0, y0) (cart ch l)) by (rewrite EC; now left).
    apply gsum_ext. intros [[s xs] ys] i. cbn [fst snd].
    destruct (cart_digits ch l s xs ys Hd i) as [dx dy]. destruct (cart_digits ch l s0 x0 y0 Hd I0) as [d0 _].
    destruct (cart_In _ _ _ _ _ i) as [_ [l1 l2]].
    rewrite (factorise io Hio so L MC sq half l S0 W m' (enc l xs) (enc l ys) KN) with
      (f := nthf (fun e a b => lel e (part e m') a b) l xs ys).
    + rewrite <- prodl_prod by auto.
      rewrite (sg_agree io Hio l S0 m' (enc l xs) (enc l x0) KN).
      * rewrite !(sl_mul_assoc so L). f_equal. apply MC.
      * intros k j b E hb. rewrite (enc_low l xs W dx k b hb), (enc_low l x0 W d0 k b hb).
        rewrite (cart_prefix ch l k s xs ys s0 x0 y0 Hf (fermions_first io l S0 k j E) i I0). reflexivity.
    + apply (validr_iff l W). now apply enc_valid.
    + apply (validr_iff l W). now apply enc_valid.
    + intros k e E. unfold nthf. rewrite E.
      assert (hk : (k < length l)%nat) by (apply nth_error_Some; congruence).
      destruct (nth_error xs k) as [a|] eqn:Ea; [|apply nth_error_None in Ea; lia].
      destruct (nth_error ys k) as [b|] eqn:Eb; [|apply nth_error_None in Eb; lia].
      rewrite (enc_fld l xs W dx k e a E Ea), (enc_fld l ys W dy k e b E Eb). reflexivity.
Qed.

Theorem mel_independent (e : list (mono * S)) : NoDup (map fst e) -> (forall m c, In (m, c) e -> adm l m /\ c <> zero) ->
  (forall x y, valid_state l x -> valid_state l y -> mel l e y x = zero) -> e = [].
Proof.
  intros ND A Z. destruct e as [|t0 e0]; auto. exfalso. set (e := t0 :: e0) in *.
  (* a term of minimal rank *)
  assert (exists t, In t e /\ forall t', In t' e -> (trk l (fst t) <= trk l (fst t'))%nat) as [[m c] [Im Mi]].
  { clear. subst e. revert t0. induction e0 as [|t1 e IH]; intros t0.
    - exists t0. split; [now left|]. intros t' [<-|[]]. auto.
    - destruct (IH t1) as [t [i H]]. destruct (Nat.le_gt_cases (trk l (fst t0)) (trk l (fst t))).
      + exists t0. split; [now left|]. intros t' [<-|i']; auto. apply H in i'. lia.
      + exists t. split; [now right|]. intros t' [<-|i']; [lia|auto]. }
  destruct (A m c Im) as [Am nc]. set (ch := fun es0 => choices es0 (part es0 m)).
  assert (Hf : forall i, exists t, ch (ESFermion i) = [t]) by (intros i; eexists; reflexivity).
  assert (Hd : forall es0, In es0 l -> Forall (fun t => snd (fst t) < es_dim es0 /\ snd t < es_dim es0) (ch es0)).
  { intros es0 i. apply In_nth_error in i. destruct i as [k E]. exact (choices_ok l m k es0 W Am E). }
  assert (LZ : Lam ch (mel l e) = zero).
  { unfold Lam. apply gsum_zero. intros [[s xs] ys] i. cbn [fst snd]. destruct (cart_digits ch l s xs ys Hd i) as [dx dy].
    rewrite Z; [apply (mul_0_r so L)| |]; apply (validr_iff l W); now apply enc_valid. }
  rewrite Lam_mel in LZ.
  assert (OT : forall t, In t e -> fst t <> m -> Lam ch (fun y x => amp1 so (mact l (fst t) x) y) = zero).
  { intros [m' c'] i' ne. cbn [fst] in *. destruct (A m' c' i') as [Am' _].
    destruct (Lam_mono ch m' Hf Hd Am') as [s ->].
    assert (exists e1, In e1 l /\ part e1 m' <> part e1 m /\ (rk (part e1 m) <= rk (part e1 m'))%nat) as [e1 [i1 [n1 r1]]].
    { assert (PD : forall u v : mono, {u = v} + {u <> v}) by (apply (list_eq_dec (sto_eq_dec (gen_sto io Hio)))).
      assert (Q : forall l', (exists e1, In e1 l' /\ part e1 m' <> part e1 m /\ (rk (part e1 m) <= rk (part e1 m'))%nat) \/
        (forall e1, In e1 l' -> part e1 m = part e1 m' \/ (rk (part e1 m') < rk (part e1 m))%nat)).
      { induction l' as [|a l' [IH|IH]]; [right; intros ? []| |].
        - left. destruct IH as [e1 [i1 H1]]. exists e1. split; [now right|auto].
        - destruct (PD (part a m) (part a m')) as [E|E].
          + right. intros e1 [<-|i1]; auto.
          + destruct (Nat.le_gt_cases (rk (part a m)) (rk (part a m'))).
            * left. exists a. split; [now left|]. split; auto.
            * right. intros e1 [<-|i1]; auto. }
      destruct (Q l) as [H|H]; auto. exfalso.
      assert (trk l m' < trk l m)%nat.
      { apply rank_differs; auto.
        assert (Q2 : forall l', (exists e1, In e1 l' /\ part e1 m' <> part e1 m) \/ (forall e1, In e1 l' -> part e1 m' = part e1 m)).
        { induction l' as [|a l' [IH|IH]]; [right; intros ? []| |].
          - left. destruct IH as [e1 [i1 H1]]. exists e1. split; [now right|auto].
          - destruct (PD (part a m') (part a m)) as [E|E]; [|left; exists a; split; [now left|auto]].
            right. intros e1 [<-|i1]; auto. }
        destruct (Q2 l) as [H2|H2]; auto. exfalso. apply ne. apply parts_determine; auto. }
      specialize (Mi _ i'). cbn [fst] in Mi. lia. }
    rewrite (prode_zero _ l e1 i1); [apply (mul_0_r so L)|].
    apply In_nth_error in i1. destruct i1 as [k E]. exact (kap_other l m m' k e1 W Am Am' E n1 r1). }
  destruct (Lam_mono ch m Hf Hd Am) as [s Em].
  assert (NZ : Lam ch (fun y x => amp1 so (mact l m x) y) <> zero).
  { rewrite Em. apply mul_nz; [apply sign_nz|]. apply prode_nz. intros es0 i. apply In_nth_error in i. destruct i as [k E].
    exact (kap_self l m k es0 W Am E). }
  assert (SUM : gsum (fun t => snd t *s Lam ch (fun y x => amp1 so (mact l (fst t) x) y)) e = c *s Lam ch (fun y x => amp1 so (mact l m x) y)).
  { clear LZ Z A Mi Em. clearbody e. revert Im ND OT. clear -L. induction e as [|t e IH]; intros Im ND OT; [contradiction|].
    cbn [gsum]. cbn [map] in ND. inversion ND as [|? ? ni ND']; subst. destruct Im as [->|Im].
    - cbn [fst snd]. rewrite gsum_zero; [apply (sadd_0_r so L)|]. intros t' i'. rewrite OT; [apply (mul_0_r so L)|now right|].
      intros E. apply ni. cbn. rewrite <- E. now apply in_map.
    - rewrite IH by (auto; intros; apply OT; auto; now right). rewrite OT; [|now left|].
      + rewrite (mul_0_r so L). apply (sl_add_0 so L).
      + intros E. apply ni. rewrite E. change m with (fst (m, c)). now apply in_map. }
  rewrite SUM in LZ. revert LZ. now apply mul_nz.
Qed.
End OnSpace.
End Indep.
