(** C67: the printed form of an expression determines the expression. *)
From Coq Require Import ZArith Bool Ascii String Lia List Decimal DecimalString DecimalZ DecimalPos DecimalFacts.
From Verif Require Import ExprModel ExprSpec ExprOrder PrintModel.
Import ListNotations.
Open Scope nat_scope.
Open Scope list_scope.
Open Scope string_scope.

Lemma app_asc (a b c : string) : (a ++ b) ++ c = a ++ b ++ c.
Proof. induction a; cbn; congruence. Qed.
Lemma app_nil (a : string) : a ++ "" = a.
Proof. induction a; cbn; congruence. Qed.

(** *** Character classes *)
Fixpoint all (P : ascii -> bool) (s : string) : Prop :=
  match s with EmptyString => True | String c s' => P c = true /\ all P s' end.
Definition stop (P : ascii -> bool) (s : string) : Prop :=
  match s with EmptyString => True | String c _ => P c = false end.
Lemma all_app P a b : all P a -> all P b -> all P (a ++ b).
Proof. induction a; cbn; intuition. Qed.
Lemma split_class P : forall u u' s t, all P u -> all P u' -> stop P s -> stop P t -> u ++ s = u' ++ t -> u = u' /\ s = t.
Proof.
  induction u as [|c u IH]; intros [|c' u'] s t h1 h2 h3 h4 e; cbn in *.
  - auto.
  - subst s. cbn in h3. destruct h2 as [h2 _]. congruence.
  - subst t. cbn in h4. destruct h1 as [h1 _]. congruence.
  - inversion e; subst. destruct (IH u' s t) as [ -> -> ]; intuition.
Qed.

Definition digit (c : ascii) : bool := let n := nat_of_ascii c in Nat.leb 48 n && Nat.leb n 57.
Lemma digits_uint d : all digit (NilEmpty.string_of_uint d).
Proof. induction d; cbn; auto. Qed.
Lemma uint_str_inj d d' : NilEmpty.string_of_uint d = NilEmpty.string_of_uint d' -> d = d'.
Proof. intros e. pose proof (NilEmpty.usu d) as K. rewrite e, NilEmpty.usu in K. congruence. Qed.

(** decimal representation of an integer: an optional minus sign and digits *)
Definition mag (z : Z) : uint := match z with Z0 => D0 Nil | Zpos p => Pos.to_uint p | Zneg p => Pos.to_uint p end.
Lemma mag_nonnil z : mag z <> Nil.
Proof.
  destruct z; cbn; [discriminate| |]; apply Unsigned.to_uint_nonnil.
Qed.
Lemma int_str_eq z : int_str z = (if Z.ltb z 0 then "-" else "") ++ NilEmpty.string_of_uint (mag z).
Proof.
  pose proof (mag_nonnil z) as N.
  assert (K : forall d, d <> Nil -> NilZero.string_of_uint d = NilEmpty.string_of_uint d) by (intros [] hd; (reflexivity || congruence)).
  destruct z; unfold int_str; cbn in *; auto; now rewrite K.
Qed.
Lemma uint_head d : d <> Nil -> exists c s, NilEmpty.string_of_uint d = String c s /\ digit c = true.
Proof. destruct d; try congruence; intros _; cbn; eauto. Qed.
Lemma mag_inj z z' : (z <? 0)%Z = (z' <? 0)%Z -> mag z = mag z' -> z = z'.
Proof.
  intros h e.
  assert (P0 : forall p, Pos.to_uint p = D0 Nil -> False).
  { intros p e0. pose proof (Unsigned.of_to p) as K. rewrite e0 in K. discriminate. }
  assert (PP : forall p q, Pos.to_uint p = Pos.to_uint q -> p = q).
  { intros p q e0. pose proof (Unsigned.of_to p) as K1. pose proof (Unsigned.of_to q) as K2. rewrite e0 in K1. congruence. }
  destruct z, z'; cbn in *; try discriminate; auto; try (exfalso; eapply P0; (eassumption || (symmetry; eassumption))); f_equal; auto.
Qed.
Lemma int_code z z' s t : stop digit s -> stop digit t -> int_str z ++ s = int_str z' ++ t -> z = z' /\ s = t.
Proof.
  intros h1 h2. rewrite !int_str_eq, !app_asc.
  destruct (uint_head (mag z) (mag_nonnil z)) as [c [r [E D]]]. destruct (uint_head (mag z') (mag_nonnil z')) as [c' [r' [E' D']]].
  assert (X : forall a b, (if Z.ltb z 0 then "-" else "") ++ a = (if Z.ltb z' 0 then "-" else "") ++ b ->
     a = NilEmpty.string_of_uint (mag z) ++ s -> b = NilEmpty.string_of_uint (mag z') ++ t -> (z <? 0)%Z = (z' <? 0)%Z /\ a = b).
  { intros a b e ea eb. rewrite E in ea. rewrite E' in eb. cbn [append] in ea, eb.
    destruct (z <? 0)%Z, (z' <? 0)%Z; cbn [append] in e.
    - split; auto. now inversion e.
    - exfalso. rewrite eb in e. injection e as e1 e2. subst c'. discriminate.
    - exfalso. rewrite ea in e. injection e as e1 e2. subst c. discriminate.
    - auto. }
  intros e. destruct (X _ _ e eq_refl eq_refl) as [X1 X2].
  destruct (split_class digit _ _ _ _ (digits_uint _) (digits_uint _) h1 h2 X2) as [X3 X4].
  split; auto. apply mag_inj; auto. now apply uint_str_inj.
Qed.
Lemma int_head z : exists c s, int_str z = String c s /\ (digit c = true \/ (c = "-"%char /\ exists d r, s = String d r /\ digit d = true)).
Proof.
  rewrite int_str_eq. destruct (uint_head (mag z) (mag_nonnil z)) as [c [r [E D]]]. rewrite E. destruct (z <? 0)%Z; cbn; eauto 10.
Qed.
Definition intch (c : ascii) : bool := digit c || Ascii.eqb c "-".
Lemma int_chars z : all intch (int_str z).
Proof.
  rewrite int_str_eq. apply all_app.
  - destruct (z <? 0)%Z; cbn; auto.
  - generalize (digits_uint (mag z)). generalize (NilEmpty.string_of_uint (mag z)). induction s as [|c s IH]; cbn; auto.
    intros [h1 h2]. split; auto. unfold intch. now rewrite h1.
Qed.

(** *** Indices *)
Definition idch (c : ascii) : bool := negb (Ascii.eqb c ",") && negb (Ascii.eqb c ")").
Lemma intch_idch c : intch c = true -> idch c = true.
Proof.
  unfold intch, idch. intros h. destruct (Ascii.eqb_spec c ","%char) as [ -> |]; [vm_compute in h; discriminate|].
  destruct (Ascii.eqb_spec c ")"%char) as [ -> |]; [vm_compute in h; discriminate|]. reflexivity.
Qed.
Lemma all_impl (P Q : ascii -> bool) s : (forall c, P c = true -> Q c = true) -> all P s -> all Q s.
Proof. intros h. induction s; cbn; intuition. Qed.
(** a string index that cannot be mistaken for something else *)
Definition plain (i : dyn_index) : Prop :=
  match i with DInt _ => True | DStr s => s <> "" /\ all idch s /\ forall z, s <> int_str z end.
Lemma index_chars i : plain i -> all idch (index_str i).
Proof. destruct i as [z|s]; cbn; [intros _; exact (all_impl _ _ _ intch_idch (int_chars z))|intuition]. Qed.
Lemma index_inj i j : plain i -> plain j -> index_str i = index_str j -> i = j.
Proof.
  destruct i as [z|s], j as [z'|s']; cbn; intros h1 h2 e.
  - f_equal. destruct (int_code z z' "" "") as [K _]; cbn; auto. now rewrite !app_nil.
  - destruct h2 as [_ [_ h2]]. exfalso. exact (h2 z (eq_sym e)).
  - destruct h1 as [_ [_ h1]]. exfalso. exact (h1 z' e).
  - now subst.
Qed.
Lemma index_nonempty i : plain i -> exists c s, index_str i = String c s /\ idch c = true.
Proof.
  intros h. pose proof (index_chars i h) as K. destruct (index_str i) as [|c s] eqn:E.
  - destruct i as [z|s]; cbn in E; [|destruct h; congruence]. destruct (int_head z) as [c [s [e _]]]. congruence.
  - exists c, s. split; auto. apply K.
Qed.
Lemma indices_code : forall l l' s t, Forall plain l -> Forall plain l' ->
  indices_str l ++ ")" ++ s = indices_str l' ++ ")" ++ t -> l = l' /\ s = t.
Proof.
  induction l as [|i l IH]; intros [|j l'] s t h1 h2 e.
  - cbn in e. inversion e. auto.
  - exfalso. inversion h2 as [|? ? hj h2']; subst. destruct (index_nonempty j hj) as [c [r [E K]]].
    cbn in e. rewrite E in e. cbn in e. inversion e; subst. discriminate.
  - exfalso. inversion h1 as [|? ? hj h2']; subst. destruct (index_nonempty i hj) as [c [r [E K]]].
    cbn in e. rewrite E in e. cbn in e. inversion e; subst. discriminate.
  - inversion h1 as [|? ? hi h1']; subst. inversion h2 as [|? ? hj h2']; subst. cbn [indices_str] in e. rewrite !app_asc in e.
    apply (split_class idch) in e; auto using index_chars.
    + destruct e as [e1 e2]. apply index_inj in e1; auto. subst j.
      destruct l as [|x l], l' as [|y l']; cbn [append] in e2; try discriminate.
      * inversion e2; subst. auto.
      * assert (e3 : indices_str (x :: l) ++ ")" ++ s = indices_str (y :: l') ++ ")" ++ t) by (injection e2 as e2; exact e2).
        destruct (IH _ _ _ h1' h2' e3) as [ -> -> ]. auto.
    + destruct l; reflexivity.
    + destruct l'; reflexivity.
Qed.

(** *** Generators *)
Lemma mult_code m m' c c' s t :
  mult_str m ++ comp_str c ++ "(" ++ s = mult_str m' ++ comp_str c' ++ "(" ++ t -> m = m' /\ c = c' /\ s = t.
Proof.
  assert (C : forall c c' s t, comp_str c ++ "(" ++ s = comp_str c' ++ "(" ++ t -> c = c' /\ s = t).
  { intros [] [] s0 t0 e; cbn in e; inversion e; auto. }
  assert (N : forall z s0 t0 c0, int_str z ++ s0 = comp_str c0 ++ "(" ++ t0 -> False).
  { intros z s0 t0 c0 e. destruct (int_head z) as [a [r [E [K|[K1 [d [r' [K2 K3]]]]]]]]; rewrite E in e; cbn in e.
    - destruct c0; cbn in e; inversion e; subst; discriminate.
    - subst. destruct c0; cbn in e; inversion e; subst; discriminate. }
  assert (SC : forall c0 r, stop digit (comp_str c0 ++ r)) by (intros [] r; reflexivity).
  unfold mult_str. destruct (Nat.eqb_spec m 2) as [->|n1], (Nat.eqb_spec m' 2) as [->|n2]; intros e.
  - cbn [append] in e. apply C in e. intuition.
  - exfalso. symmetry in e. destruct (Nat.even m'); rewrite ?app_asc in e; exact (N _ _ _ _ e).
  - exfalso. destruct (Nat.even m); rewrite ?app_asc in e; exact (N _ _ _ _ e).
  - destruct (Nat.even m) eqn:E1, (Nat.even m') eqn:E2; rewrite ?app_asc in e; apply int_code in e; try apply SC; try reflexivity;
      destruct e as [e1 e2].
    + cbn [append] in e2. inversion e2 as [e3]. apply C in e3. destruct e3 as [ -> -> ]. split; [lia|auto].
    + exfalso. destruct c'; cbn in e2; inversion e2.
    + exfalso. destruct c; cbn in e2; inversion e2.
    + apply C in e2. destruct e2 as [ -> -> ]. split; [|auto].
      assert (O : forall n, Nat.even n = false -> exists k, n = 2 * k + 1).
      { intros n h. assert (h' : Nat.odd n = true) by (unfold Nat.odd; now rewrite h). apply Nat.odd_spec in h'. exact h'. }
      destruct (O m E1) as [k -> ]. destruct (O m' E2) as [k' -> ].
      replace (Z.of_nat (2 * k + 1) - 1)%Z with (Z.of_nat k * 2)%Z in e1 by lia. replace (Z.of_nat (2 * k' + 1) - 1)%Z with (Z.of_nat k' * 2)%Z in e1 by lia.
      rewrite !Z.quot_mul in e1 by lia. lia.
Qed.
Definition plain_gen (g : gen (list dyn_index)) : Prop := Forall plain (gen_index g).
Lemma gen_code g g' s t : plain_gen g -> plain_gen g' -> gen_str g ++ s = gen_str g' ++ t -> g = g' /\ s = t.
Proof.
  destruct g as [d i|d i|m c i], g' as [d' i'|d' i'|m' c' i']; unfold plain_gen; cbn [gen_index]; intros h1 h2 e; unfold gen_str in e;
    rewrite !app_asc in e; cbn [append] in e; try (inversion e; fail); apply (f_equal (fun x => match x with String _ r => r | _ => "" end)) in e.
  - destruct d, d'; cbn [append] in e; inversion e as [e']; apply indices_code in e'; auto; destruct e' as [ -> -> ]; auto.
  - destruct d, d'; cbn [append] in e; inversion e as [e']; apply indices_code in e'; auto; destruct e' as [ -> -> ]; auto.
  - change (String "(" ?x) with ("(" ++ x) in e. apply mult_code in e. destruct e as [ -> [ -> e]]. apply indices_code in e; auto. destruct e as [ -> -> ]. auto.
Qed.
Definition genfirst (c : ascii) : bool := Ascii.eqb c "C" || Ascii.eqb c "A" || Ascii.eqb c "S" || Ascii.eqb c "[".
Lemma gen_head g : exists c s, gen_str g = String c s /\ genfirst c = true /\ c <> "["%char.
Proof. destruct g; cbn; eexists; eexists; (split; [reflexivity|split; [reflexivity|discriminate]]). Qed.

(** *** Monomials *)
Definition run_str (r : gen (list dyn_index) * nat) : string :=
  (if Nat.ltb 1 (snd r) then "[" else "") ++ gen_str (fst r) ++
  (if Nat.ltb 1 (snd r) then "]^" ++ int_str (Z.of_nat (snd r)) else "").
Fixpoint runs_str (l : list (gen (list dyn_index) * nat)) : string := match l with [] => "" | r :: l' => run_str r ++ runs_str l' end.
Definition expand (l : list (gen (list dyn_index) * nat)) : list (gen (list dyn_index)) := flat_map (fun r => repeat (fst r) (snd r)) l.
Definition okrun (r : gen (list dyn_index) * nat) : Prop := 1 <= snd r /\ plain_gen (fst r).
Lemma run_head r : exists c s, run_str r = String c s /\ genfirst c = true.
Proof.
  unfold run_str. destruct (Nat.ltb 1 (snd r)); cbn [append]; [eexists; eexists; split; reflexivity|].
  destruct (gen_head (fst r)) as [c [s [-> [K _]]]]. cbn [append]. eauto.
Qed.
Definition nostart (s : string) : Prop := stop genfirst s /\ stop digit s.
Lemma genfirst_not_digit c : genfirst c = true -> digit c = false.
Proof.
  unfold genfirst. intros h. repeat rewrite orb_true_iff in h. destruct h as [[[h|h]|h]|h]; apply Ascii.eqb_eq in h; subst; reflexivity.
Qed.
Lemma runs_stop l s : nostart s -> stop digit (runs_str l ++ s).
Proof.
  intros h. destruct l as [|r l]; [apply h|]. cbn [runs_str]. destruct (run_head r) as [c [q [-> K]]]. cbn. now apply genfirst_not_digit.
Qed.
Lemma runs_code : forall l l' s t, Forall okrun l -> Forall okrun l' -> nostart s -> nostart t ->
  runs_str l ++ s = runs_str l' ++ t -> l = l' /\ s = t.
Proof.
  assert (N : forall r l s t, nostart s -> s = runs_str (r :: l) ++ t -> False).
  { intros r l s t [h _] e. cbn [runs_str] in e. destruct (run_head r) as [c [q [E K]]]. rewrite E in e. subst s. cbn in h. congruence. }
  induction l as [|[g n] l IH]; intros [|[g' n'] l'] s t h1 h2 h3 h4 e.
  - auto.
  - exfalso. exact (N _ _ _ _ h3 e).
  - exfalso. exact (N _ _ _ _ h4 (eq_sym e)).
  - inversion h1 as [|? ? [k1 p1] h1']; subst. inversion h2 as [|? ? [k2 p2] h2']; subst. cbn [fst snd] in *.
    cbn [runs_str] in e. rewrite !app_asc in e. unfold run_str in e. cbn [fst snd] in e. rewrite !app_asc in e.
    destruct (Nat.ltb_spec 1 n) as [q1|q1], (Nat.ltb_spec 1 n') as [q2|q2]; cbn [append] in e.
    + inversion e as [e']. apply gen_code in e'; auto. destruct e' as [ -> e']. cbn [append] in e'. inversion e' as [e2].
      apply int_code in e2; try (now apply runs_stop). destruct e2 as [e2 e3].
      destruct (IH l' s t h1' h2' h3 h4 e3) as [ -> -> ]. split; auto. f_equal. f_equal. lia.
    + exfalso. destruct (gen_head g') as [c [q [E [_ K]]]]. rewrite E in e. cbn in e. inversion e; subst. congruence.
    + exfalso. destruct (gen_head g) as [c [q [E [_ K]]]]. rewrite E in e. cbn in e. inversion e; subst. congruence.
    + apply gen_code in e; auto. destruct e as [ -> e]. destruct (IH l' s t h1' h2' h3 h4 e) as [ -> -> ]. split; auto. f_equal. f_equal. lia.
Qed.

(** run lengths *)
Section Rle.
Notation go := (std_gen_ops dyn_index_ops).
Fixpoint rle (m : list (gen (list dyn_index))) (power : nat) : list (gen (list dyn_index) * nat) :=
  match m with
  | [] => []
  | g :: m' =>
      match m' with
      | [] => [(g, power)]
      | h :: _ => if negb (g_eq go h g) then (g, power) :: rle m' 1 else rle m' (power + 1)
      end
  end.
Lemma rle_cons2 g h m p : rle (g :: h :: m) p = if negb (g_eq go h g) then (g, p) :: rle (h :: m) 1 else rle (h :: m) (p + 1).
Proof. reflexivity. Qed.
Context (Ho : gen_order go).
Lemma rle_expand m : forall p, 1 <= p -> m <> [] -> expand (rle m p) = (repeat (hd (GFermion true []) m) (p - 1) ++ m)%list.
Proof.
  induction m as [|g m IH]; intros p hp hm; [congruence|]. destruct m as [|h m]; [|rewrite rle_cons2]; cbn [hd].
  - unfold expand. cbn [rle]. cbn [flat_map fst snd]. rewrite List.app_nil_r. replace p with (p - 1 + 1) at 1 by lia. now rewrite repeat_app.
  - destruct (negb (g_eq go h g)) eqn:E.
    + change (expand ((g, p) :: rle (h :: m) 1)) with (repeat g p ++ expand (rle (h :: m) 1))%list.
      rewrite (IH 1) by (auto; discriminate). cbn [Nat.sub repeat app].
      replace p with (p - 1 + 1) at 1 by lia. rewrite repeat_app, <- List.app_assoc. reflexivity.
    + apply negb_false_iff in E. apply (sto_eq _ _ _ Ho) in E. subst h. rewrite (IH (p + 1)) by (try discriminate; lia). cbn [hd].
      replace (p + 1 - 1) with (p - 1 + 1) by lia. rewrite repeat_app, <- List.app_assoc. reflexivity.
Qed.
Lemma rle_inj m m' : rle m 1 = rle m' 1 -> m = m'.
Proof.
  assert (K : forall m, expand (rle m 1) = m).
  { intros [|g l]; [reflexivity|]. rewrite rle_expand by (auto; discriminate). reflexivity. }
  intros e. now rewrite <- (K m), <- (K m'), e.
Qed.
Lemma rle_ok m : Forall plain_gen m -> forall p, 1 <= p -> Forall okrun (rle m p).
Proof.
  induction m as [|g m IH]; intros h p hp; [constructor|]. inversion h as [|? ? h1 h2]; subst. destruct m as [|k m]; [|rewrite rle_cons2].
  - cbn [rle]. repeat constructor; auto.
  - destruct (negb (g_eq go k g)); [constructor; [split; auto|]|]; apply IH; auto. lia.
Qed.
Lemma mono_loop_rle m : forall q p it power os, m = (p ++ q)%list -> it = length p ->
  mono_loop go gen_str m (length q) it (it + 1) power os = (os ++ runs_str (rle q power), length m + 1).
Proof.
  induction q as [|g q IH]; intros p it power os -> ->.
  - cbn. now rewrite app_nil, List.app_nil_r.
  - cbn [length mono_loop]. rewrite nth_error_app2, Nat.sub_diag by lia. cbn [nth_error].
    rewrite nth_error_app2 by lia. replace (length p + 1 - length p) with 1 by lia. cbn [nth_error].
    assert (E : (p ++ g :: q = (p ++ [g]) ++ q)%list) by (rewrite <- List.app_assoc; reflexivity).
    destruct q as [|h q].
    + cbn [nth_error]. rewrite (IH (p ++ [g])%list) by (auto; rewrite List.app_length; cbn; lia). cbn [rle runs_str]. rewrite !app_nil. f_equal.
    + cbn [nth_error]. rewrite rle_cons2. destruct (negb (g_eq go h g)).
      * rewrite (IH (p ++ [g])%list) by (auto; rewrite List.app_length; cbn; lia). cbn [runs_str]. f_equal. unfold run_str. cbn [fst snd]. rewrite !app_asc. reflexivity.
      * rewrite (IH (p ++ [g])%list) by (auto; rewrite List.app_length; cbn; lia). reflexivity.
Qed.
Lemma mono_print_rle m : mono_print go gen_str m = (runs_str (rle m 1), length m + 1).
Proof. unfold mono_print. exact (mono_loop_rle m m [] 0 1 "" eq_refl eq_refl). Qed.
Lemma mono_code m m' s t : Forall plain_gen m -> Forall plain_gen m' -> nostart s -> nostart t ->
  mono_str go gen_str m ++ s = mono_str go gen_str m' ++ t -> m = m' /\ s = t.
Proof.
  unfold mono_str. rewrite !mono_print_rle. cbn [fst]. intros h1 h2 h3 h4 e.
  apply runs_code in e; auto using rle_ok. destruct e as [e1 e2]. split; auto. now apply rle_inj.
Qed.

(** *** Expressions *)
Notation texpr := (list (list (gen (list dyn_index)) * Z)).
Lemma terms_stop (e : texpr) : nostart (terms_str go gen_str e true).
Proof. destruct e as [|[m c] e]; split; reflexivity. Qed.
Definition plain_expr (e : texpr) : Prop := forall m c, In (m, c) e -> Forall plain_gen m.
Lemma terms_code : forall (e e' : texpr) b, plain_expr e -> plain_expr e' ->
  (b = true \/ (e <> [] /\ e' <> [])) ->
  terms_str go gen_str e b = terms_str go gen_str e' b -> e = e'.
Proof.
  induction e as [|[m c] e IH]; intros [|[m' c'] e'] b h1 h2 hb E.
  - auto.
  - destruct hb as [ -> |[[] _]]; auto. cbn in E. discriminate.
  - destruct hb as [ -> |[_ []]]; auto. cbn in E. discriminate.
  - cbn [terms_str] in E.
    assert (E1 : int_str c ++ (match m with [] => "" | _ => "*" end) ++ mono_str go gen_str m ++ terms_str go gen_str e true =
                 int_str c' ++ (match m' with [] => "" | _ => "*" end) ++ mono_str go gen_str m' ++ terms_str go gen_str e' true).
    { destruct b; cbn [append] in E; [inversion E|]; auto. }
    assert (ST : forall (m : list (gen (list dyn_index))) e, stop digit ((match m with [] => "" | _ => "*" end) ++ mono_str go gen_str m ++ terms_str go gen_str e true)).
    { intros [|g l] f; [|reflexivity]. unfold mono_str. rewrite mono_print_rle. cbn [append fst rle runs_str]. apply terms_stop. }
    apply int_code in E1; try apply ST. destruct E1 as [ -> E1].
    assert (p1 : Forall plain_gen m) by (eapply h1; left; reflexivity). assert (p2 : Forall plain_gen m') by (eapply h2; left; reflexivity).
    assert (E2 : mono_str go gen_str m ++ terms_str go gen_str e true = mono_str go gen_str m' ++ terms_str go gen_str e' true).
    { assert (NS : forall (e : texpr) x, terms_str go gen_str e true = String "*" x -> False) by (intros [|[? ?] ?] x q; cbn in q; discriminate).
      destruct m as [|g m], m' as [|g' m']; auto.
      - exfalso. cbn [append] in E1. exact (NS _ _ E1).
      - exfalso. cbn [append] in E1. symmetry in E1. exact (NS _ _ E1).
      - cbn [append] in E1. inversion E1. auto. }
    apply mono_code in E2; auto using terms_stop. destruct E2 as [ -> E2]. f_equal.
    apply (IH e' true); auto; intros n d i; [eapply h1|eapply h2]; right; eauto.
Qed.
Lemma expr_inj (e e' : texpr) : plain_expr e -> plain_expr e' ->
  (forall m c, In (m, c) e -> c <> 0%Z) -> (forall m c, In (m, c) e' -> c <> 0%Z) ->
  expr_str go gen_str e = expr_str go gen_str e' -> e = e'.
Proof.
  intros h1 h2 n1 n2 E.
  assert (Z0 : forall m c (f : texpr), c <> 0%Z -> int_str 0 = terms_str go gen_str ((m, c) :: f) false -> False).
  { intros m c f hc q. cbn [terms_str append] in q. rewrite <- (app_nil (int_str 0)) in q. apply int_code in q; [|reflexivity|].
    - destruct q; congruence.
    - destruct m as [|g l]; [|reflexivity]. unfold mono_str. rewrite mono_print_rle. cbn [append fst rle runs_str]. apply terms_stop. }
  destruct e as [|[m c] e], e' as [|[m' c'] e']; auto; unfold expr_str in E.
  - exfalso. eapply Z0; [|exact E]. eapply n2. left; reflexivity.
  - exfalso. symmetry in E. eapply Z0; [|exact E]. eapply n1. left; reflexivity.
  - apply (terms_code _ _ false); auto. right. split; discriminate.
Qed.
End Rle.
