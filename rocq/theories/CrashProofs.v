(** Exceptions in the middle of operations: proofs *)
From Coq Require Import List Bool Lia Arith Sorted.
From Verif Require Import ExprModel ExprSpec ExprOrder ExprMap ExprEval ExprStd ExprCanon ExprMain
  ConvModel ConvSpec ConvProofs CrashModel.
Import ListNotations.
Open Scope nat_scope.
Open Scope list_scope.

Section Gen.
Context {G S : Type} (go : gen_ops G) (so : scalar_ops S).
Notation emap := (list (list G * S)).

Lemma add_entry_c_eq k p e :
  add_entry_c go so k p e = match k with O => (e, None) | Datatypes.S k' => (add_entry go so p e, Some k') end.
Proof. unfold add_entry_c, add_entry. destruct (map_find go (fst p) e), k; reflexivity. Qed.

Lemma add_assign_c_eq (b : emap) : forall k (a : emap),
  add_assign_c go so k a b =
  (e_add_assign go so a (firstn k b), if Nat.leb (length b) k then Some (k - length b) else None).
Proof.
  induction b as [|p b IH]; intros k a; simpl.
  - rewrite firstn_nil, Nat.sub_0_r. reflexivity.
  - rewrite add_entry_c_eq. destruct k as [|k]; [reflexivity|]. rewrite IH. simpl. reflexivity.
Qed.

Lemma sub_entry_c_spec k p e : exists n,
  (n = 0 /\ sub_entry_c go so k p e = (e, None)) \/
  (n = 1 /\ exists k', sub_entry_c go so k p e = (sub_entry go so p e, Some k')).
Proof.
  unfold sub_entry_c, sub_entry. destruct (map_find go (fst p) e).
  - destruct k as [|k]; [exists 0; auto|exists 1; right; split; auto; exists k; reflexivity].
  - destruct k as [|[|k]]; [exists 0; auto|exists 0; auto|exists 1; right; split; auto; exists k; reflexivity].
Qed.

Lemma sub_loop_c_spec (b : emap) : forall k (a : emap), exists n,
  n <= length b /\ fst (sub_loop_c go so k a b) = e_sub_assign go so a (firstn n b) /\
  (snd (sub_loop_c go so k a b) = None <-> n < length b).
Proof.
  induction b as [|p b IH]; intros k a.
  - exists 0. simpl. repeat split; auto; try discriminate; try lia.
  - cbn [sub_loop_c]. destruct (sub_entry_c_spec k p a) as [n [[-> E]|[-> [k' E]]]]; rewrite E.
    + exists 0. simpl. repeat split; auto; lia.
    + destruct (IH k' (sub_entry go so p a)) as (n & h1 & h2 & h3). exists (Datatypes.S n).
      split; [simpl; lia|]. split; [simpl; exact h2|]. rewrite h3. simpl. lia.
Qed.
(** with enough successes the loop is completed *)
Lemma sub_entry_c_two k p (e : emap) : exists k', k <= k' /\
  sub_entry_c go so (Datatypes.S (Datatypes.S k)) p e = (sub_entry go so p e, Some k').
Proof.
  unfold sub_entry_c, sub_entry. destruct (map_find go (fst p) e).
  - exists (Datatypes.S k). split; [lia|reflexivity].
  - exists k. split; [lia|reflexivity].
Qed.
Lemma sub_loop_c_total (b : emap) : forall k (a : emap), 2 * length b <= k -> snd (sub_loop_c go so k a b) <> None.
Proof.
  induction b as [|p b IH]; intros k a h; cbn [sub_loop_c]; [discriminate|].
  simpl in h. destruct k as [|[|k]]; try lia.
  destruct (sub_entry_c_two k p a) as (k' & hk & E). rewrite E. apply IH. lia.
Qed.

Lemma sub_assign_c_spec (b : emap) k (a : emap) : exists n,
  n <= length b /\ fst (sub_assign_c go so k a b) = e_sub_assign go so a (firstn n b) /\
  (snd (sub_assign_c go so k a b) <> None -> n = length b) /\
  (snd (sub_assign_c go so k a b) = None -> k <= 2 * length b).
Proof.
  unfold sub_assign_c. destruct k as [|k].
  - exists 0. simpl. repeat split; auto; try lia. congruence.
  - destruct (sub_loop_c_spec b k a) as (n & h1 & h2 & h3). exists n. repeat split; auto.
    + intros h. destruct (Nat.eq_dec n (length b)); auto. exfalso. apply h, h3. lia.
    + intros h. destruct (le_lt_dec (2 * length b) k) as [l|l]; [|lia].
      exfalso. exact (sub_loop_c_total b k a l h).
Qed.

Lemma scale_c_eq alpha (a : emap) : forall k,
  scale_c so k alpha a =
  (map (fun p => (fst p, s_mul so (snd p) alpha)) (firstn k a) ++ skipn k a,
   if Nat.leb (length a) k then Some (k - length a) else None) :> (emap * option nat).
Proof.
  induction a as [|[m x] a IH]; intros k; simpl.
  - rewrite firstn_nil, skipn_nil, Nat.sub_0_r. reflexivity.
  - destruct k as [|k]; [reflexivity|]. rewrite IH. reflexivity.
Qed.

Lemma mul_row_c_ok m c b : forall k t r k', mul_row_c go so k m c b t = Ok (r, k') ->
  mul_row go so m c b t = Ok r /\ k = k' + length b.
Proof.
  induction b as [|[m2 c2] b IH]; intros k t r k' E; simpl in E.
  - injection E as <- <-. simpl. auto.
  - destruct k as [|k]; [discriminate|]. simpl.
    destruct (normalize go so (m ++ m2) (s_mul so c c2) t); try discriminate. simpl in *.
    apply IH in E. destruct E as [E ->]. split; auto.
Qed.
Lemma mul_rows_c_ok b a : forall k t r k', mul_rows_c go so k a b t = Ok (r, k') ->
  mul_rows go so a b t = Ok r /\ k = k' + length a * length b.
Proof.
  induction a as [|[m c] a IH]; intros k t r k' E; simpl in E.
  - injection E as <- <-. simpl. auto.
  - simpl. destruct (mul_row_c go so k m c b t) as [[t' k1]| |] eqn:E1; try discriminate.
    simpl in E. apply mul_row_c_ok in E1. destruct E1 as [-> ->]. simpl.
    apply IH in E. destruct E as [E ->]. split; auto. lia.
Qed.
Lemma mul_row_c_not_bad m c b : forall k t, mul_row_c go so k m c b t <> Bad.
Proof.
  induction b as [|[m2 c2] b IH]; intros k t; simpl; [discriminate|].
  destruct k as [|k]; [discriminate|].
  pose proof (normalize_terminates go so (m ++ m2) (s_mul so c c2) t) as N.
  unfold normalize in *. destruct (normalize_and_store go so (norm_fuel (m ++ m2)) (m ++ m2) (s_mul so c c2) t);
    simpl; auto; discriminate.
Qed.
Lemma mul_rows_c_not_bad b a : forall k t, mul_rows_c go so k a b t <> Bad.
Proof.
  induction a as [|[m c] a IH]; intros k t; simpl; [discriminate|].
  pose proof (mul_row_c_not_bad m c b k t) as N.
  destruct (mul_row_c go so k m c b t) as [[t' k1]| |]; simpl; auto; discriminate.
Qed.
Lemma mul_assign_c_spec k (a b : emap) : exists o, mul_assign_c go so k a b = Some o /\
  (snd o = None -> fst o = a) /\ (snd o <> None -> e_mul go so a b = Ok (fst o)).
Proof.
  unfold mul_assign_c. pose proof (mul_rows_c_not_bad b a k []) as N.
  destruct (mul_rows_c go so k a b []) as [[r k']| |] eqn:E; [| |contradiction].
  - exists (r, Some k'). split; auto. simpl. split; [discriminate|].
    intros _. now apply mul_rows_c_ok in E.
  - exists (a, None). split; auto. simpl. split; auto. congruence.
Qed.
(** it throws only if the crash point is reached or the product itself throws *)
Lemma mul_row_c_throw m c b : forall k t, length b <= k -> mul_row_c go so k m c b t = Throw ->
  mul_row go so m c b t = Throw.
Proof.
  induction b as [|[m2 c2] b IH]; intros k t h E; simpl in *; [discriminate|].
  destruct k as [|k]; [lia|].
  destruct (normalize go so (m ++ m2) (s_mul so c c2) t); simpl in *; auto; try discriminate.
  apply (IH k); auto. lia.
Qed.
Lemma mul_rows_c_throw b a : forall k t, length a * length b <= k -> mul_rows_c go so k a b t = Throw ->
  mul_rows go so a b t = Throw.
Proof.
  induction a as [|[m c] a IH]; intros k t h E; simpl in *; [discriminate|].
  destruct (mul_row_c go so k m c b t) as [[t' k1]| |] eqn:E1; simpl in E; try discriminate.
  - apply mul_row_c_ok in E1. destruct E1 as [-> ->]. simpl. apply (IH k1); auto. lia.
  - apply mul_row_c_throw in E1; [|lia]. now rewrite E1.
Qed.

Lemma add_const_c_spec k (a : emap) x :
  (snd (add_const_c go so k a x) = None -> fst (add_const_c go so k a x) = a) /\
  (snd (add_const_c go so k a x) <> None -> fst (add_const_c go so k a x) = e_add_assign_const go so a x) /\
  (3 <= k -> snd (add_const_c go so k a x) <> None).
Proof.
  unfold add_const_c, e_add_assign_const. destruct (s_is_zero so x); [repeat split; simpl; auto; discriminate|].
  destruct (map_find go [] a); [destruct k as [|k]|destruct k as [|[|[|k]]]];
    repeat split; simpl; auto; try discriminate; try congruence; try lia.
Qed.
Lemma sub_const_c_spec k (a : emap) x :
  (snd (sub_const_c go so k a x) = None -> fst (sub_const_c go so k a x) = a) /\
  (snd (sub_const_c go so k a x) <> None -> fst (sub_const_c go so k a x) = e_sub_const go so a x) /\
  (3 <= k -> snd (sub_const_c go so k a x) <> None).
Proof.
  unfold sub_const_c, e_sub_const. destruct k as [|k]; [repeat split; simpl; auto; try congruence; lia|].
  destruct (s_is_zero so x); [repeat split; simpl; auto; discriminate|].
  destruct (map_find go [] a); [destruct k as [|k]|destruct k as [|[|k]]];
    repeat split; simpl; auto; try discriminate; try congruence; try lia.
Qed.

Lemma emplace_all_c_eq {T} (mo : mixed_ops S T) (x : list (list G * T)) : forall k (e : emap),
  emplace_all_c go mo k x e =
  (fold_left (fun e p => fst (map_emplace go (fst p) (mx_conv mo (snd p)) e)) (firstn k x) e,
   if Nat.leb (length x) k then Some (k - length x) else None).
Proof.
  induction x as [|p x IH]; intros k e; simpl.
  - rewrite firstn_nil, Nat.sub_0_r. reflexivity.
  - destruct k as [|k]; [reflexivity|]. rewrite IH. reflexivity.
Qed.

(** conj never has undefined behaviour *)
Lemma linfun_terms_not_bad ts : forall e : emap, linfun_terms go so ts e <> Bad.
Proof.
  induction ts as [|[g v] ts IH]; intros e; simpl; [discriminate|].
  destruct (s_make so v) as [x|]; [|discriminate]. destruct (s_is_zero so x); auto.
  pose proof (e_mono_terminates go so x [g]) as N. destruct (e_mono go so x [g]); simpl; auto; discriminate.
Qed.
Lemma e_linfun_not_bad f : e_linfun go so f <> Bad.
Proof.
  unfold e_linfun. destruct (vn_is_zero (const_term f)); simpl; [apply linfun_terms_not_bad|].
  destruct (s_make so (const_term f)); simpl; [apply linfun_terms_not_bad|discriminate].
Qed.
Lemma conj_mono_not_bad m : forall a : emap, conj_mono go so m a <> Bad.
Proof.
  induction m as [|g m IH]; intros a; cbn [conj_mono]; [discriminate|].
  pose proof (e_linfun_not_bad (g_conj go g)) as N.
  destruct (e_linfun go so (g_conj go g)) as [e| |]; cbn [rbind]; [|discriminate|contradiction].
  pose proof (e_mul_terminates go so a e) as N'.
  destruct (e_mul go so a e); cbn [rbind]; auto; discriminate.
Qed.
Lemma conj_loop_not_bad e : forall mc out : emap, conj_loop go so e mc out <> Bad.
Proof.
  induction e as [|[m x] e IH]; intros mc out; cbn [conj_loop]; [discriminate|].
  match goal with |- rbind ?r _ <> _ => assert (N : r <> Bad) end.
  { destruct (s_is_zero so (s_conj so x)); [discriminate|]. apply conj_mono_not_bad. }
  match goal with |- rbind ?r _ <> _ => destruct r end; cbn [rbind]; auto; discriminate.
Qed.
Lemma e_conj_not_bad e : e_conj go so e <> Bad.
Proof. apply conj_loop_not_bad. Qed.
End Gen.

(** initial parts of expressions *)
Section Std.
Context {I S : Type} (io : index_ops I) (Hio : index_order io) (so : scalar_ops S) (D : scalar_domain so).
Notation go := (std_gen_ops io).
Notation emap := (list (list (gen I) * S)).
Let L := sd_laws _ D.
Let Hgo := std_order io Hio.

Lemma sorted_firstn {A} (R : A -> A -> Prop) (l : list A) : forall n, StronglySorted R l -> StronglySorted R (firstn n l).
Proof.
  induction l as [|x l IH]; intros [|n] h; simpl; try constructor.
  - inversion h; subst; auto.
  - inversion h as [|? ? h1 h2]; subst. rewrite Forall_forall in *. intros y i. apply h2.
    rewrite <- (firstn_skipn n l). apply in_or_app. auto.
Qed.
Lemma msorted_firstn {T} n (b : list (list (gen I) * T)) : msorted go b -> msorted go (firstn n b).
Proof. unfold msorted. rewrite <- firstn_map. apply sorted_firstn. Qed.
Lemma in_firstn {A} n (l : list A) x : In x (firstn n l) -> In x l.
Proof. intros i. rewrite <- (firstn_skipn n l). apply in_or_app. auto. Qed.
Lemma canonical_firstn {T} (to : scalar_ops T) n b : canonical_expr io to b -> canonical_expr io to (firstn n b).
Proof.
  intros [h1 h2]. split.
  - rewrite <- firstn_map. now apply sorted_firstn.
  - intros m c i. apply h2. eapply in_firstn; eauto.
Qed.
Lemma inv_firstn P n (b : emap) : inv go so P b -> inv go so P (firstn n b).
Proof.
  intros [h1 [h2 h3]]. split; [now apply msorted_firstn|]. split.
  - intros m c i. eapply h2. eapply in_firstn; eauto.
  - intros m c i. eapply h3. eapply in_firstn; eauto.
Qed.

(** coefficient of a monomial in an initial part *)
Lemma nth_inj {T} (b : list (list (gen I) * T)) i j m x y : msorted go b ->
  nth_error b i = Some (m, x) -> nth_error b j = Some (m, y) -> i = j.
Proof.
  intros h hi hj. assert (N : NoDup (map fst b)).
  { unfold msorted in h. clear hi hj. induction h as [|a l h IH hd]; constructor; auto.
    intros k. rewrite Forall_forall in hd. apply hd in k. unfold klt in k.
    rewrite (sto_irrefl _ _ _ (mono_sto _ Hgo)) in k. discriminate. }
  rewrite NoDup_nth_error in N. apply N.
  - rewrite map_length. apply nth_error_Some. congruence.
  - rewrite (map_nth_error _ _ _ hi), (map_nth_error _ _ _ hj). reflexivity.
Qed.
Lemma coef_firstn (b : emap) n j m y : msorted go b -> nth_error b j = Some (m, y) ->
  coef go so (firstn n b) m = if Nat.ltb j n then y else s_zero so.
Proof.
  intros h hj. apply (coef_spec go Hgo so); [now apply msorted_firstn|].
  destruct (Nat.ltb_spec j n) as [l|l].
  - left. rewrite <- (firstn_skipn n b) in hj. rewrite nth_error_app1 in hj.
    + eapply nth_error_In; eauto.
    + assert (K : j < length b).
      { rewrite <- (firstn_skipn n b). apply nth_error_Some. congruence. }
      rewrite firstn_length. lia.
  - right. split; auto. intros c' i. apply In_nth_error in i. destruct i as [i hi].
    assert (li : i < n).
    { assert (i < length (firstn n b)) by (apply nth_error_Some; congruence). rewrite firstn_length in H. lia. }
    assert (hi' : nth_error b i = Some (m, c')).
    { rewrite <- (firstn_skipn n b). rewrite nth_error_app1; auto. apply nth_error_Some. congruence. }
    pose proof (nth_inj b i j m c' y h hi' hj). lia.
Qed.
Lemma coef_absent (b : emap) m : msorted go b -> (forall y, ~ In (m, y) b) -> coef go so b m = s_zero so.
Proof. intros h k. apply (coef_spec go Hgo so); auto. Qed.

Lemma canonical_add (a b : emap) : canonical_expr io so a -> canonical_expr io so b ->
  canonical_expr io so (e_add_assign go so a b).
Proof.
  intros Ha Hb. pose proof (canonical_wf io Hio so a Ha) as [a1 a2].
  pose proof (canonical_wf io Hio so b Hb) as [b1 b2].
  pose proof (fold_ins_sorted go Hgo so b a a1) as s1.
  pose proof (fold_ins_nonzero go so L b a a2 b2) as s2.
  split; [now apply (msorted_before io Hio)|]. intros m c i. split; [|exact (s2 _ _ i)].
  assert (E : coef go so (e_add_assign go so a b) m = c) by (apply (coef_spec go Hgo so); auto).
  rewrite (coef_add_assign go Hgo so L) in E by auto.
  destruct (map_find go m a) as [x|] eqn:Fa.
  - apply (find_In go Hgo) in Fa; auto. apply (proj2 Ha m x Fa).
  - destruct (map_find go m b) as [x|] eqn:Fb.
    + apply (find_In go Hgo) in Fb; auto. apply (proj2 Hb m x Fb).
    + exfalso. apply (s2 _ _ i). unfold coef in E. rewrite Fa, Fb in E. rewrite (sl_add_0 _ L) in E. auto.
Qed.
Lemma canonical_neg_map (b : emap) : canonical_expr io so b -> canonical_expr io so (neg_map so b).
Proof.
  intros [h1 h2]. split.
  - rewrite neg_map_keys. auto.
  - intros m c i. apply in_map_iff in i. destruct i as [[n d] [E i]]. injection E as <- <-.
    destruct (h2 _ _ i) as [k1 k2]. split; auto. simpl. intros E. apply k2.
    now apply (proj1 (s_neg_zero_iff so L _)).
Qed.
Lemma canonical_sub (a b : emap) : canonical_expr io so a -> canonical_expr io so b ->
  canonical_expr io so (e_sub_assign go so a b).
Proof.
  intros Ha Hb. rewrite (sub_assign_add go so L). apply canonical_add; auto. now apply canonical_neg_map.
Qed.
End Std.
