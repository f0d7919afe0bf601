(** Lemmas for C60: the maps of expressions with a zero test that is not exact. *)
From Coq Require Import ZArith Bool Lia QArith Qcanon List Sorted.
From Verif Require Import ExprModel ExprSpec ExprOrder ExprMap ExprEval TolModel TolSpec.
Import ListNotations.
Close Scope Qc_scope.
Close Scope Q_scope.
Open Scope nat_scope.
Open Scope list_scope.

Section Find.
Context {G S : Type} (go : gen_ops G) (so : scalar_ops S).
Lemma find_ins (Ho : gen_order go) (k : @mono G) (c : S) (e : @emap G S) (m : @mono G) : msorted go e ->
  map_find go m (add_entry go so (k, c) e) =
  if mono_dec go Ho m k then merged so (s_add so) (fun x => x) (map_find go k e) (Some c) else map_find go m e.
Proof.
  pose proof (mono_sto go Ho) as Hm.
  induction e as [|[x v] t IH]; intros hs.
  - rewrite ins_nil. simpl. destruct (mono_dec go Ho m k) as [->|n].
    + rewrite (sto_irrefl _ _ _ Hm). reflexivity.
    + destruct (mono_lt go k m) eqn:E1; auto. destruct (mono_lt go m k) eqn:E2; auto.
      exfalso; apply n. eapply (sto_eq_of Hm); eauto.
  - pose proof (msorted_inv go _ _ _ hs) as [h1 h2]. rewrite ins_cons.
    destruct (mono_lt go x k) eqn:E1.
    + cbn [map_find]. rewrite E1. rewrite (IH h1). destruct (mono_dec go Ho m k) as [->|n]; auto.
      now rewrite E1.
    + destruct (mono_lt go k x) eqn:E2.
      * cbn [map_find]. rewrite E1, E2. destruct (mono_dec go Ho m k) as [->|n].
        -- rewrite (sto_irrefl _ _ _ Hm). reflexivity.
        -- destruct (mono_lt go k m) eqn:E3; auto.
           destruct (mono_lt go m k) eqn:E4.
           { assert (mono_lt go m x = true) by (eapply (sto_trans _ _ _ Hm); eauto).
             rewrite (sto_asym Hm _ _ H). now rewrite H. }
           exfalso; apply n. eapply (sto_eq_of Hm); eauto.
      * assert (x = k) by (eapply (sto_eq_of Hm); eauto). subst x.
        cbn [map_find]. rewrite E1. cbn [merged].
        destruct (s_is_zero so (s_add so v c)) eqn:Z.
        -- destruct (mono_dec go Ho m k) as [->|n].
           ++ apply (find_None go Ho); auto. intros w i. apply h2 in i. congruence.
           ++ destruct (mono_lt go k m) eqn:E3; auto.
              destruct (mono_lt go m k) eqn:E4.
              { apply (find_None go Ho); auto. intros w i. apply h2 in i. congruence. }
              exfalso; apply n. eapply (sto_eq_of Hm); eauto.
        -- cbn [map_find]. destruct (mono_dec go Ho m k) as [->|n]; [now rewrite E1|].
           destruct (mono_lt go k m) eqn:E3; auto. destruct (mono_lt go m k) eqn:E4; auto.
           exfalso; apply n. eapply (sto_eq_of Hm); eauto.
Qed.
End Find.

Lemma drops_mono a b : a <= b -> drops a <= drops b.
Proof.
  induction 1 as [|b h IH]; auto. cbn [drops].
  assert (drops b <= 1 + (Datatypes.S b * Datatypes.S b) * (2 * drops b)); [|lia].
  assert (drops b <= (Datatypes.S b * Datatypes.S b) * (2 * drops b)); [|lia].
  assert (1 <= Datatypes.S b * Datatypes.S b) by (simpl; lia).
  assert (1 * drops b <= (Datatypes.S b * Datatypes.S b) * (2 * drops b)); [|lia].
  apply Nat.mul_le_mono; lia.
Qed.

Section Near.
Context {G S : Type} (go : gen_ops G) (Ho : gen_order go) (FT : few_terms go).
Context (so : scalar_ops S) (L : scalar_laws so) (z : S -> bool) (hz0 : z (s_zero so) = true).
Context (P : nat -> S -> Prop).
Context (P0 : P 0 (s_zero so)).
Context (Padd : forall a b x y, P a x -> P b y -> P (a + b) (s_add so x y)).
Context (Pmono : forall a b x, a <= b -> P a x -> P b x).
Context (Pneg : forall a x, P a x -> P a (s_neg so x)).
Context (Pz : forall x, z x = true -> P 1 x).
Notation so' := (with_zero_test so z).
Notation cf := (coef go so).
Notation emp := (list (@mono G * S)).
Notation srt := (msorted go).

Definition off (n : nat) (t t0 : emp) : Prop := forall k, P n (s_sub so (cf t k) (cf t0 k)).
Definition near (B : nat) (F0 F : S -> emp -> res emp) : Prop :=
  forall c n t0 t t0', srt t0 -> srt t -> off n t t0 -> F0 c t0 = Ok t0' ->
  srt t0' /\ exists t', F c t = Ok t' /\ srt t' /\ off (n + B) t' t0'.

Lemma off_mono a b t t0 : a <= b -> off a t t0 -> off b t t0.
Proof. intros h o k. eapply Pmono; eauto. Qed.
Lemma near_mono A B F0 F : A <= B -> near A F0 F -> near B F0 F.
Proof.
  intros h K c n t0 t t0' h0 h1 o E. destruct (K c n t0 t t0' h0 h1 o E) as [q [t' [E' [q' o']]]].
  split; auto. exists t'. split; [|split]; auto. eapply off_mono; [|exact o']. lia.
Qed.
Lemma near_bind A B F0 F H0 H : near A F0 F -> near B H0 H ->
  near (A + B) (fun c t => rbind (F0 c t) (H0 c)) (fun c t => rbind (F c t) (H c)).
Proof.
  intros K1 K2 c n t0 t t0' h0 h1 o E. destruct (F0 c t0) as [t1| |] eqn:E1; try discriminate.
  simpl in E. destruct (K1 c n t0 t t1 h0 h1 o E1) as [q [t2 [E' [q' o']]]].
  destruct (K2 c (n + A) t1 t2 t0' q q' o' E) as [q3 [t3 [E3 [q3' o3]]]].
  split; auto. exists t3. rewrite E'. simpl. split; auto. split; auto.
  now rewrite Nat.add_assoc.
Qed.
Lemma near_ok : near 0 (fun _ t => Ok t) (fun _ t => Ok t).
Proof.
  intros c n t0 t t0' h0 h1 o E. injection E as <-. split; auto. exists t. split; auto. split; auto.
  eapply off_mono; [|exact o]. lia.
Qed.
Lemma near_fail B F0 F : (forall c t t', F0 c t <> Ok t') -> near B F0 F.
Proof. intros h c n t0 t t0' h0 h1 o E. exfalso. eapply h; eauto. Qed.
Lemma near_mul B F0 F x : near B F0 F -> near B (fun c t => F0 (s_mul so c x) t) (fun c t => F (s_mul so c x) t).
Proof. intros K c. exact (K (s_mul so c x)). Qed.

Lemma sub_add_both a b x : s_sub so (s_add so a x) (s_add so b x) = s_sub so a b.
Proof.
  rewrite !(sl_sub _ L), (s_neg_add so L), (sl_add_comm _ L (s_neg so b)).
  rewrite (sl_add_assoc _ L (s_add so a x)), <- (sl_add_assoc _ L a x), (sl_neg _ L), (s_add_0_r so L).
  reflexivity.
Qed.

Lemma near_store m : near 1 (fun c t => Ok (store_monomial go so m c t))
                            (fun c t => Ok (store_monomial go so' m c t)).
Proof.
  intros c n t0 t t0' h0 h1 o E. injection E as <-. rewrite !store_is_ins.
  split; [now apply ins_sorted|]. eexists; split; [reflexivity|]. split; [now apply (ins_sorted go Ho so')|].
  intros k. rewrite (coef_ins go Ho so L) by auto.
  assert (X : cf (add_entry go so' (m, c) t) k =
    match (if mono_dec go Ho k m then merged so' (s_add so') (fun x => x) (map_find go m t) (Some c) else map_find go k t)
    with Some v => v | None => s_zero so end).
  { rewrite <- (find_ins go so' Ho m c t k h1). reflexivity. }
  rewrite X. destruct (mono_dec go Ho k m) as [->|n1].
  - unfold off in o. specialize (o m). unfold coef at 1 in o.
    destruct (map_find go m t) as [v|]; cbn [merged].
    + change (s_add so' v c) with (s_add so v c). change (s_is_zero so') with z.
      destruct (z (s_add so v c)) eqn:Z.
      * (* dropped: 0 - (x0 + c) = (v - x0) - (v + c) *)
        replace (s_sub so (s_zero so) (s_add so (cf t0 m) c)) with
          (s_add so (s_sub so v (cf t0 m)) (s_neg so (s_add so v c))).
        { apply Padd; auto. }
        rewrite <- (sub_add_both v (cf t0 m) c).
        rewrite !(sl_sub _ L), (sl_add_0 _ L).
        rewrite (sl_add_comm _ L (s_add so v c)), <- (sl_add_assoc _ L), (sl_neg _ L). apply (s_add_0_r so L).
      * rewrite sub_add_both. eapply Pmono; [|exact o]. lia.
    + replace (s_sub so c (s_add so (cf t0 m) c)) with (s_sub so (s_zero so) (cf t0 m)).
      { eapply Pmono; [|exact o]. lia. }
      rewrite <- (sub_add_both (s_zero so) (cf t0 m) c). now rewrite (sl_add_0 _ L).
  - eapply Pmono; [|apply o]. lia.
Qed.

Notation recT := (@mono G -> S -> emp -> res emp).
Definition rec_near (N B : nat) (r0 r : recT) : Prop := forall m, length m <= N -> near B (r0 m) (r m).

Lemma process_terms_near N B r0 r pre post ts : rec_near N B r0 r -> length pre + 1 + length post <= N ->
  near (length ts * B) (fun c t => process_terms so r0 pre post c ts t)
                       (fun c t => process_terms so' r pre post c ts t).
Proof.
  intros Hr HN. induction ts as [|[g v] ts IH]; simpl.
  - apply near_ok.
  - destruct (s_make so v) as [x|]; [|apply near_fail; discriminate].
    apply (near_bind B (length ts * B) (fun c t => r0 (pre ++ g :: post) (s_mul so c x) t)
             (fun c t => r (pre ++ g :: post) (s_mul so c x) t)
             (fun c => process_terms so r0 pre post c ts) (fun c => process_terms so' r pre post c ts)); auto.
    apply near_mul. apply Hr. rewrite app_length. simpl. lia.
Qed.
Lemma process_f_near N B r0 r pre post f : rec_near N B r0 r -> length pre + 1 + length post <= N ->
  length (terms f) <= 1 ->
  near (2 * B) (fun c t => process_f so r0 pre post c f t) (fun c t => process_f so' r pre post c f t).
Proof.
  intros Hr HN Hf. unfold process_f.
  apply near_mono with (A := B + length (terms f) * B).
  { destruct (terms f) as [|? [|? ?]]; simpl in *; lia. }
  apply (near_bind B (length (terms f) * B)
    (fun c t => if vn_is_zero (const_term f) then Ok t else
       match s_make so (const_term f) with None => Throw | Some x => r0 (pre ++ post) (s_mul so c x) t end)
    (fun c t => if vn_is_zero (const_term f) then Ok t else
       match s_make so (const_term f) with None => Throw | Some x => r (pre ++ post) (s_mul so c x) t end)
    (fun c => process_terms so r0 pre post c (terms f)) (fun c => process_terms so' r pre post c (terms f))).
  - destruct (vn_is_zero (const_term f)).
    + eapply near_mono; [|apply near_ok]. lia.
    + destruct (s_make so (const_term f)) as [x|]; [|apply near_fail; discriminate].
      apply near_mul. apply Hr. rewrite app_length. lia.
  - exact (process_terms_near N B r0 r pre post (terms f) Hr HN).
Qed.

(** loops over a monomial of length [len] *)
Definition loop_near (len B : nat) (F0 F : S -> emp -> @loop_res G S) : Prop :=
  forall c n t0 t, srt t0 -> srt t -> off n t t0 ->
  match F0 c t0 with
  | LDone m' c' sw t0' => length m' = len /\ srt t0' /\
      exists t', F c t = LDone m' c' sw t' /\ srt t' /\ off (n + B) t' t0'
  | LReturn t0' => srt t0' /\ exists t', F c t = LReturn t' /\ srt t' /\ off (n + B) t' t0'
  | _ => True
  end.

Lemma sort_pass_near N B r0 r : rec_near N B r0 r -> forall k n m sw, 1 <= n -> length m = Datatypes.S N ->
  loop_near (Datatypes.S N) (k * (2 * B)) (fun c t => sort_pass go so r0 k n m c sw t)
                           (fun c t => sort_pass go so' r k n m c sw t).
Proof.
  intros Hr. induction k as [|k IH]; intros n m sw hn hm c q t0 t h0 h1 o; cbn [sort_pass].
  - split; [exact hm|]. split; auto. exists t. split; auto. split; auto. eapply off_mono; [|exact o]. lia.
  - destruct (nth_error m (n - 1)) as [a|] eqn:Ea; auto.
    destruct (nth_error m n) as [b|] eqn:Eb; auto.
    assert (hl : n < length m) by (apply nth_error_Some; congruence).
    assert (HN : length (firstn (n - 1) m) + 1 + length (skipn (n + 1) m) <= N).
    { rewrite firstn_length, skipn_length. lia. }
    destruct (g_gt go a b).
    + destruct (g_swap go a b) as [cc f] eqn:Es.
      pose proof (process_f_near N B r0 r _ _ f Hr HN (ft_swap _ FT _ _ _ _ Es)) as K.
      destruct (process_f so r0 (firstn (n - 1) m) (skipn (n + 1) m) c f t0) as [t1| |] eqn:E1; auto.
      destruct (K c q t0 t t1 h0 h1 o E1) as [q1 [t2 [E2 [q2 o2]]]].
      rewrite E2. destruct (vn_eqb cc (VInt 0)).
      * split; auto. exists t2. split; auto. split; auto. eapply off_mono; [|exact o2]. simpl; lia.
      * change (s_make so' cc) with (s_make so cc). destruct (s_make so cc) as [x|]; auto.
        assert (hsw : length (swap_at n a b m) = Datatypes.S N) by (rewrite swap_at_length; auto).
        pose proof (IH (n + 1) (swap_at n a b m) true ltac:(lia) hsw (s_mul so c x) (q + 2 * B) t1 t2 q1 q2 o2) as K2.
        cbv beta in K2. change (s_mul so' c x) with (s_mul so c x).
        destruct (sort_pass go so r0 k (n + 1) (swap_at n a b m) (s_mul so c x) true t1) as [m' c' sw' t3|t3| |]; auto.
        -- destruct K2 as [e1 [e2 [t4 [e3 [e4 e5]]]]]. split; auto. split; auto. exists t4. split; auto. split; auto.
           eapply off_mono; [|exact e5]. simpl; lia.
        -- destruct K2 as [e2 [t4 [e3 [e4 e5]]]]. split; auto. exists t4. split; auto. split; auto.
           eapply off_mono; [|exact e5]. simpl; lia.
    + destruct (g_simplify go a b) as [f|] eqn:Es.
      * pose proof (process_f_near N B r0 r _ _ f Hr HN (ft_simplify _ FT _ _ _ Es)) as K.
        destruct (process_f so r0 (firstn (n - 1) m) (skipn (n + 1) m) c f t0) as [t1| |] eqn:E1; auto.
        destruct (K c q t0 t t1 h0 h1 o E1) as [q1 [t2 [E2 [q2 o2]]]].
        rewrite E2. split; auto. exists t2. split; auto. split; auto. eapply off_mono; [|exact o2]. simpl; lia.
      * pose proof (IH (n + 1) m sw ltac:(lia) hm c q t0 t h0 h1 o) as K2. cbv beta in K2.
        destruct (sort_pass go so r0 k (n + 1) m c sw t0) as [m' c' sw' t3|t3| |]; auto.
        -- destruct K2 as [e1 [e2 [t4 [e3 [e4 e5]]]]]. split; auto. split; auto. exists t4. split; auto. split; auto.
           eapply off_mono; [|exact e5]. simpl; lia.
        -- destruct K2 as [e2 [t4 [e3 [e4 e5]]]]. split; auto. exists t4. split; auto. split; auto.
           eapply off_mono; [|exact e5]. simpl; lia.
Qed.

Lemma sort_loop_near N B r0 r : rec_near N B r0 r -> forall n_max m, length m = Datatypes.S N ->
  loop_near (Datatypes.S N) (n_max * n_max * (2 * B)) (fun c t => sort_loop go so r0 n_max m c t)
                                 (fun c t => sort_loop go so' r n_max m c t).
Proof.
  intros Hr. induction n_max as [|n_max IH]; intros m hm c q t0 t h0 h1 o; cbn [sort_loop].
  - pose proof (sort_pass_near N B r0 r Hr 0 1 m false ltac:(lia) hm c q t0 t h0 h1 o) as K. cbv beta in K.
    cbn [sort_pass] in *. exact K.
  - pose proof (sort_pass_near N B r0 r Hr (Datatypes.S n_max) 1 m false ltac:(lia) hm c q t0 t h0 h1 o) as K. cbv beta in K.
    set (A0 := sort_pass go so r0 (Datatypes.S n_max) 1 m c false t0) in *.
    set (A1 := sort_pass go so' r (Datatypes.S n_max) 1 m c false t) in *.
    assert (BB : Datatypes.S n_max * (2 * B) + n_max * n_max * (2 * B) <= Datatypes.S n_max * Datatypes.S n_max * (2 * B)) by nia.
    assert (BC : Datatypes.S n_max * (2 * B) <= Datatypes.S n_max * Datatypes.S n_max * (2 * B)) by nia.
    destruct A0 as [m' c' [|] t3|t3| |]; auto.
    + destruct K as [e1 [e2 [t4 [e3 [e4 e5]]]]]. rewrite e3.
      pose proof (IH m' e1 c' _ t3 t4 e2 e4 e5) as K2. cbv beta in K2.
      destruct (sort_loop go so r0 n_max m' c' t3) as [m2 c2 sw2 t5|t5| |]; auto.
      * destruct K2 as [f1 [f2 [t6 [f3 [f4 f5]]]]]. split; auto. split; auto. exists t6. split; auto. split; auto.
        eapply off_mono; [|exact f5]. clear - BB. lia.
      * destruct K2 as [f2 [t6 [f3 [f4 f5]]]]. split; auto. exists t6. split; auto. split; auto.
        eapply off_mono; [|exact f5]. clear - BB. lia.
    + destruct K as [e1 [e2 [t4 [e3 [e4 e5]]]]]. split; auto. split; auto. exists t4. rewrite e3. split; auto. split; auto.
      eapply off_mono; [|exact e5]. clear - BC. lia.
    + destruct K as [e2 [t4 [e3 [e4 e5]]]]. split; auto. exists t4. rewrite e3. split; auto. split; auto.
      eapply off_mono; [|exact e5]. clear - BC. lia.
Qed.

(** reduce_powers_and_store stores the monomial or does nothing *)
Lemma reduce_scan_cases so2 nr rr : forall k it pw m,
  (forall c t, reduce_scan go so2 nr rr k it pw m c t = Ok t) \/
  (forall c t, reduce_scan go so2 nr rr k it pw m c t = Ok (store_monomial go so2 m c t)) \/
  (forall c t, reduce_scan go so2 nr rr k it pw m c t = @Bad emp).
Proof.
  induction k as [|k IH]; intros it pw m; cbn [reduce_scan]; auto.
  destruct (it + 1 =? length m); auto.
  destruct (nth_error m it) as [cur|]; auto.
  destruct (nth_error m (it + 1)) as [nx|]; auto.
  destruct (g_eq go nx cur); [|apply IH]. cbv zeta.
  destruct (if 2 <? pw + 1 then g_reduce go cur (pw + 1) else None) as [f|] eqn:E; [|apply IH].
  assert (lf_vanishing f = true) as ->; auto.
  destruct (2 <? pw + 1); [|discriminate]. eapply ft_reduce; eauto.
Qed.
Lemma reduce_scan_same nr rr nr' rr' : forall k it pw m,
  (forall c t c' t', reduce_scan go so nr rr k it pw m c t = Ok t /\ reduce_scan go so' nr' rr' k it pw m c' t' = Ok t') \/
  (forall c t c' t', reduce_scan go so nr rr k it pw m c t = Ok (store_monomial go so m c t) /\
                  reduce_scan go so' nr' rr' k it pw m c' t' = Ok (store_monomial go so' m c' t')) \/
  (forall c t, reduce_scan go so nr rr k it pw m c t = @Bad emp).
Proof.
  induction k as [|k IH]; intros it pw m; cbn [reduce_scan]; auto.
  destruct (it + 1 =? length m); auto.
  destruct (nth_error m it) as [cur|]; auto.
  destruct (nth_error m (it + 1)) as [nx|]; auto.
  destruct (g_eq go nx cur); [|apply IH]. cbv zeta.
  destruct (if 2 <? pw + 1 then g_reduce go cur (pw + 1) else None) as [f|] eqn:E; [|apply IH].
  assert (lf_vanishing f = true) as ->; auto.
  destruct (2 <? pw + 1); [|discriminate]. eapply ft_reduce; eauto.
Qed.

Lemma reduce_near fuel m : near 1 (reduce_powers_and_store go so fuel m) (reduce_powers_and_store go so' fuel m).
Proof.
  destruct fuel as [|fuel]; [apply near_fail; discriminate|].
  destruct m as [|g m]; [apply near_store|].
  destruct (reduce_scan_same (normalize_and_store go so fuel) (reduce_powers_and_store go so fuel)
    (normalize_and_store go so' fuel) (reduce_powers_and_store go so' fuel) (length (g :: m)) 0 1 (g :: m)) as [h|[h|h]].
  - intros c n t0 t t0' h0 h1 o E.
    assert (X : Ok t0' = Ok t0) by (rewrite <- E; exact (proj1 (h c t0 c t))). injection X as ->. split; auto.
    exists t. split; [exact (proj2 (h c t0 c t))|]. split; auto. eapply off_mono; [|exact o]. lia.
  - intros c n t0 t t0' h0 h1 o E.
    assert (X : Ok (store_monomial go so (g :: m) c t0) = Ok t0') by (rewrite <- E; symmetry; exact (proj1 (h c t0 c t))).
    destruct (near_store (g :: m) c n t0 t t0' h0 h1 o X) as [q1 [t' [E' K]]]. split; auto.
    exists t'. split; [|exact K]. rewrite <- E'. exact (proj2 (h c t0 c t)).
  - apply near_fail. intros c t t' E. assert (X : Ok t' = @Bad emp) by (rewrite <- E; exact (h c t)). discriminate.
Qed.
(** ... and adds at most the coefficient *)
Lemma reduce_step fuel m c t t' : srt t -> reduce_powers_and_store go so fuel m c t = Ok t' ->
  srt t' /\ forall k, cf t' k = cf t k \/ cf t' k = s_add so (cf t k) c.
Proof.
  intros ht. assert (ST : srt (store_monomial go so m c t) /\ forall k, cf (store_monomial go so m c t) k = cf t k
     \/ cf (store_monomial go so m c t) k = s_add so (cf t k) c).
  { rewrite store_is_ins. split; [now apply ins_sorted|]. intros k. rewrite (coef_ins go Ho so L) by auto.
    destruct (mono_dec go Ho k m) as [->|]; auto. }
  destruct fuel as [|fuel]; [discriminate|]. destruct m as [|g m].
  - intros E. injection E as <-. exact ST.
  - destruct (reduce_scan_cases so (normalize_and_store go so fuel) (reduce_powers_and_store go so fuel)
      (length (g :: m)) 0 1 (g :: m)) as [h|[h|h]]; intros E.
    + assert (X : Ok t' = Ok t) by (rewrite <- E; exact (h c t)). injection X as ->. split; auto.
    + assert (X : Ok t' = Ok (store_monomial go so (g :: m) c t)) by (rewrite <- E; exact (h c t)).
      injection X as ->. exact ST.
    + assert (X : Ok t' = @Bad emp) by (rewrite <- E; exact (h c t)). discriminate.
Qed.

Lemma normalize_near : forall fuel m,
  near (drops (length m)) (normalize_and_store go so fuel m) (normalize_and_store go so' fuel m).
Proof.
  induction fuel as [|fuel IH]; intros m; [apply near_fail; discriminate|].
  cbn [normalize_and_store]. destruct (2 <=? length m) eqn:E2.
  - apply Nat.leb_le in E2. destruct (length m) as [|N] eqn:EN; [lia|].
    assert (Hr : rec_near N (drops N) (normalize_and_store go so fuel) (normalize_and_store go so' fuel)).
    { intros x hx. eapply near_mono; [|apply IH]. now apply drops_mono. }
    pose proof (sort_loop_near N (drops N) _ _ Hr (Datatypes.S N - 1) m EN) as K.
    intros c n t0 t t0' h0 h1 o E. specialize (K c n t0 t h0 h1 o). cbv beta in K.
    replace (Datatypes.S N - 1) with N in * by lia.
    assert (BB : N * N * (2 * drops N) + 1 <= drops (Datatypes.S N)).
    { cbn [drops]. assert (N * N <= Datatypes.S N * Datatypes.S N) by nia.
      pose proof (Nat.mul_le_mono_r _ _ (2 * drops N) H). clear - H0. lia. }
    destruct (sort_loop go so (normalize_and_store go so fuel) N m c t0) as [m' c' sw t1|t1| |]; try discriminate.
    + destruct K as [e1 [e2 [t2 [e3 [e4 e5]]]]]. rewrite e3.
      change (s_is_zero so' c') with (z c').
      destruct (z c') eqn:Z.
      * destruct (s_is_zero so c') eqn:Z0.
        -- injection E as <-. split; auto. exists t2. split; auto. split; auto. eapply off_mono; [|exact e5].
           clear - BB. lia.
        -- destruct (reduce_step _ _ _ _ _ e2 E) as [q1 q2]. split; auto. exists t2. split; auto. split; auto.
           apply off_mono with (a := n + N * N * (2 * drops N) + 1); [clear - BB; lia|].
           intros k. destruct (q2 k) as [-> | ->].
           ++ eapply Pmono; [|apply e5]. lia.
           ++ replace (s_sub so (cf t2 k) (s_add so (cf t1 k) c')) with
                (s_add so (s_sub so (cf t2 k) (cf t1 k)) (s_neg so c')); [apply Padd; auto|].
              rewrite !(sl_sub _ L), (s_neg_add so L). now rewrite (sl_add_assoc _ L).
      * destruct (s_is_zero so c') eqn:Z0.
        { apply (sl_is_zero _ L) in Z0. subst c'. congruence. }
        destruct (reduce_near fuel m' c' _ t1 t2 t0' e2 e4 e5 E) as [q1 [t3 [E3 [q3 o3]]]].
        split; auto. exists t3. split; auto. split; auto. eapply off_mono; [|exact o3]. clear - BB. lia.
    + injection E as <-. destruct K as [e2 [t2 [e3 [e4 e5]]]]. split; auto. exists t2. rewrite e3. split; auto. split; auto.
      eapply off_mono; [|exact e5]. clear - BB. lia.
  - eapply near_mono; [|apply reduce_near]. change 1 with (drops 0). apply drops_mono. lia.
Qed.

Lemma mul_row_near (m1 : @mono G) c1 b : forall n t0 t t0', srt t0 -> srt t -> off n t t0 ->
  mul_row go so m1 c1 b t0 = Ok t0' ->
  srt t0' /\ exists t', mul_row go so' m1 c1 b t = Ok t' /\ srt t' /\ off (n + drops_row m1 b) t' t0'.
Proof.
  induction b as [|[m2 c2] b IH]; intros n t0 t t0' h0 h1 o E; cbn [mul_row drops_row] in *.
  - injection E as <-. split; auto. exists t. split; auto. split; auto. eapply off_mono; [|exact o]. lia.
  - destruct (normalize go so (m1 ++ m2) (s_mul so c1 c2) t0) as [t1| |] eqn:E1; try discriminate. simpl in E.
    destruct (normalize_near _ _ _ n t0 t t1 h0 h1 o E1) as [q1 [t2 [E2 [q2 o2]]]].
    destruct (IH _ t1 t2 t0' q1 q2 o2 E) as [q3 [t3 [E3 [q4 o3]]]].
    split; auto. exists t3. split; [|split; auto].
    + change (s_mul so' c1 c2) with (s_mul so c1 c2). unfold normalize. unfold norm_fuel in *. rewrite E2. exact E3.
    + rewrite app_length in o3. now rewrite Nat.add_assoc.
Qed.
Lemma mul_rows_near b : forall a n t0 t t0', srt t0 -> srt t -> off n t t0 ->
  mul_rows go so a b t0 = Ok t0' ->
  srt t0' /\ exists t', mul_rows go so' a b t = Ok t' /\ srt t' /\ off (n + drops_all a b) t' t0'.
Proof.
  induction a as [|[m1 c1] a IH]; intros n t0 t t0' h0 h1 o E; cbn [mul_rows drops_all] in *.
  - injection E as <-. split; auto. exists t. split; auto. split; auto. eapply off_mono; [|exact o]. lia.
  - destruct (mul_row go so m1 c1 b t0) as [t1| |] eqn:E1; try discriminate. simpl in E.
    destruct (mul_row_near m1 c1 b n t0 t t1 h0 h1 o E1) as [q1 [t2 [E2 [q2 o2]]]].
    destruct (IH _ t1 t2 t0' q1 q2 o2 E) as [q3 [t3 [E3 [q4 o3]]]].
    split; auto. exists t3. rewrite E2. split; auto. split; auto. now rewrite Nat.add_assoc.
Qed.
Lemma e_mul_near a b e0 : e_mul go so a b = Ok e0 ->
  srt e0 /\ exists e, e_mul go so' a b = Ok e /\ srt e /\ off (drops_all a b) e e0.
Proof.
  intros E. apply (mul_rows_near b a 0 [] [] e0); auto; try constructor.
  intros k. rewrite (s_sub_diag so L). exact P0.
Qed.
End Near.
