(** Normalization produces canonical monomials and zero-free sorted maps. *)
From Coq Require Import ZArith Bool Lia List Sorted Permutation.
From Verif Require Import ExprModel ExprSpec ExprOrder ExprMap ExprEval.
Import ListNotations.
Open Scope nat_scope.
Open Scope list_scope.

Section Canon.
Context {G S : Type} (go : gen_ops G) (Hgo : gen_order go).
Context (so : scalar_ops S) (D : scalar_domain so).
Let L := sd_laws _ D.
Context (P : G -> Prop).
Notation le := (gle go).
Notation emap := (list (list G * S)).

Definition lf_nz (f : linfun G) : Prop := Forall (fun t => vn_is_zero (snd t) = false) (terms f).

Record alg_canon : Prop := {
  ac_detect : forall a b c f, P a -> P b -> g_lt go a b = true ->
    g_simplify go a b <> None -> g_swap go b a = (c, f) -> vn_eqb c (VInt 0) = true;
  ac_swap : forall a b c f, P a -> P b -> g_gt go a b = true -> g_swap go a b = (c, f) ->
    closed P f /\ lf_nz f /\ (vn_eqb c (VInt 0) = false -> vn_is_zero c = false);
  ac_simplify : forall a b f, P a -> P b -> g_gt go a b = false ->
    g_simplify go a b = Some f -> closed P f /\ lf_nz f;
  ac_reduce : forall a n f, P a -> g_reduce go a n = Some f -> lf_vanishing f = true;
  ac_mono : forall a n n', g_reduce go a n <> None -> n <= n' -> g_reduce go a n' <> None
}.
Context (AC : alg_canon).

(** adjacent pairs that survive *)
Definition okpair (a b : G) : Prop := le a b /\ g_simplify go a b = None.

Definition run_free (m : list G) : Prop :=
  forall pre g n post, m = pre ++ repeat g n ++ post -> 2 < n -> g_reduce go g n = None.

Definition canon (m : list G) : Prop := Sorted okpair m /\ run_free m.

(** the top elements of [pre] do not simplify with [a], and [a] is on top *)
Definition topped (pre : list G) (a : G) : Prop :=
  (forall x, In x pre -> le x a) /\
  (forall x, In x pre -> (forall y, In y pre -> le y x) -> g_simplify go x a = None).

Lemma ngt_le a b : g_gt go a b = false <-> le a b.
Proof. rewrite (sto_gt _ _ _ Hgo). reflexivity. Qed.

Lemma Sorted_app_cons {A} (Q : A -> A -> Prop) (l1 : list A) : forall a l2,
  Sorted Q (l1 ++ [a]) -> Sorted Q (a :: l2) -> Sorted Q (l1 ++ a :: l2).
Proof.
  induction l1 as [|x l1 IH]; simpl; intros a l2 h1 h2; auto.
  inversion h1 as [|? ? h3 h4]; subst. constructor; [apply IH; auto|].
  destruct l1 as [|y l1]; simpl in *; inversion h4; subst; constructor; assumption.
Qed.
Lemma Sorted_snoc_last {A} (Q : A -> A -> Prop) (l : list A) : forall a b,
  Sorted Q (l ++ [a]) -> Q a b -> Sorted Q (l ++ [a; b]).
Proof. intros a b h1 h2. apply Sorted_app_cons; auto; repeat constructor; auto. Qed.

Lemma sort_pass_canon rec : forall k pre a rest suf c sw t,
  Forall P (pre ++ a :: rest ++ suf) -> length rest = k -> topped pre a ->
  match sort_pass go so rec k (length pre + 1) (pre ++ a :: rest ++ suf) c sw t with
  | LDone m' c' sw' t' =>
      exists pre' a', m' = pre' ++ a' :: suf /\ length pre' = length pre + k /\
        Permutation (pre ++ a :: rest) (pre' ++ [a']) /\ topped pre' a' /\
        (sw' = false -> sw = false /\ pre' ++ [a'] = pre ++ a :: rest /\ Sorted okpair (a :: rest))
  | _ => True
  end.
Proof.
  induction k as [|k IH]; intros pre a rest suf c sw t HP Hk Htop.
  - destruct rest; [|discriminate]. simpl. exists pre, a. simpl.
    split; [reflexivity|]. split; [lia|]. split; [apply Permutation_refl|]. split; auto.
  - destruct rest as [|b rest]; [discriminate|]. simpl in Hk. injection Hk as Hk.
    assert (Na : nth_error (pre ++ a :: (b :: rest) ++ suf) (length pre + 1 - 1) = Some a).
    { rewrite nth_error_app2 by lia. replace (length pre + 1 - 1 - length pre) with 0 by lia. reflexivity. }
    assert (Nb : nth_error (pre ++ a :: (b :: rest) ++ suf) (length pre + 1) = Some b).
    { rewrite nth_error_app2 by lia. replace (length pre + 1 - length pre) with 1 by lia. reflexivity. }
    cbn [sort_pass]. rewrite Na, Nb.
    assert (Fp : firstn (length pre + 1 - 1) (pre ++ a :: (b :: rest) ++ suf) = pre).
    { replace (length pre + 1 - 1) with (length pre) by lia.
      rewrite firstn_app, Nat.sub_diag. simpl. rewrite firstn_all. apply app_nil_r. }
    assert (Sp : skipn (length pre + 1 + 1) (pre ++ a :: (b :: rest) ++ suf) = rest ++ suf).
    { rewrite skipn_app. rewrite skipn_all2 by lia.
      replace (length pre + 1 + 1 - length pre) with 2 by lia. reflexivity. }
    assert (Pa : P a) by (eapply (proj1 (Forall_forall _ _) HP); rewrite in_app_iff; right; left; auto).
    assert (Pb : P b) by (eapply (proj1 (Forall_forall _ _) HP); rewrite in_app_iff; right; right; left; auto).
    destruct (g_gt go a b) eqn:Eg.
    + destruct (g_swap go a b) as [cc f] eqn:Es.
      destruct (process_f so rec _ _ c f t) as [t1| |]; auto.
      destruct (vn_eqb cc (VInt 0)) eqn:Ec; auto.
      destruct (s_make so cc) as [x|]; auto.
      unfold swap_at. rewrite Fp, Sp.
      replace (pre ++ b :: a :: rest ++ suf) with ((pre ++ [b]) ++ a :: rest ++ suf)
        by now rewrite <- app_assoc.
      specialize (IH (pre ++ [b]) a rest suf (s_mul so c x) true t1).
      replace (length (pre ++ [b]) + 1) with (length pre + 1 + 1) in IH by (rewrite app_length; simpl; lia).
      assert (Hlt : g_lt go b a = true) by (rewrite (sto_gt _ _ _ Hgo) in Eg; auto).
      assert (T' : topped (pre ++ [b]) a).
      { destruct Htop as [h1 h2]. split.
        - intros y iy. apply in_app_iff in iy. destruct iy as [iy|[<-|[]]]; auto.
          now apply (lt_gle go Hgo).
        - intros y iy hy. apply in_app_iff in iy. destruct iy as [iy|[<-|[]]].
          + apply h2; auto. intros z iz. apply hy. apply in_app_iff; auto.
          + destruct (g_simplify go b a) eqn:Esi; auto.
            assert (K : vn_eqb cc (VInt 0) = true) by (eapply (ac_detect AC b a); eauto; congruence).
            congruence. }
      assert (HP' : Forall P ((pre ++ [b]) ++ a :: rest ++ suf)).
      { rewrite <- app_assoc. simpl. apply Forall_app in HP. destruct HP as [q1 q2].
        apply Forall_app. split; auto. inversion q2 as [|? ? q3 q4]; subst. inversion q4; subst. auto. }
      specialize (IH HP' Hk T').
      destruct (sort_pass go so rec k (length pre + 1 + 1) ((pre ++ [b]) ++ a :: rest ++ suf)
                 (s_mul so c x) true t1) as [m' c' sw' t'| | |]; auto.
      destruct IH as [pre' [a' [q1 [q2 [q3 [q4 q5]]]]]]. exists pre', a'.
      split; auto. split; [rewrite app_length in q2; simpl in q2; lia|]. split.
      { rewrite <- q3. rewrite <- app_assoc. simpl. apply Permutation_app_head. constructor. }
      split; auto. intros h. apply q5 in h. destruct h; discriminate.
    + destruct (g_simplify go a b) as [f|] eqn:Es.
      { destruct (process_f so rec _ _ c f t); auto. }
      replace (pre ++ a :: (b :: rest) ++ suf) with ((pre ++ [a]) ++ b :: rest ++ suf)
        by now rewrite <- app_assoc.
      specialize (IH (pre ++ [a]) b rest suf c sw t).
      replace (length (pre ++ [a]) + 1) with (length pre + 1 + 1) in IH by (rewrite app_length; simpl; lia).
      apply ngt_le in Eg.
      assert (T' : topped (pre ++ [a]) b).
      { destruct Htop as [h1 h2]. split.
        - intros y iy. apply in_app_iff in iy. destruct iy as [iy|[<-|[]]]; auto.
          eapply (gle_trans go Hgo); eauto.
        - intros y iy hy.
          assert (y = a).
          { apply (gle_antisym go Hgo).
            - apply in_app_iff in iy. destruct iy as [iy|[<-|[]]]; auto. apply (gle_refl go Hgo).
            - apply hy. apply in_app_iff. right; left; auto. }
          subst y; auto. }
      assert (HP' : Forall P ((pre ++ [a]) ++ b :: rest ++ suf)).
      { rewrite <- app_assoc. exact HP. }
      specialize (IH HP' Hk T').
      destruct (sort_pass go so rec k (length pre + 1 + 1) ((pre ++ [a]) ++ b :: rest ++ suf)
                 c sw t) as [m' c' sw' t'| | |]; auto.
      destruct IH as [pre' [a' [q1 [q2 [q3 [q4 q5]]]]]]. exists pre', a'.
      split; auto. split; [rewrite app_length in q2; simpl in q2; lia|]. split.
      { rewrite <- q3. rewrite <- app_assoc. reflexivity. }
      split; auto. intros h. apply q5 in h. destruct h as [h1 [h2 h3]]. split; auto.
      split; [rewrite h2, <- app_assoc; reflexivity|].
      constructor; auto. constructor. split; auto.
Qed.

Definition loop_P (r : @loop_res G S) : Prop :=
  match r with LDone m' _ _ _ => Sorted okpair m' /\ Forall P m' | _ => True end.

Lemma split_last {A} (l : list A) n : length l = Datatypes.S n -> exists pre a, l = pre ++ [a] /\ length pre = n.
Proof.
  intros h. destruct l as [|x l] using rev_ind; [discriminate|].
  exists l, x. split; auto. rewrite app_length in h. simpl in h. lia.
Qed.

Lemma sort_loop_canon rec : forall n_max front suf c t,
  Forall P (front ++ suf) -> length front = n_max + 1 ->
  (forall x y, In x front -> In y suf -> le x y) ->
  Sorted okpair suf ->
  (forall x s suf', suf = s :: suf' -> In x front -> (forall y, In y front -> le y x) ->
     g_simplify go x s = None) ->
  loop_P (sort_loop go so rec n_max (front ++ suf) c t).
Proof.
  assert (FIN : forall pre a suf, Sorted okpair (pre ++ [a]) ->
     (forall x, In x pre -> le x a) ->
     (forall x y, In x (pre ++ [a]) -> In y suf -> le x y) -> Sorted okpair suf ->
     (forall x s suf', suf = s :: suf' -> In x (pre ++ [a]) ->
        (forall y, In y (pre ++ [a]) -> le y x) -> g_simplify go x s = None) ->
     Sorted okpair ((pre ++ [a]) ++ suf)).
  { intros pre a suf h1 h2 h3 h4 h5. rewrite <- app_assoc. simpl.
    apply Sorted_app_cons; auto. constructor; auto. destruct suf as [|s suf]; constructor.
    assert (In a (pre ++ [a])) by (apply in_app_iff; right; left; auto).
    split; [apply h3; auto; left; auto|]. eapply h5; eauto.
    intros y iy. apply in_app_iff in iy. destruct iy as [iy|[<-|[]]]; auto. apply (gle_refl go Hgo). }
  induction n_max as [|n IH]; intros front suf c t HP Hl Hle Hsuf HJ.
  - simpl. destruct front as [|a [|b front]]; simpl in Hl; try lia. split; auto.
    apply (FIN [] a suf); simpl; auto. repeat constructor. tauto.
  - destruct front as [|a rest]; [simpl in Hl; lia|]. simpl in Hl.
    change (sort_loop go so rec (Datatypes.S n) ((a :: rest) ++ suf) c t) with
      (match sort_pass go so rec (Datatypes.S n) 1 ((a :: rest) ++ suf) c false t with
       | LDone m' coeff' true target' => sort_loop go so rec n m' coeff' target'
       | r => r end).
    pose proof (sort_pass_canon rec (Datatypes.S n) [] a rest suf c false t HP ltac:(lia)) as K.
    change (length (@nil G) + 1) with 1 in K. change ([] ++ a :: rest ++ suf) with ((a :: rest) ++ suf) in K.
    specialize (K ltac:(split; simpl; tauto)).
    destruct (sort_pass go so rec (Datatypes.S n) 1 ((a :: rest) ++ suf) c false t)
      as [m' c' sw' t'| | |]; simpl; auto.
    destruct K as [pre' [a' [q1 [q2 [q3 [q4 q5]]]]]]. simpl in q2.
    assert (Hin : forall x, In x (a :: rest) <-> In x (pre' ++ [a'])).
    { intros x. simpl in q3. split; intros i; [rewrite <- q3|rewrite q3]; auto. }
    assert (Htop : forall y, In y (a :: rest) -> le y a').
    { intros y iy. apply Hin in iy. apply in_app_iff in iy. destruct iy as [iy|[<-|[]]].
      - apply q4; auto.
      - apply (gle_refl go Hgo). }
    assert (Ha' : In a' (a :: rest)) by (apply Hin, in_app_iff; right; left; auto).
    assert (HP' : Forall P m').
    { subst m'. apply Forall_app in HP. destruct HP as [p1 p2].
      replace (pre' ++ a' :: suf) with ((pre' ++ [a']) ++ suf) by now rewrite <- app_assoc.
      apply Forall_app. split; auto. simpl in q3. rewrite <- q3. auto. }
    destruct sw'.
    + subst m'. apply IH; auto.
      * lia.
      * intros x y ix [<-|iy]; [apply q4; auto|]. apply Hle; auto. apply Hin, in_app_iff; auto.
      * constructor; auto. destruct suf as [|s suf]; constructor. split.
        -- apply Hle; simpl; auto.
        -- eapply HJ; eauto.
      * intros x s suf' E ix hx. inversion E; subst. apply q4; auto.
    + destruct (q5 eq_refl) as [_ [h2 h3]]. simpl in h2, h3. split; auto.
      subst m'. replace (pre' ++ a' :: suf) with ((pre' ++ [a']) ++ suf) by now rewrite <- app_assoc.
      apply FIN; auto.
      * rewrite h2; auto.
      * intros; apply q4; auto.
      * intros x y ix iy. apply Hle; auto. now apply Hin.
      * intros x s suf' E ix hx. eapply HJ; eauto; [now apply Hin|].
        intros y iy. apply hx. now apply Hin.
Qed.

(** *** Runs *)
Lemma run_nth (m : list G) pre g n post : m = pre ++ repeat g n ++ post ->
  forall j, j < n -> nth_error m (length pre + j) = Some g.
Proof.
  intros -> j hj. rewrite nth_error_app2 by lia.
  replace (length pre + j - length pre) with j by lia.
  rewrite nth_error_app1 by (rewrite repeat_length; lia).
  rewrite (nth_error_nth' _ g) by (rewrite repeat_length; lia). f_equal. apply nth_repeat.
Qed.

Lemma reduce_scan_canon nrec rrec : forall k it power m c t t' cur,
  Forall P m -> it + k = length m -> 1 <= k -> 1 <= power -> power <= it + 1 ->
  nth_error m it = Some cur ->
  (forall j, j < power -> nth_error m (it - j) = Some cur) ->
  (power <= it -> nth_error m (it - power) <> Some cur) ->
  reduce_scan go so nrec rrec k it power m c t = Ok t' ->
  t' = t \/
  (t' = store_monomial go so m c t /\
   forall s g n, it < s + n - 1 -> 2 < n -> s + n <= length m ->
     (forall j, j < n -> nth_error m (s + j) = Some g) -> g_reduce go g n = None).
Proof.
  induction k as [|k IH]; intros it power m c t t' cur HP Hk Hk1 Hp1 Hp Ecur Hrun Hmax.
  - lia.
  - cbn [reduce_scan]. destruct (Nat.eqb_spec (it + 1) (length m)) as [e|ne].
    + intros E. inversion E; subst. right. split; auto. intros; lia.
    + rewrite Ecur.
      destruct (nth_error m (it + 1)) as [nx|] eqn:En; [|discriminate].
      destruct (g_eq go nx cur) eqn:Eq.
      * apply (sto_eq _ _ _ Hgo) in Eq. subst nx.
        assert (Hrun' : forall j, j < power + 1 -> nth_error m (it + 1 - j) = Some cur).
        { intros [|j] hj; [rewrite Nat.sub_0_r; auto|].
          replace (it + 1 - Datatypes.S j) with (it - j) by lia. apply Hrun. lia. }
        assert (Hmax' : power + 1 <= it + 1 -> nth_error m (it + 1 - (power + 1)) <> Some cur).
        { intros h. replace (it + 1 - (power + 1)) with (it - power) by lia. apply Hmax. lia. }
        assert (REST : (if 2 <? power + 1 then g_reduce go cur (power + 1) else None) = None ->
           reduce_scan go so nrec rrec k (it + 1) (power + 1) m c t = Ok t' ->
           t' = t \/
           (t' = store_monomial go so m c t /\
            forall s g n, it < s + n - 1 -> 2 < n -> s + n <= length m ->
             (forall j, j < n -> nth_error m (s + j) = Some g) -> g_reduce go g n = None)).
        { intros Er E. destruct (IH (it + 1) (power + 1) m c t t' cur) as [K|[K1 K2]]; auto; try lia.
          right. split; auto. intros s g n h1 h2 h3 h4.
          destruct (Nat.eq_dec (s + n - 1) (it + 1)) as [e1|n1]; [|eapply K2; eauto; lia].
          assert (g = cur).
          { specialize (h4 (n - 1) ltac:(lia)). replace (s + (n - 1)) with (it + 1) in h4 by lia. congruence. }
          subst g.
          assert (n <= power + 1).
          { destruct (le_lt_dec n (power + 1)) as [|gt]; auto. exfalso. apply Hmax'; [lia|].
            specialize (h4 (n - 1 - (power + 1)) ltac:(lia)).
            replace (s + (n - 1 - (power + 1))) with (it + 1 - (power + 1)) in h4 by lia. auto. }
          destruct (Nat.ltb_spec 2 (power + 1)); [|lia].
          destruct (g_reduce go cur n) eqn:Ern; auto. exfalso.
          eapply (ac_mono AC cur n (power + 1)); eauto; congruence. }
        destruct (if 2 <? power + 1 then g_reduce go cur (power + 1) else None) as [f|] eqn:Er.
        -- destruct (2 <? power + 1); [|discriminate].
           assert (Pc : P cur) by (eapply (proj1 (Forall_forall _ _) HP); eapply nth_error_In; eauto).
           rewrite (ac_reduce AC cur _ f Pc Er). intros E; inversion E; auto.
        -- apply REST. reflexivity.
      * intros E. assert (nx <> cur).
        { intros ->. assert (X : cur = cur) by auto. apply (sto_eq _ _ _ Hgo) in X. congruence. }
        destruct (IH (it + 1) 1 m c t t' nx) as [K|[K1 K2]]; auto; try lia.
        -- intros j hj. replace (it + 1 - j) with (it + 1) by lia. auto.
        -- intros _. replace (it + 1 - 1) with it by lia. congruence.
        -- right. split; auto. intros s g n h1 h2 h3 h4.
           destruct (Nat.eq_dec (s + n - 1) (it + 1)) as [e1|n1]; [|eapply K2; eauto; lia].
           exfalso.
           pose proof (h4 (n - 1) ltac:(lia)) as A1. pose proof (h4 (n - 2) ltac:(lia)) as A2.
           replace (s + (n - 1)) with (it + 1) in A1 by lia.
           replace (s + (n - 2)) with it in A2 by lia. congruence.
Qed.

(** *** Whole maps *)
Definition inv (t : emap) : Prop :=
  msorted go t /\ nonzero so t /\ forall m c, In (m, c) t -> canon m /\ Forall P m.

Lemma inv_nil : inv [].
Proof. split; [constructor|]. split; intros m c []. Qed.

Lemma inv_ins m c t : inv t -> canon m -> Forall P m -> c <> s_zero so ->
  inv (add_entry go so (m, c) t).
Proof.
  intros [h1 [h2 h3]] hc hp hn. split; [|split].
  - now apply ins_sorted.
  - now apply ins_nonzero.
  - intros m' c' i. apply (ins_In go Hgo) in i. destruct i as [->|i]; eauto.
Qed.

Definition rec_inv (rec : list G -> S -> emap -> res emap) : Prop :=
  forall m c t t', Forall P m -> c <> s_zero so -> inv t -> rec m c t = Ok t' -> inv t'.

Lemma mul_nz c x : c <> s_zero so -> x <> s_zero so -> s_mul so c x <> s_zero so.
Proof. intros h1 h2 E. apply (sd_nzd _ D) in E. tauto. Qed.

Lemma process_terms_inv rec pre post c : rec_inv rec -> Forall P pre -> Forall P post ->
  c <> s_zero so -> forall ts t t',
  Forall (fun t => P (fst t)) ts -> Forall (fun t => vn_is_zero (snd t) = false) ts -> inv t ->
  process_terms so rec pre post c ts t = Ok t' -> inv t'.
Proof.
  intros Hrec Hp Hq Hc. induction ts as [|[g v] ts IH]; simpl; intros t t' h1 h2 hi E.
  - inversion E; subst; auto.
  - destruct (s_make so v) as [x|] eqn:Ev; [|discriminate].
    destruct (rec (pre ++ g :: post) (s_mul so c x) t) as [t1| |] eqn:E1; try discriminate.
    simpl in E. inversion h1 as [|? ? a1 a2]; subst. inversion h2 as [|? ? b1 b2]; subst. simpl in *.
    eapply IH; [exact a2|exact b2| |exact E].
    eapply Hrec; [| |exact hi|exact E1].
    + apply Forall_app; auto.
    + apply mul_nz; auto. eapply (sd_const _ D); eauto.
Qed.
Lemma process_f_inv rec pre post c f t t' : rec_inv rec -> Forall P pre -> Forall P post ->
  c <> s_zero so -> closed P f -> lf_nz f -> inv t ->
  process_f so rec pre post c f t = Ok t' -> inv t'.
Proof.
  intros Hrec Hp Hq Hc h1 h2 hi. unfold process_f.
  destruct (vn_is_zero (const_term f)) eqn:Z; simpl.
  - intros E. eapply (process_terms_inv rec pre post c); eassumption.
  - destruct (s_make so (const_term f)) as [x|] eqn:Ev; [|discriminate].
    destruct (rec (pre ++ post) (s_mul so c x) t) as [t1| |] eqn:E1; try discriminate.
    simpl. intros E.
    eapply (process_terms_inv rec pre post c Hrec Hp Hq Hc (terms f) t1); [exact h1|exact h2| |exact E].
    eapply Hrec; [| |exact hi|exact E1].
    + apply Forall_app; auto.
    + apply mul_nz; auto. eapply (sd_const _ D); eauto.
Qed.

Definition loop_inv (r : @loop_res G S) : Prop :=
  match r with
  | LDone _ c' _ t' => c' <> s_zero so /\ inv t'
  | LReturn t' => inv t' | _ => True end.

Lemma sort_pass_inv rec : rec_inv rec -> forall k n m c sw t, 1 <= n -> Forall P m ->
  c <> s_zero so -> inv t -> loop_inv (sort_pass go so rec k n m c sw t) /\
  match sort_pass go so rec k n m c sw t with LDone m' _ _ _ => Forall P m' | _ => True end.
Proof.
  intros Hrec. induction k as [|k IH]; intros n m c sw t Hn Hm Hc Hi; simpl; auto.
  destruct (nth_error m (n - 1)) as [a|] eqn:Ea; simpl; auto.
  destruct (nth_error m n) as [b|] eqn:Eb; simpl; auto.
  assert (Hpre : Forall P (firstn (n - 1) m)) by (apply Forall_firstn; auto).
  assert (Hpost : Forall P (skipn (n + 1) m)) by (apply Forall_skipn; auto).
  assert (Ha : P a) by (eapply (proj1 (Forall_forall _ _) Hm); eapply nth_error_In; eauto).
  assert (Hb : P b) by (eapply (proj1 (Forall_forall _ _) Hm); eapply nth_error_In; eauto).
  destruct (g_gt go a b) eqn:Eg.
  - destruct (g_swap go a b) as [cc f] eqn:Es.
    destruct (ac_swap AC a b cc f Ha Hb Eg Es) as [Hf [Hz Hcc]].
    destruct (process_f so rec (firstn (n - 1) m) (skipn (n + 1) m) c f t) as [t1| |] eqn:Ep; simpl; auto.
    assert (Hi1 : inv t1)
      by exact (process_f_inv rec _ _ c f t t1 Hrec Hpre Hpost Hc Hf Hz Hi Ep).
    destruct (vn_eqb cc (VInt 0)) eqn:Ec; simpl; auto.
    destruct (s_make so cc) as [x|] eqn:Ex; simpl; auto.
    apply IH; auto.
    + lia.
    + unfold swap_at. apply Forall_app. auto.
    + apply mul_nz; auto. eapply (sd_const _ D); eauto.
  - destruct (g_simplify go a b) as [f|] eqn:Es.
    + destruct (ac_simplify AC a b f Ha Hb Eg Es) as [Hf Hz].
      destruct (process_f so rec (firstn (n - 1) m) (skipn (n + 1) m) c f t) as [t1| |] eqn:Ep; simpl; auto.
      split; auto. exact (process_f_inv rec _ _ c f t t1 Hrec Hpre Hpost Hc Hf Hz Hi Ep).
    + apply IH; auto. lia.
Qed.

Lemma sort_loop_inv rec : rec_inv rec -> forall n_max m c t, Forall P m ->
  c <> s_zero so -> inv t -> loop_inv (sort_loop go so rec n_max m c t).
Proof.
  intros Hrec. induction n_max as [|n IH]; intros m c t Hm Hc Hi.
  - simpl. auto.
  - change (sort_loop go so rec (Datatypes.S n) m c t) with
      (match sort_pass go so rec (Datatypes.S n) 1 m c false t with
       | LDone m' coeff' true target' => sort_loop go so rec n m' coeff' target'
       | r => r end).
    destruct (sort_pass_inv rec Hrec (Datatypes.S n) 1 m c false t ltac:(lia) Hm Hc Hi) as [K1 K2].
    destruct (sort_pass go so rec (Datatypes.S n) 1 m c false t) as [m' c' [|] t'|t'| |]; auto.
    simpl in K1. apply IH; tauto.
Qed.

Lemma normalize_inv_aux : forall fuel,
  rec_inv (normalize_and_store go so fuel) /\
  (forall m c t t', Forall P m -> Sorted okpair m -> c <> s_zero so -> inv t ->
     reduce_powers_and_store go so fuel m c t = Ok t' -> inv t').
Proof.
  induction fuel as [|fuel [IH1 IH2]].
  - split; [intros m c t t' _ _ _ E|intros m c t t' _ _ _ _ E]; discriminate.
  - split.
    + intros m c t t' Hm Hc Hi E. rewrite normalize_S in E.
      destruct (Nat.leb_spec 2 (length m)) as [h|h].
      * pose proof (sort_loop_inv _ IH1 (length m - 1) m c t Hm Hc Hi) as K1.
        pose proof (sort_loop_canon (normalize_and_store go so fuel) (length m - 1) m [] c t) as K2.
        rewrite app_nil_r in K2.
        specialize (K2 Hm ltac:(lia) ltac:(simpl; tauto) ltac:(constructor) ltac:(discriminate)).
        destruct (sort_loop go so (normalize_and_store go so fuel) (length m - 1) m c t)
          as [m' c' sw t1|t1| |]; try discriminate.
        -- unfold loop_inv in K1. unfold loop_P in K2. destruct K1 as [a1 a2], K2 as [b1 b2].
           destruct (s_is_zero so c') eqn:Z; [inversion E; subst; auto|].
           eapply IH2; eauto.
        -- inversion E; subst. exact K1.
      * eapply IH2; eauto. destruct m as [|a [|b m]]; simpl in h; try lia; repeat constructor.
    + intros m c t t' Hm Hs Hc Hi E. rewrite reduce_S in E.
      destruct m as [|g m].
      * inversion E; subst. rewrite store_is_ins. apply inv_ins; auto. split; [constructor|].
        intros pre g n post Em Hn. destruct pre, n; simpl in Em; try discriminate; lia.
      * destruct (reduce_scan_canon (normalize_and_store go so fuel) (reduce_powers_and_store go so fuel)
          (length (g :: m)) 0 1 (g :: m) c t t' g Hm) as [K|[K1 K2]]; auto; try (simpl; lia).
        -- subst; auto.
        -- subst t'. rewrite store_is_ins. apply inv_ins; auto. split; auto.
           intros pre g0 n post Em Hn. eapply (K2 (length pre)); auto; try lia.
           ++ rewrite Em, !app_length, repeat_length. lia.
           ++ eapply run_nth; eauto.
Qed.

Lemma normalize_inv m c t t' : Forall P m -> c <> s_zero so -> inv t ->
  normalize go so m c t = Ok t' -> inv t'.
Proof. apply (proj1 (normalize_inv_aux _)). Qed.

Lemma e_mono_inv x m e : Forall P m -> e_mono go so x m = Ok e -> inv e.
Proof.
  intros Hm. unfold e_mono. destruct (s_is_zero so x) eqn:Z.
  - intros E; inversion E; subst. apply inv_nil.
  - intros E. eapply normalize_inv; eauto using inv_nil. now apply s_is_zero_false.
Qed.

Lemma canon_nil : canon [].
Proof.
  split; [constructor|]. intros pre g n post E Hn.
  destruct pre, n; simpl in E; try discriminate; lia.
Qed.

Lemma e_const_inv x : inv (e_const so x).
Proof.
  unfold e_const. destruct (s_is_zero so x) eqn:Z; [apply inv_nil|].
  change [([], x)] with (add_entry go so ([], x) []).
  apply inv_ins; auto using inv_nil, canon_nil. now apply s_is_zero_false.
Qed.

Lemma inv_keys (a : emap) : inv a -> forall b : emap, msorted go b -> nonzero so b ->
  (forall m c, In (m, c) b -> In m (map fst a)) -> inv b.
Proof.
  intros [h1 [h2 h3]] b s n K. split; auto. split; auto.
  intros m c i. apply K in i. apply in_map_iff in i. destruct i as [[m' c'] [E i]].
  simpl in E; subst. eauto.
Qed.

Lemma inv_map (f : S -> S) a : inv a -> (forall x, x <> s_zero so -> f x <> s_zero so) ->
  inv (map (fun p => (fst p, f (snd p))) a).
Proof.
  intros h hf. apply (inv_keys a h).
  - unfold msorted. rewrite map_map. simpl. apply h.
  - apply map_nonzero; auto. apply h.
  - intros m c i. apply in_map_iff in i. destruct i as [[m' c'] [E i]].
    injection E as E1 E2. simpl in E1. subst m'. apply in_map_iff. exists (m, c'). auto.
Qed.

Lemma inv_add a b : inv a -> inv b -> inv (e_add_assign go so a b).
Proof.
  intros ha [hb1 [hb2 hb3]]. unfold e_add_assign. revert a ha.
  induction b as [|[k c] b IH]; simpl; auto. intros a ha.
  apply (msorted_inv go) in hb1. apply IH; try tauto.
  - intros m d i; eapply hb2; right; eauto.
  - intros m d i; eapply hb3; right; eauto.
  - apply inv_ins; auto; [eapply hb3; left; eauto|eapply hb3; left; eauto|eapply hb2; left; eauto].
Qed.

Lemma inv_neg a : inv a -> inv (neg_map so a).
Proof.
  intros h. apply (inv_map (s_neg so)); auto. intros x hx E.
  apply hx. now apply (s_neg_zero_iff so L).
Qed.

Lemma inv_sub a b : inv a -> inv b -> inv (e_sub_assign go so a b).
Proof. intros. rewrite (sub_assign_add go so L). apply inv_add; auto using inv_neg. Qed.

Lemma mul_row_inv m1 c1 : Forall P m1 -> c1 <> s_zero so -> forall b t t',
  (forall m c, In (m, c) b -> Forall P m /\ c <> s_zero so) -> inv t ->
  mul_row go so m1 c1 b t = Ok t' -> inv t'.
Proof.
  intros H1 Hc. induction b as [|[m2 c2] b IH]; simpl; intros t t' hb hi E.
  - inversion E; subst; auto.
  - destruct (normalize go so (m1 ++ m2) (s_mul so c1 c2) t) as [t1| |] eqn:E1; try discriminate.
    simpl in E. eapply IH; [|  |exact E].
    + intros; apply hb; auto.
    + destruct (hb m2 c2) as [p1 p2]; auto.
      eapply normalize_inv; [| |exact hi|exact E1]; [apply Forall_app; auto|apply mul_nz; auto].
Qed.
Lemma e_mul_inv a b e : inv a -> inv b -> e_mul go so a b = Ok e -> inv e.
Proof.
  intros [a1 [a2 a3]] [b1 [b2 b3]]. unfold e_mul.
  assert (K : forall l t t', (forall m c, In (m, c) l -> Forall P m /\ c <> s_zero so) -> inv t ->
     mul_rows go so l b t = Ok t' -> inv t').
  { induction l as [|[m1 c1] l IH]; simpl; intros t t' hl hi E.
    - inversion E; subst; auto.
    - destruct (mul_row go so m1 c1 b t) as [t1| |] eqn:E1; try discriminate.
      simpl in E. destruct (hl m1 c1) as [p1 p2]; auto.
      eapply IH; [intros; apply hl; auto| |exact E].
      eapply mul_row_inv; [exact p1|exact p2| |exact hi|exact E1].
      intros m c i. split; [eapply b3; eauto|eapply b2; eauto]. }
  apply K; auto using inv_nil. intros m c i. split; [eapply a3; eauto|eapply a2; eauto].
Qed.

End Canon.
