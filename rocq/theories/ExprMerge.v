(** Heterogeneous addition / subtraction (merge of two maps). *)
From Coq Require Import ZArith Bool Lia List Sorted.
From Verif Require Import ExprModel ExprSpec ExprOrder ExprMap.
Import ListNotations.
Open Scope nat_scope.
Open Scope list_scope.

Section Merge.
Context {G S1 S2 S3 : Type} (go : gen_ops G) (Hgo : gen_order go).
Let Hm := mono_sto go Hgo.
Context (so : scalar_ops S3) (L : scalar_laws so).
Context (op : S1 -> S2 -> S3) (z1 : S1) (z2 : S2).
Notation lt := (mono_lt go).

(** the list produced, without the emplace_hint(end) *)
Fixpoint pm (fuel : nat) (a : list (list G * S1)) (b : list (list G * S2)) : list (list G * S3) :=
  match fuel with
  | O => []
  | S fuel' =>
      match a, b with
      | (m1, x1) :: a', (m2, x2) :: b' =>
          if lt m1 m2 then (m1, op x1 z2) :: pm fuel' a' b
          else if lt m2 m1 then (m2, op z1 x2) :: pm fuel' a b'
          else if s_is_zero so (op x1 x2) then pm fuel' a' b'
          else (m1, op x1 x2) :: pm fuel' a' b'
      | [], _ => map (fun p => (fst p, op z1 (snd p))) b
      | _, [] => map (fun p => (fst p, op (snd p) z2)) a
      end
  end.

Lemma put_all {A} (f : A -> S3) : forall (b : list (list G * A)) r,
  msorted go b -> (forall m c m' c', In (m, c) r -> In (m', c') b -> lt m m' = true) ->
  fold_left (fun r p => put go (fst p) (f (snd p)) r) b r = r ++ map (fun p => (fst p, f (snd p))) b.
Proof.
  induction b as [|[m x] b IH]; simpl; intros r hs hr.
  - now rewrite app_nil_r.
  - apply (msorted_inv go) in hs. destruct hs as [h1 h2]. unfold put.
    rewrite put_end by eauto. rewrite IH; auto.
    + now rewrite <- app_assoc.
    + intros m1 c1 m2 c2 i1 i2. apply in_app_iff in i1. destruct i1 as [i1|[i1|[]]]; [eapply hr; eauto|].
      inversion i1; subst. eauto.
Qed.

Lemma merge_pm : forall fuel a b r, length a + length b < fuel -> msorted go a -> msorted go b ->
  (forall m c m' c', In (m, c) r -> In (m', c') a -> lt m m' = true) ->
  (forall m c m' c', In (m, c) r -> In (m', c') b -> lt m m' = true) ->
  merge_loop go op z1 z2 (s_is_zero so) fuel a b r = r ++ pm fuel a b.
Proof.
  induction fuel as [|fuel IH]; intros a b r Hf Ha Hb Ra Rb; [lia|].
  cbn [merge_loop pm]. destruct a as [|[m1 x1] a].
  - now apply put_all.
  - destruct b as [|[m2 x2] b].
    + change ((m1, op x1 z2) :: map (fun p => (fst p, op (snd p) z2)) a)
        with (map (fun p => (fst p, op (snd p) z2)) ((m1, x1) :: a)).
      apply (put_all (fun x => op x z2)); auto.
    + pose proof (msorted_inv go _ _ _ Ha) as [a1 a2]. pose proof (msorted_inv go _ _ _ Hb) as [b1 b2].
      simpl in Hf.
      destruct (lt m1 m2) eqn:E1; [|destruct (lt m2 m1) eqn:E2].
      * unfold put. rewrite put_end by (intros; eapply Ra; eauto; left; eauto).
        rewrite IH; auto; simpl; try lia.
        -- now rewrite <- app_assoc.
        -- intros m c m' c' i1 i2. apply in_app_iff in i1. destruct i1 as [i1|[i1|[]]].
           ++ eapply Ra; eauto. right; eauto.
           ++ inversion i1; subst. eauto.
        -- intros m c m' c' i1 i2. apply in_app_iff in i1. destruct i1 as [i1|[i1|[]]].
           ++ eapply Rb; eauto.
           ++ inversion i1; subst. destruct i2 as [i2|i2]; [inversion i2; subst; auto|].
              eapply (sto_trans _ _ _ Hm); eauto.
      * unfold put. rewrite put_end by (intros; eapply Rb; eauto; left; eauto).
        rewrite IH; auto; simpl; try lia.
        -- now rewrite <- app_assoc.
        -- intros m c m' c' i1 i2. apply in_app_iff in i1. destruct i1 as [i1|[i1|[]]].
           ++ eapply Ra; eauto.
           ++ inversion i1; subst. destruct i2 as [i2|i2]; [inversion i2; subst; auto|].
              eapply (sto_trans _ _ _ Hm); eauto.
        -- intros m c m' c' i1 i2. apply in_app_iff in i1. destruct i1 as [i1|[i1|[]]].
           ++ eapply Rb; eauto. right; eauto.
           ++ inversion i1; subst. eauto.
      * assert (m1 = m2) by (eapply (sto_eq_of Hm); eauto). subst m2.
        destruct (s_is_zero so (op x1 x2)).
        -- apply IH; auto; simpl; try lia; intros; [eapply Ra|eapply Rb]; eauto; right; eauto.
        -- unfold put. rewrite put_end by (intros; eapply Ra; eauto; left; eauto).
           rewrite IH; auto; simpl; try lia.
           ++ now rewrite <- app_assoc.
           ++ intros m c m' c' i1 i2. apply in_app_iff in i1. destruct i1 as [i1|[i1|[]]].
              ** eapply Ra; eauto. right; eauto.
              ** inversion i1; subst. eauto.
           ++ intros m c m' c' i1 i2. apply in_app_iff in i1. destruct i1 as [i1|[i1|[]]].
              ** eapply Rb; eauto. right; eauto.
              ** inversion i1; subst. eauto.
Qed.

Lemma pm_In : forall fuel a b m c, In (m, c) (pm fuel a b) ->
  (exists x, In (m, x) a) \/ (exists x, In (m, x) b).
Proof.
  assert (MI : forall {A} (f : A -> S3) (l : list (list G * A)) m c,
            In (m, c) (map (fun p => (fst p, f (snd p))) l) -> exists x, In (m, x) l).
  { intros A f l m c i. apply in_map_iff in i. destruct i as [[m' x] [E i]].
    injection E as E1 E2. simpl in E1. subst. eauto. }
  induction fuel as [|fuel IH]; intros a b m c; [intros []|].
  cbn [pm]. destruct a as [|[m1 x1] a].
  - intros i. right. eapply (MI _ (op z1)); eauto.
  - destruct b as [|[m2 x2] b].
    + intros i. left.
      change ((m1, op x1 z2) :: map (fun p => (fst p, op (snd p) z2)) a)
        with (map (fun p => (fst p, op (snd p) z2)) ((m1, x1) :: a)) in i.
      eapply (MI _ (fun x => op x z2)); eauto.
    + destruct (lt m1 m2); [|destruct (lt m2 m1); [|destruct (s_is_zero so (op x1 x2))]].
      * intros [i|i]; [inversion i; subst; left; eexists; left; eauto|].
        apply IH in i. destruct i as [[x i]|i]; [left; exists x; right; auto|auto].
      * intros [i|i]; [inversion i; subst; right; eexists; left; eauto|].
        apply IH in i. destruct i as [i|[x i]]; [auto|right; exists x; right; auto].
      * intros i. apply IH in i. destruct i as [[x i]|[x i]]; [left|right]; exists x; right; auto.
      * intros [i|i]; [inversion i; subst; left; eexists; left; eauto|].
        apply IH in i. destruct i as [[x i]|[x i]]; [left|right]; exists x; right; auto.
Qed.

(** *** coefficients *)
Context (phi1 : S1 -> S3) (phi2 : S2 -> S3) (op3 : S3 -> S3 -> S3).
Context (Hop : forall x y, op x y = op3 (phi1 x) (phi2 y)).
Context (Hz1 : phi1 z1 = s_zero so) (Hz2 : phi2 z2 = s_zero so).
Context (H00 : op3 (s_zero so) (s_zero so) = s_zero so).
Notation c1 := (fun a => map (fun p => (fst p, phi1 (snd p))) a).
Notation c2 := (fun b => map (fun p => (fst p, phi2 (snd p))) b).

Lemma map_sorted {A B} (f : A -> B) (a : list (list G * A)) : msorted go a ->
  msorted go (map (fun p => (fst p, f (snd p))) a).
Proof. unfold msorted. now rewrite map_map. Qed.

Lemma pm_sorted : forall fuel a b, msorted go a -> msorted go b -> msorted go (pm fuel a b).
Proof.
  induction fuel as [|fuel IH]; intros a b Ha Hb; [constructor|].
  cbn [pm]. destruct a as [|[m1 x1] a].
  - now apply map_sorted.
  - destruct b as [|[m2 x2] b].
    + apply (map_sorted (fun x => op x z2) ((m1, x1) :: a)); auto.
    + pose proof (msorted_inv go _ _ _ Ha) as [a1 a2]. pose proof (msorted_inv go _ _ _ Hb) as [b1 b2].
      destruct (lt m1 m2) eqn:E1; [|destruct (lt m2 m1) eqn:E2].
      * apply msorted_cons; auto. intros m c i. apply pm_In in i.
        destruct i as [[x i]|[x [i|i]]]; eauto; [inversion i; subst; auto|].
        eapply (sto_trans _ _ _ Hm); eauto.
      * apply msorted_cons; auto. intros m c i. apply pm_In in i.
        destruct i as [[x [i|i]]|[x i]]; eauto; [inversion i; subst; auto|].
        eapply (sto_trans _ _ _ Hm); eauto.
      * assert (m1 = m2) by (eapply (sto_eq_of Hm); eauto). subst m2.
        destruct (s_is_zero so (op x1 x2)); auto.
        apply msorted_cons; auto. intros m c i. apply pm_In in i. destruct i as [[x i]|[x i]]; eauto.
Qed.

Lemma pm_coef : forall fuel a b m, length a + length b < fuel -> msorted go a -> msorted go b ->
  coef go so (pm fuel a b) m = op3 (coef go so (c1 a) m) (coef go so (c2 b) m).
Proof.
  induction fuel as [|fuel IH]; intros a b m Hf Ha Hb; [lia|].
  assert (HS := pm_sorted (S fuel) a b Ha Hb).
  cbn [pm] in *. destruct a as [|[m1 x1] a].
  - simpl map at 2. rewrite coef_nil. clear IH HS Hf.
    induction b as [|[m2 x2] b IHb]; [simpl; rewrite coef_nil; auto|].
    apply (msorted_inv go) in Hb. destruct Hb as [b1 b2]. simpl. rewrite !coef_cons.
    destruct (lt m2 m); auto. destruct (lt m m2); auto. now rewrite Hop, Hz1.
  - destruct b as [|[m2 x2] b].
    + replace (coef go so (map (fun p => (fst p, phi2 (snd p))) []) m) with (s_zero so) by reflexivity.
      change ((m1, op x1 z2) :: map (fun p => (fst p, op (snd p) z2)) a)
        with (map (fun p => (fst p, op (snd p) z2)) ((m1, x1) :: a)).
      clear HS IH Hf. revert Ha. generalize ((m1, x1) :: a). intros l.
      induction l as [|[m2 x2] l IHl]; intros Ha; [simpl; rewrite coef_nil; auto|].
      apply (msorted_inv go) in Ha. destruct Ha as [a1 a2]. simpl. rewrite !coef_cons.
      destruct (lt m2 m); auto. destruct (lt m m2); auto. now rewrite Hop, Hz2.
    + pose proof (msorted_inv go _ _ _ Ha) as [a1 a2]. pose proof (msorted_inv go _ _ _ Hb) as [b1 b2].
      simpl in Hf.
      assert (Za : coef go so (c1 a) m1 = s_zero so).
      { apply (coef_lt_all go Hgo); [now apply map_sorted|]. intros n c i. apply in_map_iff in i.
        destruct i as [[n' x] [E i]]. injection E as e1 e2. simpl in e1; subst. eauto. }
      assert (Zb : coef go so (c2 b) m2 = s_zero so).
      { apply (coef_lt_all go Hgo); [now apply map_sorted|]. intros n c i. apply in_map_iff in i.
        destruct i as [[n' x] [E i]]. injection E as e1 e2. simpl in e1; subst. eauto. }
      pose proof (map_sorted phi1 _ Ha) as Sa. pose proof (map_sorted phi2 _ Hb) as Sb.
      destruct (lt m1 m2) eqn:E1; [|destruct (lt m2 m1) eqn:E2].
      * destruct (mono_dec go Hgo m m1) as [->|n].
        -- rewrite (coef_cons_eq go Hgo). simpl map. rewrite (coef_cons_eq go Hgo).
           rewrite (coef_cons go so m2), E1.
           destruct (lt m2 m1) eqn:E3.
           { rewrite (sto_asym Hm _ _ E1) in E3. discriminate. }
           now rewrite Hop, Hz2.
        -- rewrite (coef_cons_ne go Hgo); auto. rewrite IH; auto; [|simpl; lia].
           simpl map in *. rewrite (coef_cons_ne go Hgo so m1); auto.
      * destruct (mono_dec go Hgo m m2) as [->|n].
        -- rewrite (coef_cons_eq go Hgo). simpl map. rewrite (coef_cons_eq go Hgo).
           rewrite (coef_cons go so m1), E2.
           destruct (lt m1 m2) eqn:E3; [discriminate|].
           now rewrite Hop, Hz1.
        -- rewrite (coef_cons_ne go Hgo); auto. rewrite IH; auto; [|simpl; lia].
           simpl map in *. rewrite (coef_cons_ne go Hgo so m2); auto.
      * assert (m1 = m2) by (eapply (sto_eq_of Hm); eauto). subst m2.
        destruct (s_is_zero so (op x1 x2)) eqn:Z.
        -- rewrite IH; auto; [|lia]. simpl map in *. destruct (mono_dec go Hgo m m1) as [->|n].
           ++ rewrite !(coef_cons_eq go Hgo), Za, Zb, H00. apply (sl_is_zero _ L) in Z.
              rewrite Hop in Z. auto.
           ++ rewrite !(coef_cons_ne go Hgo so m1); auto.
        -- simpl map in *. destruct (mono_dec go Hgo m m1) as [->|n].
           ++ rewrite !(coef_cons_eq go Hgo). apply Hop.
           ++ rewrite !(coef_cons_ne go Hgo so m1); auto. apply IH; auto. lia.
Qed.

Context (Hn1 : forall x, x <> z1 -> op x z2 <> s_zero so).
Context (Hn2 : forall x, x <> z2 -> op z1 x <> s_zero so).

Lemma pm_nonzero : forall fuel a b, (forall m c, In (m, c) a -> c <> z1) ->
  (forall m c, In (m, c) b -> c <> z2) -> nonzero so (pm fuel a b).
Proof.
  induction fuel as [|fuel IH]; intros a b Ha Hb; [intros ? ? []|].
  cbn [pm]. destruct a as [|[m1 x1] a].
  - intros m c i. apply in_map_iff in i. destruct i as [[n x] [E i]].
    injection E as e1 e2. simpl in *. subst. apply Hn2. eauto.
  - destruct b as [|[m2 x2] b].
    + intros m c i.
      change ((m1, op x1 z2) :: map (fun p => (fst p, op (snd p) z2)) a)
        with (map (fun p => (fst p, op (snd p) z2)) ((m1, x1) :: a)) in i.
      apply in_map_iff in i. destruct i as [[n x] [E i]].
      injection E as e1 e2. simpl in e2. subst. apply Hn1. eauto.
    + assert (K1 : forall m c, In (m, c) a -> c <> z1) by (intros; eapply Ha; right; eauto).
      assert (K2 : forall m c, In (m, c) b -> c <> z2) by (intros; eapply Hb; right; eauto).
      destruct (lt m1 m2); [|destruct (lt m2 m1); [|destruct (s_is_zero so (op x1 x2)) eqn:Z]]; auto.
      * intros m c [i|i]; [|eapply IH; [| |exact i]; auto]. inversion i; subst. apply Hn1.
        eapply Ha; left; eauto.
      * intros m c [i|i]; [|eapply IH; [| |exact i]; auto]. inversion i; subst. apply Hn2.
        eapply Hb; left; eauto.
      * intros m c [i|i]; [|eapply IH; [| |exact i]; auto]. inversion i; subst.
        now apply (s_is_zero_false so L).
Qed.

Lemma e_merge_char a b : msorted go a -> msorted go b -> (forall m c, In (m, c) a -> c <> z1) ->
  (forall m c, In (m, c) b -> c <> z2) ->
  msorted go (e_merge go op z1 z2 (s_is_zero so) a b) /\
  nonzero so (e_merge go op z1 z2 (s_is_zero so) a b) /\
  forall m, coef go so (e_merge go op z1 z2 (s_is_zero so) a b) m =
            op3 (coef go so (c1 a) m) (coef go so (c2 b) m).
Proof.
  intros Ha Hb Na Nb. unfold e_merge.
  rewrite merge_pm; auto; try (intros ? ? ? ? []); [|rewrite Nat.add_1_r; apply Nat.lt_succ_diag_r].
  rewrite app_nil_l. split; [|split].
  - now apply pm_sorted.
  - now apply pm_nonzero.
  - intros m. apply pm_coef; auto. rewrite Nat.add_1_r. apply Nat.lt_succ_diag_r.
Qed.
End Merge.
