(** Lemmas for C88: how large the magnitudes can become *)
From Coq Require Import Reals ZArith Bool Lia Lra Psatz List Sorted.
From Verif Require Import ExprModel ExprSpec ExprOrder ExprMap ExprEval TolSpec TolProofs RoundSpec ERoundSpec ERoundProofs.
Import ListNotations.
Open Scope nat_scope.
Open Scope list_scope.

Section Size.
Context {G S : Type} (go : gen_ops G) (Ho : gen_order go) (FT : few_terms go).
Context (so : scalar_ops S) (nrm : S -> R) (P : forall x, (0 <= nrm x)%R) (SM : small_constants go so nrm).
Notation ao := (magnitude_ops so nrm).
Notation cfa := (coef go ao).
Notation ema := (list (@mono G * R)).
Notation srt := (msorted go).

Definition grows (B : R) (F : R -> ema -> res ema) : Prop := forall c t t', (0 <= c)%R -> srt t -> F c t = Ok t' ->
  srt t' /\ forall k, (cfa t' k <= cfa t k + c * B)%R.
Lemma grows_mono A B F : (A <= B)%R -> grows A F -> grows B F.
Proof.
  intros h K c t t' hc ht E. destruct (K c t t' hc ht E) as [q r]. split; [exact q|]. intros k. specialize (r k).
  assert (c * A <= c * B)%R by (apply Rmult_le_compat_l; assumption). lra.
Qed.
Lemma grows_bind A B F H : grows A F -> grows B H -> grows (A + B) (fun c t => rbind (F c t) (H c)).
Proof.
  intros K1 K2 c t t' hc ht E. destruct (F c t) as [t1| |] eqn:E1; try discriminate. cbn in E.
  destruct (K1 c t t1 hc ht E1) as [q1 r1]. destruct (K2 c t1 t' hc q1 E) as [q2 r2].
  split; [exact q2|]. intros k. specialize (r1 k). specialize (r2 k). rewrite Rmult_plus_distr_l. lra.
Qed.
Lemma grows_ok : grows 0 (fun _ t => Ok t).
Proof. intros c t t' hc ht E. injection E as <-. split; [exact ht|]. intros k. lra. Qed.
Lemma grows_fail B F : (forall c t t', F c t <> Ok t') -> grows B F.
Proof. intros h c t t' hc ht E. exfalso. eapply h; eauto. Qed.
Lemma grows_mul B F x : (0 <= x)%R -> grows B F -> grows (x * B) (fun c t => F (s_mul ao c x) t).
Proof.
  intros hx K c t t' hc ht E. destruct (K _ t t' (Rmult_le_pos _ _ hc hx) ht E) as [q r]. split; [exact q|]. intros k. specialize (r k). cbn in r.
  now rewrite Rmult_assoc in r.
Qed.
Lemma grows_store m : grows 1 (fun c t => Ok (store_monomial go ao m c t)).
Proof.
  intros c t t' hc ht E. injection E as <-. rewrite store_is_ins. split; [now apply (ins_sorted go Ho ao)|].
  intros k. rewrite (cfa_ins go Ho so nrm m c t k ht). destruct (mono_dec go Ho k m) as [->|]; lra.
Qed.

Notation recA := (@mono G -> R -> ema -> res ema).
Definition rec_grows (N : nat) (B : R) (ra : recA) : Prop := forall m, length m <= N -> grows B (ra m).
Definition val (v : var_number) : R := match s_make so v with Some x => nrm x | None => 0%R end.
Lemma val_pos v : (0 <= val v)%R.
Proof. unfold val. destruct (s_make so v); [apply P|lra]. Qed.
Definition vals (l : list var_number) : R := fold_right (fun v w => val v + w)%R 0%R l.

Lemma process_terms_grows N B ra pre post ts : (0 <= B)%R -> rec_grows N B ra -> length pre + 1 + length post <= N ->
  grows (vals (map snd ts) * B) (fun c t => process_terms ao ra pre post c ts t).
Proof.
  intros HB Hr HN. induction ts as [|[g v] ts IH].
  - cbn. rewrite Rmult_0_l. apply grows_ok.
  - cbn [process_terms map snd vals fold_right]. cbn [s_make magnitude_ops]. unfold val at 1. destruct (s_make so v) as [x|] eqn:Ex; [|apply grows_fail; discriminate].
    cbn [option_map]. rewrite Rmult_plus_distr_r.
    apply (grows_bind _ _ (fun c t => ra (pre ++ g :: post) (s_mul ao c (nrm x)) t) (fun c => process_terms ao ra pre post c ts)); [|exact IH].
    apply grows_mul; [apply P|]. apply Hr. rewrite app_length. cbn. lia.
Qed.
Lemma process_f_grows N B ra pre post f : (0 <= B)%R -> rec_grows N B ra -> length pre + 1 + length post <= N ->
  (weight so nrm f <= 2)%R -> grows (2 * B) (fun c t => process_f ao ra pre post c f t).
Proof.
  intros HB Hr HN W. change (weight so nrm f) with (val (const_term f) + vals (map snd (terms f)))%R in W.
  apply grows_mono with (A := (val (const_term f) * B + vals (map snd (terms f)) * B)%R).
  { rewrite <- Rmult_plus_distr_r. apply Rmult_le_compat_r; assumption. }
  unfold process_f.
  apply (grows_bind _ _ (fun c t => if vn_is_zero (const_term f) then Ok t else
       match s_make ao (const_term f) with None => Throw | Some x => ra (pre ++ post) (s_mul ao c x) t end)
    (fun c => process_terms ao ra pre post c (terms f))).
  - destruct (vn_is_zero (const_term f)).
    + eapply grows_mono; [|apply grows_ok]. apply Rmult_le_pos; [apply val_pos|exact HB].
    + cbn [s_make magnitude_ops]. unfold val. destruct (s_make so (const_term f)) as [x|]; [|apply grows_fail; discriminate].
      cbn [option_map]. apply (grows_mul B (ra (pre ++ post)) (nrm x)); [apply P|]. apply Hr. rewrite app_length. lia.
  - exact (process_terms_grows N B ra pre post (terms f) HB Hr HN).
Qed.

Definition loop_grows (len : nat) (B : R) (F : R -> ema -> @loop_res G R) : Prop := forall c t, (0 <= c)%R -> srt t ->
  match F c t with
  | LDone m1 c1 sw t' => length m1 = len /\ srt t' /\ (0 <= c1 <= c)%R /\ forall k, (cfa t' k <= cfa t k + c * B)%R
  | LReturn t' => srt t' /\ forall k, (cfa t' k <= cfa t k + c * B)%R
  | _ => True
  end.
Lemma sort_pass_grows N B ra : (0 <= B)%R -> rec_grows N B ra -> forall k n m sw, 1 <= n -> length m = Datatypes.S N ->
  loop_grows (Datatypes.S N) (INR k * (2 * B)) (fun c t => sort_pass go ao ra k n m c sw t).
Proof.
  intros HB Hr. induction k as [|k IH]; intros n m sw hn hm c t hc ht; cbn [sort_pass].
  - split; [exact hm|]. split; [exact ht|]. split; [lra|]. intros j. cbn. lra.
  - rewrite S_INR. pose proof (pos_INR k) as Pk. assert (P2 : (0 <= INR k * (2 * B))%R) by (apply Rmult_le_pos; lra).
    assert (Q1 : (c * (2 * B) <= c * ((INR k + 1) * (2 * B)))%R) by (apply Rmult_le_compat_l; [exact hc|lra]).
    assert (Q2 : (c * (INR k * (2 * B)) <= c * ((INR k + 1) * (2 * B)))%R) by (apply Rmult_le_compat_l; [exact hc|lra]).
    destruct (nth_error m (n - 1)) as [a|] eqn:Ea; auto.
    destruct (nth_error m n) as [b|] eqn:Eb; auto.
    assert (hl : n < length m) by (apply nth_error_Some; congruence).
    assert (HN : length (firstn (n - 1) m) + 1 + length (skipn (n + 1) m) <= N).
    { rewrite firstn_length, skipn_length. lia. }
    destruct (g_gt go a b).
    + destruct (g_swap go a b) as [cc f] eqn:Es.
      pose proof (process_f_grows N B ra _ _ f HB Hr HN (sm_swap _ _ _ SM _ _ _ _ Es)) as K.
      destruct (process_f ao ra (firstn (n - 1) m) (skipn (n + 1) m) c f t) as [t1| |] eqn:E1; auto.
      destruct (K c t t1 hc ht E1) as [q1 r1]. destruct (vn_eqb cc (VInt 0)).
      * split; [exact q1|]. intros j. specialize (r1 j). lra.
      * cbn [s_make magnitude_ops]. destruct (s_make so cc) as [x|] eqn:Ex; [|exact Logic.I]. cbn [option_map].
        pose proof (sm_factor _ _ _ SM _ _ _ _ _ Es Ex) as X1. pose proof (P x) as X0.
        assert (hsw : length (swap_at n a b m) = Datatypes.S N) by (rewrite swap_at_length; auto).
        assert (hc2 : (0 <= s_mul ao c (nrm x) <= c)%R) by (cbn; nra).
        pose proof (IH (n + 1) (swap_at n a b m) true ltac:(lia) hsw _ t1 (proj1 hc2) q1) as K2. cbv beta in K2.
        set (c2 := s_mul ao c (nrm x)) in *.
        assert (Q3 : (c2 * (INR k * (2 * B)) <= c * (INR k * (2 * B)))%R) by (apply Rmult_le_compat_r; [exact P2|apply hc2]).
        replace (c * ((INR k + 1) * (2 * B)))%R with (c * (2 * B) + c * (INR k * (2 * B)))%R by ring.
        destruct (sort_pass go ao ra k (n + 1) (swap_at n a b m) c2 true t1) as [m' c' sw' t3|t3| |]; auto.
        -- destruct K2 as [f1 [f2 [f3 f4]]]. split; [exact f1|]. split; [exact f2|]. split; [lra|]. intros j. specialize (f4 j). specialize (r1 j). lra.
        -- destruct K2 as [f2 f4]. split; [exact f2|]. intros j. specialize (f4 j). specialize (r1 j). lra.
    + destruct (g_simplify go a b) as [f|] eqn:Es.
      * pose proof (process_f_grows N B ra _ _ f HB Hr HN (sm_simplify _ _ _ SM _ _ _ Es)) as K.
        destruct (process_f ao ra (firstn (n - 1) m) (skipn (n + 1) m) c f t) as [t1| |] eqn:E1; auto.
        destruct (K c t t1 hc ht E1) as [q1 r1]. split; [exact q1|]. intros j. specialize (r1 j). lra.
      * pose proof (IH (n + 1) m sw ltac:(lia) hm c t hc ht) as K2. cbv beta in K2.
        destruct (sort_pass go ao ra k (n + 1) m c sw t) as [m' c' sw' t3|t3| |]; auto.
        -- destruct K2 as [f1 [f2 [f3 f4]]]. split; [exact f1|]. split; [exact f2|]. split; [lra|]. intros j. specialize (f4 j). lra.
        -- destruct K2 as [f2 f4]. split; [exact f2|]. intros j. specialize (f4 j). lra.
Qed.
Lemma sort_loop_grows N B ra : (0 <= B)%R -> rec_grows N B ra -> forall n_max m, length m = Datatypes.S N ->
  loop_grows (Datatypes.S N) (INR (n_max * n_max) * (2 * B)) (fun c t => sort_loop go ao ra n_max m c t).
Proof.
  intros HB Hr. induction n_max as [|n_max IH]; intros m hm c t hc ht; cbn [sort_loop].
  - pose proof (sort_pass_grows N B ra HB Hr 0 1 m false ltac:(lia) hm c t hc ht) as K. cbv beta in K. cbn [sort_pass] in *. exact K.
  - pose proof (sort_pass_grows N B ra HB Hr (Datatypes.S n_max) 1 m false ltac:(lia) hm c t hc ht) as K. cbv beta in K.
    assert (BB : (INR (Datatypes.S n_max) * (2 * B) + INR (n_max * n_max) * (2 * B) <= INR (Datatypes.S n_max * Datatypes.S n_max) * (2 * B))%R).
    { rewrite <- Rmult_plus_distr_r, <- plus_INR. apply Rmult_le_compat_r; [lra|]. apply le_INR. nia. }
    pose proof (pos_INR (n_max * n_max)) as Pk. assert (P2 : (0 <= INR (n_max * n_max) * (2 * B))%R) by (apply Rmult_le_pos; lra).
    assert (BC : (c * (INR (Datatypes.S n_max) * (2 * B)) + c * (INR (n_max * n_max) * (2 * B)) <= c * (INR (Datatypes.S n_max * Datatypes.S n_max) * (2 * B)))%R).
    { rewrite <- Rmult_plus_distr_l. apply Rmult_le_compat_l; assumption. }
    assert (BD : (0 <= c * (INR (n_max * n_max) * (2 * B)))%R) by (apply Rmult_le_pos; assumption).
    destruct (sort_pass go ao ra (Datatypes.S n_max) 1 m c false t) as [m' c1 [|] t3|t3| |]; auto.
    + destruct K as [e1 [e2 [e3 e4]]]. pose proof (IH m' e1 c1 t3 (proj1 e3) e2) as K2. cbv beta in K2.
      assert (BE : (c1 * (INR (n_max * n_max) * (2 * B)) <= c * (INR (n_max * n_max) * (2 * B)))%R) by (apply Rmult_le_compat_r; [exact P2|apply e3]).
      destruct (sort_loop go ao ra n_max m' c1 t3) as [m2 c2 sw2 t5|t5| |]; auto.
      * destruct K2 as [f1 [f2 [f3 f4]]]. split; [exact f1|]. split; [exact f2|]. split; [lra|]. intros k. specialize (f4 k). specialize (e4 k). lra.
      * destruct K2 as [f2 f4]. split; [exact f2|]. intros k. specialize (f4 k). specialize (e4 k). lra.
    + destruct K as [e1 [e2 [e3 e4]]]. split; [exact e1|]. split; [exact e2|]. split; [exact e3|]. intros k. specialize (e4 k). lra.
    + destruct K as [e2 e4]. split; [exact e2|]. intros k. specialize (e4 k). lra.
Qed.
Lemma reduce_grows fuel m : grows 1 (reduce_powers_and_store go ao fuel m).
Proof.
  destruct fuel as [|fuel]; [apply grows_fail; discriminate|]. destruct m as [|g m]; [apply grows_store|].
  destruct (reduce_scan_cases go FT ao (normalize_and_store go ao fuel) (reduce_powers_and_store go ao fuel)
      (length (g :: m)) 0 1 (g :: m)) as [h|[h|h]].
  - intros c t t' hc ht E. assert (Y : Ok t' = Ok t) by (rewrite <- E; exact (h c t)). injection Y as ->. split; [exact ht|]. intros k. lra.
  - intros c t t' hc ht E. apply (grows_store (g :: m) c t t' hc ht). rewrite <- E. symmetry. exact (h c t).
  - apply grows_fail. intros c t t' E. assert (Y : Ok t' = @Bad ema) by (rewrite <- E; exact (h c t)). discriminate.
Qed.
Lemma normalize_grows : forall fuel m, grows (INR (drops (length m))) (normalize_and_store go ao fuel m).
Proof.
  induction fuel as [|fuel IH]; intros m; [apply grows_fail; discriminate|].
  cbn [normalize_and_store]. destruct (2 <=? length m) eqn:E2.
  - apply Nat.leb_le in E2. destruct (length m) as [|N] eqn:EN; [lia|].
    assert (Hr : rec_grows N (INR (drops N)) (normalize_and_store go ao fuel)).
    { intros x hx. eapply grows_mono; [|apply IH]. apply le_INR. now apply drops_mono. }
    pose proof (sort_loop_grows N (INR (drops N)) _ (pos_INR _) Hr (Datatypes.S N - 1) m EN) as K.
    intros c t t' hc ht E. specialize (K c t hc ht). cbv beta in K. replace (Datatypes.S N - 1) with N in * by lia.
    assert (BB : (INR (N * N) * (2 * INR (drops N)) + 1 <= INR (drops (Datatypes.S N)))%R).
    { replace (INR (N * N) * (2 * INR (drops N)) + 1)%R with (INR (N * N * (2 * drops N) + 1))
        by (rewrite plus_INR, !mult_INR; cbn; ring).
      apply le_INR. cbn [drops]. assert (N * N <= Datatypes.S N * Datatypes.S N) by nia.
      pose proof (Nat.mul_le_mono_r _ _ (2 * drops N) H) as H0. clear - H0. lia. }
    assert (BC : (c * (INR (N * N) * (2 * INR (drops N))) + c * 1 <= c * INR (drops (Datatypes.S N)))%R).
    { rewrite <- Rmult_plus_distr_l. apply Rmult_le_compat_l; assumption. }
    destruct (sort_loop go ao (normalize_and_store go ao fuel) N m c t) as [m' c1 sw t1|t1| |]; try discriminate.
    + destruct K as [e1 [e2 [e3 e4]]]. destruct (s_is_zero ao c1).
      * injection E as <-. split; [exact e2|]. intros k. specialize (e4 k). lra.
      * destruct (reduce_grows fuel m' c1 t1 t' (proj1 e3) e2 E) as [q r]. split; [exact q|]. intros k. specialize (e4 k). specialize (r k). lra.
    + injection E as <-. destruct K as [e2 e4]. split; [exact e2|]. intros k. specialize (e4 k). lra.
  - eapply grows_mono; [|apply reduce_grows]. change 1%R with (INR (drops 0)). apply le_INR, drops_mono. lia.
Qed.
Lemma mul_row_size m1 c1 (b : list (@mono G * S)) : forall t t', srt t -> mul_row go ao m1 (nrm c1) (magnitudes nrm b) t = Ok t' ->
  srt t' /\ forall k, (cfa t' k <= cfa t k + size_row drops nrm m1 c1 b)%R.
Proof.
  induction b as [|[m2 c2] b IH]; intros t t' ht E; cbn [mul_row size_row magnitudes map] in *.
  - injection E as <-. split; [exact ht|]. intros k. lra.
  - cbn [fst snd] in E.
    destruct (normalize go ao (m1 ++ m2) (s_mul ao (nrm c1) (nrm c2)) t) as [t1| |] eqn:E1; try discriminate. cbn [rbind] in E.
    destruct (normalize_grows _ _ _ t t1 (Rmult_le_pos _ _ (P c1) (P c2)) ht E1) as [q1 r1].
    destruct (IH t1 t' q1 E) as [q2 r2]. split; [exact q2|]. intros k. specialize (r1 k). specialize (r2 k). rewrite app_length in r1. lra.
Qed.
Lemma e_mul_size (a b : list (@mono G * S)) ea : e_mul go ao (magnitudes nrm a) (magnitudes nrm b) = Ok ea ->
  forall k, (cfa ea k <= size_all drops nrm a b)%R.
Proof.
  unfold e_mul.
  assert (K : forall t t', srt t -> mul_rows go ao (magnitudes nrm a) (magnitudes nrm b) t = Ok t' ->
    forall k, (cfa t' k <= cfa t k + size_all drops nrm a b)%R).
  { induction a as [|[m1 c1] a IH]; intros t t' ht E k; cbn [magnitudes map mul_rows size_all fst snd] in *.
    - injection E as <-. lra.
    - destruct (mul_row go ao m1 (nrm c1) (magnitudes nrm b) t) as [t1| |] eqn:E1; try discriminate. cbn [rbind] in E.
      destruct (mul_row_size m1 c1 b t t1 ht E1) as [q1 r1]. specialize (IH t1 t' q1 E k). specialize (r1 k). lra. }
  intros E k. specialize (K [] ea ltac:(constructor) E k). unfold coef at 2 in K. cbn in K. lra.
Qed.
End Size.
