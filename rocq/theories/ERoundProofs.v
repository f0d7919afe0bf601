(** Lemmas for C88: an exact run of the normalization, the run with floating
    point numbers and the run with magnitudes, side by side. *)
From Coq Require Import Reals ZArith Bool Lia Lra Psatz List Sorted.
From Verif Require Import ExprModel ExprSpec ExprOrder ExprMap ExprEval TolSpec TolProofs RoundSpec ERoundSpec.
From Verif Require RoundProofs.
Import ListNotations.
Open Scope nat_scope.
Open Scope list_scope.

(** *** numbers *)
Section Numbers.
Context (u tol : R) (U0 : (0 <= u)%R) (T0 : (0 <= tol)%R).
Notation ce := (coef_error u tol).
Lemma pow_ge_1 k : (1 <= (1 + u) ^ k)%R.
Proof. apply pow_R1_Rle. lra. Qed.
Lemma pow_mono j k : j <= k -> ((1 + u) ^ j <= (1 + u) ^ k)%R.
Proof. intros H. apply Rle_pow; [lra|exact H]. Qed.
Lemma ce_mono j k M M' : j <= k -> (0 <= M <= M')%R -> (ce j M <= ce k M')%R.
Proof.
  intros H [H0 H1]. unfold coef_error. pose proof (pow_mono j k H). pose proof (pow_ge_1 j). pose proof (pow_ge_1 k).
  assert (INR j <= INR k)%R by (now apply le_INR). pose proof (pos_INR j). apply Rplus_le_compat.
  - apply Rmult_le_compat; lra.
  - apply Rmult_le_compat; try lra; [apply Rmult_le_pos; lra|]. apply Rmult_le_compat_l; lra.
Qed.
Lemma ce_drop n M C x y : (0 <= M)%R -> (0 <= C)%R -> (x <= ce n M)%R -> (y <= ((1 + u) ^ n - 1) * C + tol)%R -> (x + y <= ce (n + 1) (M + C))%R.
Proof.
  intros HM HC Hx Hy. unfold coef_error in *. rewrite Nat.add_1_r, S_INR. pose proof (pow_ge_1 n) as P. pose proof (pow_mono n (S n) ltac:(lia)) as Q.
  pose proof (pos_INR n). set (p := ((1 + u) ^ n)%R) in *. set (q := ((1 + u) ^ S n)%R) in *.
  assert ((p - 1) * M <= (q - 1) * M)%R by (apply Rmult_le_compat_r; lra).
  assert ((p - 1) * C <= (q - 1) * C)%R by (apply Rmult_le_compat_r; lra).
  assert (tol * INR n * p <= tol * INR n * q)%R by (apply Rmult_le_compat_l; [apply Rmult_le_pos; lra|lra]).
  assert (tol * 1 <= tol * q)%R by (apply Rmult_le_compat_l; lra).
  replace (tol * (INR n + 1) * q)%R with (tol * INR n * q + tol * q)%R by ring. lra.
Qed.
Lemma ce_step n M C x y s v : (0 <= M)%R -> (0 <= C)%R -> (x <= ce n M)%R -> (y <= ((1 + u) ^ n - 1) * C)%R ->
  (s <= M + C + (x + y))%R -> (v <= u * s)%R -> (x + y + v + tol <= ce (n + 1) (M + C))%R.
Proof.
  intros HM HC Hx Hy Hs Hv. unfold coef_error in *. rewrite Nat.add_1_r, S_INR. cbn [pow]. pose proof (pow_ge_1 n) as P.
  pose proof (pos_INR n) as I. set (p := ((1 + u) ^ n)%R) in *.
  assert (E1 : (v <= u * (M + C + (x + y)))%R) by (eapply Rle_trans; [exact Hv|]; apply Rmult_le_compat_l; lra).
  assert (E2 : (x + y <= (p - 1) * (M + C) + tol * INR n * p)%R) by lra.
  assert (E3 : (u * (x + y) <= u * ((p - 1) * (M + C) + tol * INR n * p))%R) by (apply Rmult_le_compat_l; lra).
  assert (E4 : (tol * 1 <= tol * ((1 + u) * p))%R) by (apply Rmult_le_compat_l; [lra|]; nra).
  replace (((1 + u) * p - 1) * (M + C) + tol * (INR n + 1) * ((1 + u) * p))%R with
    ((p - 1) * (M + C) + tol * INR n * p + u * ((p - 1) * (M + C) + tol * INR n * p) + u * (M + C) + tol * ((1 + u) * p))%R by ring.
  lra.
Qed.
End Numbers.

Section Near.
Context {G S : Type} (go : gen_ops G) (Ho : gen_order go) (FT : few_terms go).
Context (so fo : scalar_ops S) (L : scalar_laws so) (nrm : S -> R) (NL : norm_laws so nrm) (u tol : R).
Context (FL : float_ops so fo nrm u tol) (CE : constants_exact go so fo).
Notation ao := (magnitude_ops so nrm).
Notation cf := (coef go so).
Notation cfa := (coef go ao).
Notation emp := (list (@mono G * S)).
Notation ema := (list (@mono G * R)).
Notation srt := (msorted go).
Notation "x [+] y" := (s_add so x y) (at level 50, left associativity).
Notation "x [-] y" := (s_sub so x y) (at level 50, left associativity).
Notation "x [*] y" := (s_mul so x y) (at level 40, left associativity).
Notation ce := (coef_error u tol).
Notation tri := (RoundProofs.tri so nrm L NL).
Notation near_norm := (RoundProofs.near_norm so nrm L NL).
Notation sub_self := (RoundProofs.sub_self so L).
Notation sub_add := (RoundProofs.sub_add so L).

Let U0 : (0 <= u)%R := fl_u _ _ _ _ _ FL.
Let T0 : (0 <= tol)%R := fl_t _ _ _ _ _ FL.

Definition close (n : nat) (c' c : S) : Prop := (nrm (c' [-] c) <= ((1 + u) ^ n - 1) * nrm c)%R.
Lemma close_refl n c : close n c c.
Proof.
  unfold close. rewrite sub_self, (nl_0 _ _ NL). apply Rmult_le_pos; [|apply (nl_pos _ _ NL)].
  pose proof (pow_ge_1 u U0 n). lra.
Qed.
Lemma close_mono j k c' c : j <= k -> close j c' c -> close k c' c.
Proof.
  intros h C. eapply Rle_trans; [exact C|]. apply Rmult_le_compat_r; [apply (nl_pos _ _ NL)|].
  pose proof (pow_mono u U0 j k h). lra.
Qed.
Lemma close_mul n c' c x : close n c' c -> close (n + 1) (s_mul fo c' x) (c [*] x).
Proof.
  unfold close. intros C. pose proof (fl_mul _ _ _ _ _ FL c' x) as M. rewrite (nl_mul _ _ NL) in *.
  pose proof (near_norm c' c) as N. pose proof (nl_pos _ _ NL x) as X. pose proof (nl_pos _ _ NL c) as Pc.
  assert (D : (nrm (c' [*] x [-] c [*] x) <= ((1 + u) ^ n - 1) * nrm c * nrm x)%R).
  { rewrite (RoundProofs.mul_diff so L c' x c x), sub_self. eapply Rle_trans; [apply (nl_add _ _ NL)|].
    rewrite !(nl_mul _ _ NL), (nl_0 _ _ NL), Rmult_0_r, Rplus_0_r. apply Rmult_le_compat_r; assumption. }
  eapply Rle_trans; [apply (tri _ (c' [*] x))|].
  assert (K : (nrm c' * nrm x <= (1 + u) ^ n * nrm c * nrm x)%R) by (apply Rmult_le_compat_r; [exact X|lra]).
  assert (K2 : (u * (nrm c' * nrm x) <= u * ((1 + u) ^ n * nrm c * nrm x))%R) by (apply Rmult_le_compat_l; assumption).
  rewrite Nat.add_1_r. cbn [pow].
  replace (((1 + u) * (1 + u) ^ n - 1) * (nrm c * nrm x))%R with
    (u * ((1 + u) ^ n * nrm c * nrm x) + ((1 + u) ^ n - 1) * nrm c * nrm x)%R by ring. lra.
Qed.

(** the coefficients of the floating point run, of the exact run and of the
    run with magnitudes *)
Definition off (n : nat) (t t0 : emp) (ta : ema) : Prop :=
  forall k, (nrm (cf t k [-] cf t0 k) <= ce n (cfa ta k))%R /\ (nrm (cf t0 k) <= cfa ta k)%R.
Definition near (B : nat) (F0 F : S -> emp -> res emp) (FA : R -> ema -> res ema) : Prop :=
  forall c c' n t0 t ta t0', srt t0 -> srt t -> srt ta -> close n c' c -> off n t t0 ta -> F0 c t0 = Ok t0' ->
  srt t0' /\ exists t' ta', F c' t = Ok t' /\ FA (nrm c) ta = Ok ta' /\ srt t' /\ srt ta' /\ off (n + B) t' t0' ta'.

Lemma off_mono a b t t0 ta : a <= b -> off a t t0 ta -> off b t t0 ta.
Proof.
  intros h o k. destruct (o k) as [o1 o2]. split; [|exact o2]. eapply Rle_trans; [exact o1|].
  apply (ce_mono u tol U0 T0); [exact h|]. pose proof (nl_pos _ _ NL (cf t0 k)). lra.
Qed.
Lemma near_mono A B F0 F FA : A <= B -> near A F0 F FA -> near B F0 F FA.
Proof.
  intros h K c c' n t0 t ta t0' h0 h1 h2 C o E.
  destruct (K c c' n t0 t ta t0' h0 h1 h2 C o E) as [q [t' [ta' [E' [Ea [q' [qa o']]]]]]].
  split; [exact q|]. exists t', ta'. repeat (split; [assumption|]). eapply off_mono; [|exact o']. lia.
Qed.
Lemma near_bind A B F0 F FA H0 H HA : near A F0 F FA -> near B H0 H HA ->
  near (A + B) (fun c t => rbind (F0 c t) (H0 c)) (fun c t => rbind (F c t) (H c)) (fun c t => rbind (FA c t) (HA c)).
Proof.
  intros K1 K2 c c' n t0 t ta t0' h0 h1 h2 C o E. destruct (F0 c t0) as [t1| |] eqn:E1; try discriminate.
  cbn in E. destruct (K1 c c' n t0 t ta t1 h0 h1 h2 C o E1) as [q [t2 [ta2 [E' [Ea [q' [qa o']]]]]]].
  destruct (K2 c c' (n + A) t1 t2 ta2 t0' q q' qa (close_mono _ _ _ _ (Nat.le_add_r _ _) C) o' E) as [q3 [t3 [ta3 [E3 [Ea3 [q3' [qa3 o3]]]]]]].
  split; [exact q3|]. exists t3, ta3. rewrite E', Ea. cbn. repeat (split; [assumption|]). now rewrite Nat.add_assoc.
Qed.
Lemma near_ok : near 0 (fun _ t => Ok t) (fun _ t => Ok t) (fun _ t => Ok t).
Proof.
  intros c c' n t0 t ta t0' h0 h1 h2 C o E. injection E as <-. split; [exact h0|]. exists t, ta.
  repeat (split; [first [assumption|reflexivity]|]). eapply off_mono; [|exact o]. lia.
Qed.
Lemma near_fail B F0 F FA : (forall c t t', F0 c t <> Ok t') -> near B F0 F FA.
Proof. intros h c c' n t0 t ta t0' h0 h1 h2 C o E. exfalso. eapply h; eauto. Qed.
Lemma near_mul B F0 F FA x : near B F0 F FA ->
  near (B + 1) (fun c t => F0 (s_mul so c x) t) (fun c t => F (s_mul fo c x) t) (fun c t => FA (s_mul ao c (nrm x)) t).
Proof.
  intros K c c' n t0 t ta t0' h0 h1 h2 C o E.
  destruct (K _ _ (n + 1) t0 t ta t0' h0 h1 h2 (close_mul n c' c x C) (off_mono _ _ _ _ _ (Nat.le_add_r n 1) o) E)
    as [q [t' [ta' [E' [Ea [q' [qa o']]]]]]].
  split; [exact q|]. exists t', ta'. split; [exact E'|]. split; [cbn; rewrite <- (nl_mul _ _ NL); exact Ea|].
  split; [exact q'|]. split; [exact qa|]. now rewrite <- Nat.add_assoc, (Nat.add_comm 1) in o'.
Qed.

(** coefficients after a store *)
Lemma cfa_ins m c (t : ema) k : srt t -> cfa (add_entry go ao (m, c) t) k =
  if mono_dec go Ho k m then (cfa t m + c)%R else cfa t k.
Proof.
  intros ht. unfold coef. rewrite (find_ins go ao Ho m c t k ht). destruct (mono_dec go Ho k m) as [->|]; [|reflexivity].
  destruct (map_find go m t) as [v|]; cbn; [|ring]. destruct (Req_EM_T (v + c) 0) as [e|]; [symmetry; exact e|reflexivity].
Qed.
Lemma near_store m : near 1 (fun c t => Ok (store_monomial go so m c t))
   (fun c t => Ok (store_monomial go fo m c t)) (fun c t => Ok (store_monomial go ao m c t)).
Proof.
  intros c c' n t0 t ta t0' h0 h1 h2 C o E. injection E as <-. rewrite !store_is_ins.
  split; [now apply ins_sorted|]. eexists. eexists. split; [reflexivity|]. split; [reflexivity|].
  split; [now apply (ins_sorted go Ho fo)|]. split; [now apply (ins_sorted go Ho ao)|].
  intros k. rewrite (coef_ins go Ho so L) by auto. rewrite cfa_ins by exact h2.
  assert (X : cf (add_entry go fo (m, c') t) k =
    match (if mono_dec go Ho k m then merged fo (s_add fo) (fun x => x) (map_find go m t) (Some c') else map_find go k t)
    with Some v => v | None => s_zero so end).
  { rewrite <- (find_ins go fo Ho m c' t k h1). reflexivity. }
  rewrite X. clear X. destruct (mono_dec go Ho k m) as [->|n1].
  2:{ destruct (off_mono n (n + 1) t t0 ta (Nat.le_add_r _ _) o k) as [o1 o2]. split; [exact o1|exact o2]. }
  destruct (o m) as [o1 o2]. pose proof (nl_pos _ _ NL (cf t0 m)) as P0. pose proof (nl_pos _ _ NL c) as Pc.
  split; [|eapply Rle_trans; [apply (nl_add _ _ NL)|]; lra].
  set (a := cf t0 m) in *. set (A := cfa ta m) in *.
  assert (HA : (0 <= A)%R) by lra. unfold close in C.
  assert (D : forall a', (nrm (a' [-] a) <= ce n A)%R ->
     (nrm ((a' [+] c') [-] (a [+] c)) <= nrm (a' [-] a) + nrm (c' [-] c))%R).
  { intros a' _. rewrite (RoundProofs.add_diff so L). apply (nl_add _ _ NL). }
  unfold coef in o1. destruct (map_find go m t) as [v|] eqn:F; cbn [merged].
  - pose proof (fl_add _ _ _ _ _ FL v c') as FA. set (w := s_add fo v c') in *.
    specialize (D v o1). pose proof (near_norm (v [+] c') (a [+] c)) as N.
    pose proof (nl_add _ _ NL a c) as NA.
    pose proof (ce_step u tol U0 T0 n A (nrm c) (nrm (v [-] a)) (nrm (c' [-] c)) (nrm (v [+] c')) (nrm (w [-] (v [+] c'))) HA Pc o1 C ltac:(lra) FA) as ST.
    pose proof (tri w (v [+] c') (a [+] c)) as TR.
    destruct (s_is_zero fo w) eqn:Z.
    + pose proof (fl_tol _ _ _ _ _ FL w Z) as TW. pose proof (tri (s_zero so) w (a [+] c)) as TZ.
      assert (NW : nrm (s_zero so [-] w) = nrm w) by (rewrite (sl_sub so L), (sl_add_0 so L); apply (nl_neg _ _ NL)).
      rewrite NW in TZ. lra.
    + lra.
  - specialize (D (s_zero so) o1). rewrite (sl_add_0 so L) in D.
    pose proof (ce_drop u tol U0 T0 n A (nrm c) (nrm (s_zero so [-] a)) (nrm (c' [-] c)) HA Pc o1 ltac:(lra)). lra.
Qed.

Notation recT := (@mono G -> S -> emp -> res emp).
Notation recA := (@mono G -> R -> ema -> res ema).
Definition rec_near (N B : nat) (r0 r : recT) (ra : recA) : Prop := forall m, length m <= N -> near B (r0 m) (r m) (ra m).

Lemma process_terms_near N B r0 r ra pre post ts : rec_near N B r0 r ra -> length pre + 1 + length post <= N ->
  (forall g v, In (g, v) ts -> s_make fo v = s_make so v) ->
  near (length ts * (B + 1)) (fun c t => process_terms so r0 pre post c ts t)
    (fun c t => process_terms fo r pre post c ts t) (fun c t => process_terms ao ra pre post c ts t).
Proof.
  intros Hr HN. induction ts as [|[g v] ts IH]; intros Hc.
  - apply near_ok.
  - cbn [process_terms length Nat.mul]. rewrite (Hc g v (or_introl eq_refl)). cbn [s_make magnitude_ops].
    destruct (s_make so v) as [x|]; [|apply near_fail; discriminate]. cbn [option_map].
    apply (near_bind (B + 1) (length ts * (B + 1)) (fun c t => r0 (pre ++ g :: post) (s_mul so c x) t)
             (fun c t => r (pre ++ g :: post) (s_mul fo c x) t) (fun c t => ra (pre ++ g :: post) (s_mul ao c (nrm x)) t)
             (fun c => process_terms so r0 pre post c ts) (fun c => process_terms fo r pre post c ts)
             (fun c => process_terms ao ra pre post c ts)).
    + apply near_mul. apply Hr. rewrite app_length. cbn. lia.
    + apply IH. intros g' v' h. exact (Hc g' v' (or_intror h)).
Qed.
Lemma process_f_near N B r0 r ra pre post f : rec_near N B r0 r ra -> length pre + 1 + length post <= N ->
  length (terms f) <= 1 -> const_same so fo f ->
  near (2 * (B + 1)) (fun c t => process_f so r0 pre post c f t) (fun c t => process_f fo r pre post c f t)
    (fun c t => process_f ao ra pre post c f t).
Proof.
  intros Hr HN Hf [Hc Ht]. unfold process_f.
  apply near_mono with (A := (B + 1) + length (terms f) * (B + 1)).
  { clear - Hf. destruct (terms f) as [|? [|? ?]]; cbn in *; lia. }
  apply (near_bind (B + 1) (length (terms f) * (B + 1))
    (fun c t => if vn_is_zero (const_term f) then Ok t else
       match s_make so (const_term f) with None => Throw | Some x => r0 (pre ++ post) (s_mul so c x) t end)
    (fun c t => if vn_is_zero (const_term f) then Ok t else
       match s_make fo (const_term f) with None => Throw | Some x => r (pre ++ post) (s_mul fo c x) t end)
    (fun c t => if vn_is_zero (const_term f) then Ok t else
       match s_make ao (const_term f) with None => Throw | Some x => ra (pre ++ post) (s_mul ao c x) t end)
    (fun c => process_terms so r0 pre post c (terms f)) (fun c => process_terms fo r pre post c (terms f))
    (fun c => process_terms ao ra pre post c (terms f))).
  - destruct (vn_is_zero (const_term f)).
    + eapply near_mono; [|apply near_ok]. lia.
    + rewrite Hc. cbn [s_make magnitude_ops]. destruct (s_make so (const_term f)) as [x|]; [|apply near_fail; discriminate].
      cbn [option_map].
      apply (near_mul B (r0 (pre ++ post)) (r (pre ++ post)) (ra (pre ++ post)) x). apply Hr. rewrite app_length. lia.
  - exact (process_terms_near N B r0 r ra pre post (terms f) Hr HN Ht).
Qed.

(** loops over a monomial of length [len] *)
Definition loop_near (len B : nat) (F0 F : S -> emp -> @loop_res G S) (FA : R -> ema -> @loop_res G R) : Prop :=
  forall c c' n t0 t ta, srt t0 -> srt t -> srt ta -> close n c' c -> off n t t0 ta ->
  match F0 c t0 with
  | LDone m1 c1 sw t0' => length m1 = len /\ srt t0' /\
      exists c1' t' ta', F c' t = LDone m1 c1' sw t' /\ FA (nrm c) ta = LDone m1 (nrm c1) sw ta' /\
        srt t' /\ srt ta' /\ close (n + B) c1' c1 /\ off (n + B) t' t0' ta'
  | LReturn t0' => srt t0' /\ exists t' ta', F c' t = LReturn t' /\ FA (nrm c) ta = LReturn ta' /\
        srt t' /\ srt ta' /\ off (n + B) t' t0' ta'
  | _ => True
  end.
Lemma loop_near_mono len A B F0 F FA : A <= B -> loop_near len A F0 F FA -> loop_near len B F0 F FA.
Proof.
  intros h K c c' n t0 t ta h0 h1 h2 C o. specialize (K c c' n t0 t ta h0 h1 h2 C o).
  destruct (F0 c t0) as [m1 c1 sw t0'|t0'| |]; [| |exact K|exact K].
  - destruct K as [e1 [e2 [c1' [t' [ta' [e3 [e4 [e5 [e6 [e7 e8]]]]]]]]]]. split; [exact e1|]. split; [exact e2|].
    exists c1', t', ta'. repeat (split; [assumption|]). split; [eapply close_mono; [|exact e7]; lia|eapply off_mono; [|exact e8]; lia].
  - destruct K as [e2 [t' [ta' [e3 [e4 [e5 [e6 e8]]]]]]]. split; [exact e2|].
    exists t', ta'. repeat (split; [assumption|]). eapply off_mono; [|exact e8]; lia.
Qed.

Notation X B := (2 * (B + 1) + 1) (only parsing).
Lemma sort_pass_near N B r0 r ra : rec_near N B r0 r ra -> forall k n m sw, 1 <= n -> length m = Datatypes.S N ->
  loop_near (Datatypes.S N) (k * X B) (fun c t => sort_pass go so r0 k n m c sw t)
    (fun c t => sort_pass go fo r k n m c sw t) (fun c t => sort_pass go ao ra k n m c sw t).
Proof.
  intros Hr. induction k as [|k IH]; intros n m sw hn hm c c' q t0 t ta h0 h1 h2 C o; cbn [sort_pass].
  - split; [exact hm|]. split; [exact h0|]. exists c', t, ta. repeat (split; [first [assumption|reflexivity]|]).
    split; [eapply close_mono; [|exact C]; lia|]. eapply off_mono; [|exact o]. lia.
  - destruct (nth_error m (n - 1)) as [a|] eqn:Ea; auto.
    destruct (nth_error m n) as [b|] eqn:Eb; auto.
    assert (hl : n < length m) by (apply nth_error_Some; congruence).
    assert (HN : length (firstn (n - 1) m) + 1 + length (skipn (n + 1) m) <= N).
    { rewrite firstn_length, skipn_length. lia. }
    destruct (g_gt go a b).
    + destruct (g_swap go a b) as [cc f] eqn:Es.
      destruct (ce_swap _ _ _ CE _ _ _ _ Es) as [Mc Mf].
      pose proof (process_f_near N B r0 r ra _ _ f Hr HN (ft_swap _ FT _ _ _ _ Es) Mf) as K.
      destruct (process_f so r0 (firstn (n - 1) m) (skipn (n + 1) m) c f t0) as [t1| |] eqn:E1; auto.
      destruct (K c c' q t0 t ta t1 h0 h1 h2 C o E1) as [q1 [t2 [ta2 [E2 [Ea2 [q2 [qa2 o2]]]]]]]. clear K.
      rewrite E2, Ea2. destruct (vn_eqb cc (VInt 0)).
      * split; [exact q1|]. exists t2, ta2. repeat (split; [first [assumption|reflexivity]|]). eapply off_mono; [|exact o2]. cbn; lia.
      * rewrite Mc. cbn [s_make magnitude_ops]. destruct (s_make so cc) as [x|]; auto. cbn [option_map].
        assert (hsw : length (swap_at n a b m) = Datatypes.S N) by (rewrite swap_at_length; auto).
        pose proof (close_mul q c' c x C) as C2.
        assert (C3 : close (q + X B) (s_mul fo c' x) (s_mul so c x)) by (eapply close_mono; [|exact C2]; lia).
        assert (o3 : off (q + X B) t2 t1 ta2) by (eapply off_mono; [|exact o2]; lia).
        pose proof (IH (n + 1) (swap_at n a b m) true ltac:(lia) hsw _ _ (q + X B) t1 t2 ta2 q1 q2 qa2 C3 o3) as K2.
        cbv beta in K2. rewrite (nl_mul _ _ NL) in K2.
        replace (q + X B + k * X B) with (q + Datatypes.S k * X B) in K2 by (cbn [Nat.mul]; lia).
        exact K2.
    + destruct (g_simplify go a b) as [f|] eqn:Es.
      * pose proof (process_f_near N B r0 r ra _ _ f Hr HN (ft_simplify _ FT _ _ _ Es) (ce_simplify _ _ _ CE _ _ _ Es)) as K.
        destruct (process_f so r0 (firstn (n - 1) m) (skipn (n + 1) m) c f t0) as [t1| |] eqn:E1; auto.
        destruct (K c c' q t0 t ta t1 h0 h1 h2 C o E1) as [q1 [t2 [ta2 [E2 [Ea2 [q2 [qa2 o2]]]]]]].
        rewrite E2, Ea2. split; [exact q1|]. exists t2, ta2. repeat (split; [first [assumption|reflexivity]|]).
        eapply off_mono; [|exact o2]. cbn; lia.
      * exact (loop_near_mono (Datatypes.S N) (k * X B) (Datatypes.S k * X B) _ _ _ ltac:(cbn [Nat.mul]; lia)
          (IH (n + 1) m sw ltac:(lia) hm) c c' q t0 t ta h0 h1 h2 C o).
Qed.

Lemma sort_loop_near N B r0 r ra : rec_near N B r0 r ra -> forall n_max m, length m = Datatypes.S N ->
  loop_near (Datatypes.S N) (n_max * n_max * X B) (fun c t => sort_loop go so r0 n_max m c t)
    (fun c t => sort_loop go fo r n_max m c t) (fun c t => sort_loop go ao ra n_max m c t).
Proof.
  intros Hr. induction n_max as [|n_max IH]; intros m hm c c' q t0 t ta h0 h1 h2 C o; cbn [sort_loop].
  - pose proof (sort_pass_near N B r0 r ra Hr 0 1 m false ltac:(lia) hm c c' q t0 t ta h0 h1 h2 C o) as K. cbv beta in K.
    cbn [sort_pass] in *. exact K.
  - pose proof (sort_pass_near N B r0 r ra Hr (Datatypes.S n_max) 1 m false ltac:(lia) hm c c' q t0 t ta h0 h1 h2 C o) as K. cbv beta in K.
    set (A0 := sort_pass go so r0 (Datatypes.S n_max) 1 m c false t0) in *.
    set (A1 := sort_pass go fo r (Datatypes.S n_max) 1 m c' false t) in *.
    set (A2 := sort_pass go ao ra (Datatypes.S n_max) 1 m (nrm c) false ta) in *.
    assert (BB : Datatypes.S n_max * X B + n_max * n_max * X B <= Datatypes.S n_max * Datatypes.S n_max * X B) by nia.
    assert (BC : Datatypes.S n_max * X B <= Datatypes.S n_max * Datatypes.S n_max * X B) by nia.
    destruct A0 as [m' c1 [|] t3|t3| |]; auto.
    + destruct K as [e1 [e2 [c1' [t4 [ta4 [e3 [e4 [e5 [e6 [e7 e8]]]]]]]]]]. rewrite e3, e4.
      pose proof (IH m' e1 c1 c1' _ t3 t4 ta4 e2 e5 e6 e7 e8) as K2. cbv beta in K2.
      destruct (sort_loop go so r0 n_max m' c1 t3) as [m2 c2 sw2 t5|t5| |]; auto.
      * destruct K2 as [f1 [f2 [c2' [t6 [ta6 [f3 [f4 [f5 [f6 [f7 f8]]]]]]]]]]. split; [exact f1|]. split; [exact f2|].
        exists c2', t6, ta6. repeat (split; [assumption|]).
        split; [eapply close_mono; [|exact f7]|eapply off_mono; [|exact f8]]; clear - BB; lia.
      * destruct K2 as [f2 [t6 [ta6 [f3 [f4 [f5 [f6 f8]]]]]]]. split; [exact f2|].
        exists t6, ta6. repeat (split; [assumption|]). eapply off_mono; [|exact f8]; clear - BB; lia.
    + destruct K as [e1 [e2 [c1' [t4 [ta4 [e3 [e4 [e5 [e6 [e7 e8]]]]]]]]]]. rewrite e3, e4. split; [exact e1|]. split; [exact e2|].
      exists c1', t4, ta4. repeat (split; [first [assumption|reflexivity]|]).
      split; [eapply close_mono; [|exact e7]|eapply off_mono; [|exact e8]]; clear - BC; lia.
    + destruct K as [e2 [t4 [ta4 [e3 [e4 [e5 [e6 e8]]]]]]]. rewrite e3, e4. split; [exact e2|].
      exists t4, ta4. repeat (split; [first [assumption|reflexivity]|]). eapply off_mono; [|exact e8]; clear - BC; lia.
Qed.

(** reduce_powers_and_store stores the monomial or does nothing *)
Lemma reduce_scan_same nr rr nr' rr' nra rra : forall k it pw m,
  (forall c t c' t' ca ta, reduce_scan go so nr rr k it pw m c t = Ok t /\ reduce_scan go fo nr' rr' k it pw m c' t' = Ok t' /\
                     reduce_scan go ao nra rra k it pw m ca ta = Ok ta) \/
  (forall c t c' t' ca ta, reduce_scan go so nr rr k it pw m c t = Ok (store_monomial go so m c t) /\
                  reduce_scan go fo nr' rr' k it pw m c' t' = Ok (store_monomial go fo m c' t') /\
                  reduce_scan go ao nra rra k it pw m ca ta = Ok (store_monomial go ao m ca ta)) \/
  (forall c t, reduce_scan go so nr rr k it pw m c t = @Bad emp).
Proof.
  induction k as [|k IH]; intros it pw m; cbn [reduce_scan]; [left; auto|].
  destruct (it + 1 =? length m); [right; left; auto|].
  destruct (nth_error m it) as [cur|]; auto.
  destruct (nth_error m (it + 1)) as [nx|]; auto.
  destruct (g_eq go nx cur); [|apply IH]. cbv zeta.
  destruct (if 2 <? pw + 1 then g_reduce go cur (pw + 1) else None) as [f|] eqn:E; [|apply IH].
  assert (lf_vanishing f = true) as ->; [|left; auto].
  destruct (2 <? pw + 1); [|discriminate]. eapply ft_reduce; eauto.
Qed.

Lemma reduce_near fuel m : near 1 (reduce_powers_and_store go so fuel m) (reduce_powers_and_store go fo fuel m)
  (reduce_powers_and_store go ao fuel m).
Proof.
  destruct fuel as [|fuel]; [apply near_fail; discriminate|].
  destruct m as [|g m]; [apply near_store|].
  destruct (reduce_scan_same (normalize_and_store go so fuel) (reduce_powers_and_store go so fuel)
    (normalize_and_store go fo fuel) (reduce_powers_and_store go fo fuel)
    (normalize_and_store go ao fuel) (reduce_powers_and_store go ao fuel) (length (g :: m)) 0 1 (g :: m)) as [h|[h|h]].
  - intros c c' n t0 t ta t0' h0 h1 h2 C o E. destruct (h c t0 c' t (nrm c) ta) as [a1 [a2 a3]].
    assert (Y : Ok t0' = Ok t0) by (rewrite <- E; exact a1). injection Y as ->. split; [exact h0|].
    exists t, ta. split; [exact a2|]. split; [exact a3|]. split; [exact h1|]. split; [exact h2|]. eapply off_mono; [|exact o]. lia.
  - intros c c' n t0 t ta t0' h0 h1 h2 C o E. destruct (h c t0 c' t (nrm c) ta) as [a1 [a2 a3]].
    assert (Y : Ok (store_monomial go so (g :: m) c t0) = Ok t0') by (rewrite <- E; symmetry; exact a1).
    destruct (near_store (g :: m) c c' n t0 t ta t0' h0 h1 h2 C o Y) as [q1 [t' [ta' [E' [Ea' K]]]]]. split; [exact q1|].
    exists t', ta'. split; [rewrite <- E'; exact a2|]. split; [rewrite <- Ea'; exact a3|exact K].
  - apply near_fail. intros c t t' E. assert (Y : Ok t' = @Bad emp) by (rewrite <- E; exact (h c t)). discriminate.
Qed.
(** a dropped coefficient *)
Lemma reduce_drop fuel m c c' n t0 t ta t0' : srt t0 -> srt t -> srt ta -> close n c' c -> s_is_zero fo c' = true -> off n t t0 ta ->
  reduce_powers_and_store go so fuel m c t0 = Ok t0' ->
  srt t0' /\ exists ta', reduce_powers_and_store go ao fuel m (nrm c) ta = Ok ta' /\ srt ta' /\ off (n + 1) t t0' ta'.
Proof.
  intros h0 h1 h2 C Z o E.
  assert (ST : srt (store_monomial go so m c t0) /\ srt (store_monomial go ao m (nrm c) ta) /\
               off (n + 1) t (store_monomial go so m c t0) (store_monomial go ao m (nrm c) ta)).
  { rewrite !store_is_ins. split; [now apply ins_sorted|]. split; [now apply (ins_sorted go Ho ao)|].
    intros k. rewrite (coef_ins go Ho so L) by auto. rewrite cfa_ins by exact h2.
    destruct (mono_dec go Ho k m) as [->|n1].
    2:{ destruct (off_mono n (n + 1) t t0 ta (Nat.le_add_r _ _) o k) as [o1 o2]. split; [exact o1|exact o2]. }
    destruct (o m) as [o1 o2]. pose proof (nl_pos _ _ NL (cf t0 m)) as P0. pose proof (nl_pos _ _ NL c) as Pc.
    split; [|eapply Rle_trans; [apply (nl_add _ _ NL)|]; lra].
    pose proof (fl_tol _ _ _ _ _ FL c' Z) as TW. unfold close in C.
    set (a := cf t0 m) in *. set (A := cfa ta m) in *. set (v := cf t m) in *.
    pose proof (tri (s_zero so) c' c) as TZ.
    assert (NW : forall w, nrm (s_zero so [-] w) = nrm w) by (intros; rewrite (sl_sub so L), (sl_add_0 so L); apply (nl_neg _ _ NL)).
    rewrite !NW in TZ.
    pose proof (ce_drop u tol U0 T0 n A (nrm c) (nrm (v [-] a)) (nrm c) ltac:(lra) Pc o1 ltac:(lra)) as D.
    assert (Y : (nrm (v [-] (a [+] c)) <= nrm (v [-] a) + nrm c)%R).
    { rewrite <- (s_add_0_r so L v) at 1. rewrite (RoundProofs.add_diff so L). eapply Rle_trans; [apply (nl_add _ _ NL)|]. rewrite NW. lra. }
    lra. }
  destruct fuel as [|fuel]; [discriminate|]. destruct m as [|g m].
  - injection E as <-. split; [apply ST|]. eexists. split; [reflexivity|]. split; apply ST.
  - destruct (reduce_scan_same (normalize_and_store go so fuel) (reduce_powers_and_store go so fuel)
      (normalize_and_store go fo fuel) (reduce_powers_and_store go fo fuel)
      (normalize_and_store go ao fuel) (reduce_powers_and_store go ao fuel) (length (g :: m)) 0 1 (g :: m)) as [h|[h|h]].
    + destruct (h c t0 c' t (nrm c) ta) as [a1 [a2 a3]]. assert (Y : Ok t0' = Ok t0) by (rewrite <- E; exact a1). injection Y as ->.
      split; [exact h0|]. exists ta. split; [exact a3|]. split; [exact h2|]. eapply off_mono; [|exact o]. lia.
    + destruct (h c t0 c' t (nrm c) ta) as [a1 [a2 a3]].
      assert (Y : Ok t0' = Ok (store_monomial go so (g :: m) c t0)) by (rewrite <- E; exact a1). injection Y as ->.
      split; [apply ST|]. eexists. split; [exact a3|]. split; apply ST.
    + assert (Y : Ok t0' = @Bad emp) by (rewrite <- E; exact (h c t0)). discriminate.
Qed.

Lemma steps_mono a b : a <= b -> steps a <= steps b.
Proof.
  induction 1 as [|b h IH]; auto. cbn [steps].
  assert (steps b <= (Datatypes.S b * Datatypes.S b) * (2 * (steps b + 1) + 1)); [|lia].
  assert (1 <= Datatypes.S b * Datatypes.S b) by (cbn; lia).
  assert (1 * steps b <= (Datatypes.S b * Datatypes.S b) * (2 * (steps b + 1) + 1)); [|lia].
  apply Nat.mul_le_mono; lia.
Qed.

Lemma normalize_near : forall fuel m,
  near (steps (length m)) (normalize_and_store go so fuel m) (normalize_and_store go fo fuel m) (normalize_and_store go ao fuel m).
Proof.
  induction fuel as [|fuel IH]; intros m; [apply near_fail; discriminate|].
  cbn [normalize_and_store]. destruct (2 <=? length m) eqn:E2.
  - apply Nat.leb_le in E2. destruct (length m) as [|N] eqn:EN; [lia|].
    assert (Hr : rec_near N (steps N) (normalize_and_store go so fuel) (normalize_and_store go fo fuel) (normalize_and_store go ao fuel)).
    { intros x hx. eapply near_mono; [|apply IH]. now apply steps_mono. }
    pose proof (sort_loop_near N (steps N) _ _ _ Hr (Datatypes.S N - 1) m EN) as K.
    intros c c0 n t0 t ta t0' h0 h1 h2 C o E. specialize (K c c0 n t0 t ta h0 h1 h2 C o). cbv beta in K.
    replace (Datatypes.S N - 1) with N in * by lia.
    assert (BB : N * N * X (steps N) + 1 <= steps (Datatypes.S N)).
    { cbn [steps]. assert (H : N * N <= Datatypes.S N * Datatypes.S N) by nia.
      pose proof (Nat.mul_le_mono_r _ _ (2 * (steps N + 1) + 1) H) as H0. clear - H0. lia. }
    destruct (sort_loop go so (normalize_and_store go so fuel) N m c t0) as [m' c1 sw t1|t1| |]; try discriminate.
    + destruct K as [e1 [e2 [c1' [t2 [ta2 [e3 [e4 [e5 [e6 [e7 e8]]]]]]]]]]. rewrite e3, e4.
      cbn [s_is_zero magnitude_ops].
      destruct (s_is_zero so c1) eqn:Z0.
      * injection E as <-. apply (sl_is_zero _ L) in Z0. subst c1. rewrite (nl_0 _ _ NL).
        destruct (Req_EM_T 0 0) as [_|ne]; [|now contradiction ne].
        assert (c1' = s_zero so) as ->.
        { apply (fl_sep _ _ _ _ _ FL). unfold close in e7. rewrite (nl_0 _ _ NL), Rmult_0_r in e7.
          pose proof (near_norm c1' (s_zero so)) as Q. rewrite (nl_0 _ _ NL) in Q. lra. }
        rewrite (fl_zero _ _ _ _ _ FL). split; [exact e2|]. exists t2, ta2. repeat (split; [first [assumption|reflexivity]|]).
        eapply off_mono; [|exact e8]. clear - BB. lia.
      * destruct (Req_EM_T (nrm c1) 0) as [z|nz].
        { exfalso. assert (c1 = s_zero so) by (apply (fl_sep _ _ _ _ _ FL); lra). subst c1.
          rewrite (proj2 (sl_is_zero _ L _) eq_refl) in Z0. discriminate. }
        destruct (s_is_zero fo c1') eqn:Z.
        -- destruct (reduce_drop fuel m' c1 c1' _ t1 t2 ta2 t0' e2 e5 e6 e7 Z e8 E) as [q1 [ta3 [E3 [q3 o3]]]].
           split; [exact q1|]. exists t2, ta3. repeat (split; [first [assumption|reflexivity]|]).
           eapply off_mono; [|exact o3]. clear - BB. lia.
        -- destruct (reduce_near fuel m' c1 c1' _ t1 t2 ta2 t0' e2 e5 e6 e7 e8 E) as [q1 [t3 [ta3 [E3 [Ea3 [q3 [qa3 o3]]]]]]].
           split; [exact q1|]. exists t3, ta3. repeat (split; [assumption|]). eapply off_mono; [|exact o3]. clear - BB. lia.
    + injection E as <-. destruct K as [e2 [t2 [ta2 [e3 [e4 [e5 [e6 e8]]]]]]]. rewrite e3, e4. split; [exact e2|].
      exists t2, ta2. repeat (split; [first [assumption|reflexivity]|]). eapply off_mono; [|exact e8]. clear - BB. lia.
  - eapply near_mono; [|apply reduce_near]. change 1 with (steps 0). apply steps_mono. lia.
Qed.

Lemma mul_row_near (m1 : @mono G) c1 b : forall n t0 t ta t0', srt t0 -> srt t -> srt ta -> off n t t0 ta ->
  mul_row go so m1 c1 b t0 = Ok t0' ->
  srt t0' /\ exists t' ta', mul_row go fo m1 c1 b t = Ok t' /\ mul_row go ao m1 (nrm c1) (magnitudes nrm b) ta = Ok ta' /\
    srt t' /\ srt ta' /\ off (n + steps_row m1 b) t' t0' ta'.
Proof.
  induction b as [|[m2 c2] b IH]; intros n t0 t ta t0' h0 h1 h2 o E; cbn [mul_row steps_row magnitudes map] in *.
  - injection E as <-. split; [exact h0|]. exists t, ta. repeat (split; [first [assumption|reflexivity]|]). eapply off_mono; [|exact o]. lia.
  - cbn [fst snd]. destruct (normalize go so (m1 ++ m2) (s_mul so c1 c2) t0) as [t1| |] eqn:E1; try discriminate. cbn [rbind] in E.
    assert (C1 : close (n + 1) (s_mul fo c1 c2) (s_mul so c1 c2)).
    { apply (close_mono (0 + 1)); [clear; lia|]. apply close_mul, close_refl. }
    destruct (normalize_near _ _ _ (s_mul fo c1 c2) (n + 1) t0 t ta t1 h0 h1 h2 C1 (off_mono n (n + 1) _ _ _ (Nat.le_add_r _ _) o) E1) as [q1 [t2 [ta2 [E2 [Ea2 [q2 [qa2 o2]]]]]]].
    destruct (IH _ t1 t2 ta2 t0' q1 q2 qa2 o2 E) as [q3 [t3 [ta3 [E3 [Ea3 [q4 [qa4 o3]]]]]]].
    split; [exact q3|]. exists t3, ta3. split.
    { unfold normalize. unfold norm_fuel in *. rewrite E2. exact E3. }
    split.
    { rewrite (nl_mul _ _ NL) in Ea2. unfold normalize. unfold norm_fuel in *. cbn [s_mul magnitude_ops]. rewrite Ea2. exact Ea3. }
    split; [exact q4|]. split; [exact qa4|]. rewrite app_length in o3. eapply off_mono; [|exact o3]. clear. lia.
Qed.
Lemma mul_rows_near b : forall a n t0 t ta t0', srt t0 -> srt t -> srt ta -> off n t t0 ta ->
  mul_rows go so a b t0 = Ok t0' ->
  srt t0' /\ exists t' ta', mul_rows go fo a b t = Ok t' /\ mul_rows go ao (magnitudes nrm a) (magnitudes nrm b) ta = Ok ta' /\
    srt t' /\ srt ta' /\ off (n + steps_all a b) t' t0' ta'.
Proof.
  induction a as [|[m1 c1] a IH]; intros n t0 t ta t0' h0 h1 h2 o E; cbn [mul_rows steps_all] in *.
  - injection E as <-. split; [exact h0|]. exists t, ta. repeat (split; [first [assumption|reflexivity]|]). eapply off_mono; [|exact o]. lia.
  - destruct (mul_row go so m1 c1 b t0) as [t1| |] eqn:E1; try discriminate. cbn [rbind] in E.
    destruct (mul_row_near m1 c1 b n t0 t ta t1 h0 h1 h2 o E1) as [q1 [t2 [ta2 [E2 [Ea2 [q2 [qa2 o2]]]]]]].
    destruct (IH _ t1 t2 ta2 t0' q1 q2 qa2 o2 E) as [q3 [t3 [ta3 [E3 [Ea3 [q4 [qa4 o3]]]]]]].
    split; [exact q3|]. exists t3, ta3. rewrite E2. split; [exact E3|]. split.
    { cbn [magnitudes map mul_rows fst snd]. fold (magnitudes nrm b). rewrite Ea2. exact Ea3. }
    split; [exact q4|]. split; [exact qa4|]. now rewrite Nat.add_assoc.
Qed.
Lemma e_mul_near a b e0 : e_mul go so a b = Ok e0 ->
  srt e0 /\ exists e ea, e_mul go fo a b = Ok e /\ e_mul go ao (magnitudes nrm a) (magnitudes nrm b) = Ok ea /\
    srt e /\ srt ea /\ off (steps_all a b) e e0 ea.
Proof.
  intros E. apply (mul_rows_near b a 0 [] [] [] e0); auto; try constructor.
  - unfold coef. cbn [map_find s_zero magnitude_ops]. rewrite sub_self, (nl_0 _ _ NL). unfold coef_error. cbn. lra.
  - unfold coef. cbn [map_find s_zero magnitude_ops]. rewrite (nl_0 _ _ NL). lra.
Qed.
End Near.
