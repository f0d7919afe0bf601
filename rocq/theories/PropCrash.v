(** * Property C79: exceptions in the middle of operations on expressions.
    The crash point [k] is the number of calls that succeed before one throws
    (CrashModel.v); the second component of an outcome is [None] iff an
    exception was thrown.  Vocabulary: ExprSpec.v. *)
From Coq Require Import String ZArith Bool Lia QArith Qcanon List Sorted Arith.
From Verif Require Import ExprModel ExprSpec ExprOrder ExprMap ExprEval ExprStd ExprCanon ExprMain
  ExprInst ConvModel ConvSpec ConvProofs CrashModel CrashProofs.
Import ListNotations.
Close Scope Qc_scope.
Close Scope Q_scope.
Close Scope string_scope.
Open Scope nat_scope.
Open Scope list_scope.

(** a += b: whatever call throws, a is in canonical form, the first [k]
    monomials of b have been added and the others not. *)
Theorem C79_add_assign : forall I (io : index_ops I) S (so : scalar_ops S) a b k,
  index_order io -> scalar_domain so -> canonical_expr io so a -> canonical_expr io so b ->
  let r := fst (add_assign_c (std_gen_ops io) so k a b) in
  let thrown := snd (add_assign_c (std_gen_ops io) so k a b) = None in
  canonical_expr io so r /\
  (thrown <-> k < length b) /\
  (~ thrown -> r = e_add_assign (std_gen_ops io) so a b) /\
  (forall n m y x, nth_error b n = Some (m, y) -> coeff_is so a m x ->
     coeff_is so r m (if n <? k then s_add so x y else x)) /\
  (forall m x, (forall y, ~ In (m, y) b) -> coeff_is so a m x -> coeff_is so r m x).
Proof.
  intros I io S so a b k Hio D Ha Hb r thrown. pose proof (sd_laws _ D) as L. pose proof (std_order io Hio) as Hgo.
  subst r thrown. rewrite add_assign_c_eq. cbn [fst snd].
  pose proof (canonical_add io Hio so D a (firstn k b) Ha (canonical_firstn io so k b Hb)) as C.
  pose proof (canonical_wf io Hio so _ C) as [c1 _].
  pose proof (canonical_wf io Hio so _ Ha) as [a1 _]. pose proof (canonical_wf io Hio so _ Hb) as [b1 _].
  pose proof (msorted_firstn io k b b1) as f1.
  split; [exact C|]. unfold mono. split; [|split; [|split]].
  - unfold mono; destruct (Nat.leb_spec (length b) k); split; intros X0; try discriminate X0; try lia; reflexivity.
  - unfold mono; destruct (Nat.leb_spec (length b) k) as [l|l]; [|congruence]. intros _. now rewrite firstn_all2.
  - intros n m y x hn hx. apply (coef_spec _ Hgo so) in hx; auto. apply (coef_spec _ Hgo so); auto.
    rewrite (coef_add_assign _ Hgo so L) by auto. rewrite (coef_firstn io Hio so b k n m y b1 hn), hx.
    destruct (n <? k); auto. apply (s_add_0_r so L).
  - intros m x hm hx. apply (coef_spec _ Hgo so) in hx; auto. apply (coef_spec _ Hgo so); auto.
    rewrite (coef_add_assign _ Hgo so L) by auto.
    rewrite (coef_absent io Hio so (firstn k b) m f1), hx; [apply (s_add_0_r so L)|].
    intros y i. apply (hm y). eapply in_firstn; eauto.
Qed.
Print Assumptions C79_add_assign.

(** a -= b: the same for subtraction ([n0] monomials were subtracted) *)
Theorem C79_sub_assign : forall I (io : index_ops I) S (so : scalar_ops S) a b k,
  index_order io -> scalar_domain so -> canonical_expr io so a -> canonical_expr io so b ->
  let r := fst (sub_assign_c (std_gen_ops io) so k a b) in
  let thrown := snd (sub_assign_c (std_gen_ops io) so k a b) = None in
  canonical_expr io so r /\
  (2 * length b < k -> ~ thrown) /\
  (~ thrown -> r = e_sub_assign (std_gen_ops io) so a b) /\
  exists n0, n0 <= length b /\
  (forall n m y x, nth_error b n = Some (m, y) -> coeff_is so a m x ->
     coeff_is so r m (if n <? n0 then s_sub so x y else x)) /\
  (forall m x, (forall y, ~ In (m, y) b) -> coeff_is so a m x -> coeff_is so r m x).
Proof.
  intros I io S so a b k Hio D Ha Hb r thrown. pose proof (sd_laws _ D) as L. pose proof (std_order io Hio) as Hgo.
  destruct (sub_assign_c_spec (std_gen_ops io) so b k a) as (n0 & h1 & h2 & h3 & h4).
  subst r thrown. rewrite h2.
  pose proof (canonical_sub io Hio so D a (firstn n0 b) Ha (canonical_firstn io so n0 b Hb)) as C.
  pose proof (canonical_wf io Hio so _ C) as [c1 _].
  pose proof (canonical_wf io Hio so _ Ha) as [a1 _]. pose proof (canonical_wf io Hio so _ Hb) as [b1 _].
  pose proof (msorted_firstn io n0 b b1) as f1.
  assert (Z : forall x, s_sub so x (s_zero so) = x).
  { intros x. rewrite (sl_sub _ L), (s_neg_zero so L). apply (s_add_0_r so L). }
  split; [exact C|]. split; [intros l h; apply h4 in h; unfold mono in h; lia|]. split.
  - intros h. rewrite (h3 h). now rewrite firstn_all.
  - exists n0. split; [exact h1|]. split.
    + intros n m y x hn hx. apply (coef_spec _ Hgo so) in hx; auto. apply (coef_spec _ Hgo so); auto.
      rewrite (coef_sub_assign _ Hgo so L) by auto. rewrite (coef_firstn io Hio so b n0 n m y b1 hn), hx.
      destruct (n <? n0); auto.
    + intros m x hm hx. apply (coef_spec _ Hgo so) in hx; auto. apply (coef_spec _ Hgo so); auto.
      rewrite (coef_sub_assign _ Hgo so L) by auto.
      rewrite (coef_absent io Hio so (firstn n0 b) m f1), hx; auto.
      intros y i. apply (hm y). eapply in_firstn; eauto.
Qed.
Print Assumptions C79_sub_assign.

(** a *= b, a += x, a -= x: if anything throws, a is as before; otherwise the
    result is the one without exceptions (any algebra, any scalars). *)
Theorem C79_all_or_nothing : forall G (go : gen_ops G) S (so : scalar_ops S) k a b x,
  (exists o, mul_assign_c go so k a b = Some o /\
     (snd o = None -> fst o = a) /\ (snd o <> None -> e_mul go so a b = Ok (fst o)) /\
     (length a * length b <= k -> snd o = None -> e_mul go so a b = Throw)) /\
  (snd (add_const_c go so k a x) = None -> fst (add_const_c go so k a x) = a) /\
  (snd (add_const_c go so k a x) <> None -> fst (add_const_c go so k a x) = e_add_assign_const go so a x) /\
  (snd (sub_const_c go so k a x) = None -> fst (sub_const_c go so k a x) = a) /\
  (snd (sub_const_c go so k a x) <> None -> fst (sub_const_c go so k a x) = e_sub_const go so a x) /\
  (3 <= k -> snd (add_const_c go so k a x) <> None /\ snd (sub_const_c go so k a x) <> None).
Proof.
  intros G go S so k a b x. destruct (mul_assign_c_spec go so k a b) as (o & h1 & h2 & h3).
  split; [|pose proof (add_const_c_spec go so k a x); pose proof (sub_const_c_spec go so k a x); tauto].
  exists o. repeat split; auto. intros l h. unfold mul_assign_c in h1.
  destruct (mul_rows_c go so k a b []) as [[r k']| |] eqn:E; inversion h1; subst; try discriminate.
  eapply mul_rows_c_throw; eauto.
Qed.
Print Assumptions C79_all_or_nothing.

(** a *= x: the first [k] coefficients are multiplied, the others not *)
Theorem C79_scale : forall I (io : index_ops I) S (so : scalar_ops S) a x k,
  index_order io -> scalar_domain so -> canonical_expr io so a -> x <> s_zero so ->
  let r := fst (mul_const_c so k a x) in
  let thrown := snd (mul_const_c so k a x) = None in
  canonical_expr io so r /\ (thrown <-> k < length a) /\
  (~ thrown -> r = e_mul_const_post so a x) /\
  map fst r = map fst a /\
  (forall n m y, nth_error a n = Some (m, y) ->
     nth_error r n = Some (m, if n <? k then s_mul so y x else y)).
Proof.
  intros I io S so a x k Hio D Ha Hx r thrown. pose proof (sd_laws _ D) as L.
  assert (Zx : s_is_zero so x = false) by now apply (s_is_zero_false so L).
  subst r thrown. unfold mul_const_c, e_mul_const_post. rewrite Zx, scale_c_eq. cbn [fst snd].
  set (f := fun p : list (gen I) * S => (fst p, s_mul so (snd p) x)).
  assert (K : map fst (map f (firstn k a) ++ skipn k a) = map fst a).
  { rewrite map_app, map_map. cbn [fst f]. rewrite <- map_app, firstn_skipn. reflexivity. }
  assert (N : forall n m y, nth_error a n = Some (m, y) ->
    nth_error (map f (firstn k a) ++ skipn k a) n = Some (m, if n <? k then s_mul so y x else y)).
  { intros n m y hn. assert (ln : n < length a) by (apply nth_error_Some; congruence).
    destruct (Nat.ltb_spec n k) as [l|l].
    - rewrite nth_error_app1 by (rewrite map_length, firstn_length; lia).
      rewrite (map_nth_error f n (firstn k a) (d := (m, y))); [reflexivity|].
      rewrite <- (firstn_skipn k a) in hn. rewrite nth_error_app1 in hn; auto. rewrite firstn_length. lia.
    - rewrite nth_error_app2; rewrite map_length, firstn_length; [|lia].
      replace (Nat.min k (length a)) with k by lia.
      rewrite <- (firstn_skipn k a) in hn. rewrite nth_error_app2 in hn; rewrite firstn_length in *; [|lia].
      replace (Nat.min k (length a)) with k in hn by lia. exact hn. }
  split; [|split; [|split; [|split]]].
  - destruct Ha as [h1 h2]. split; [now rewrite K|].
    intros m c i. apply in_app_or in i. destruct i as [i|i].
    + apply in_map_iff in i. destruct i as [[m' y] [E i]]. unfold f in E. cbn [fst snd] in E.
      inversion E; subst. apply in_firstn in i. destruct (h2 _ _ i) as [k1 k2]. split; auto.
      intros Z. destruct (sd_nzd _ D _ _ Z); contradiction.
    + apply h2. rewrite <- (firstn_skipn k a). apply in_or_app. auto.
  - unfold mono; destruct (Nat.leb_spec (length a) k); split; intros X0; try discriminate X0; try lia; reflexivity.
  - unfold mono; destruct (Nat.leb_spec (length a) k) as [l|l]; [|congruence]. intros _.
    rewrite firstn_all2, skipn_all2, app_nil_r by auto. reflexivity.
  - exact K.
  - exact N.
Qed.
Print Assumptions C79_scale.

(** Assignment from an expression with another scalar type: the old value is
    lost, and what is stored is an initial part of the new one. *)
Theorem C79_assign_from : forall I (io : index_ops I) S T (so : scalar_ops S) (to : scalar_ops T)
  (mo : mixed_ops S T) (old : list (list (gen I) * S)) (x : list (list (gen I) * T)) k,
  index_order io -> scalar_laws so -> scalar_laws to -> exact_conversion to so (mx_conv mo) -> canonical_expr io to x ->
  let r := fst (assign_from_c (std_gen_ops io) mo k old x) in
  let thrown := snd (assign_from_c (std_gen_ops io) mo k old x) = None in
  r = convert_all (mx_conv mo) (firstn k x) /\ canonical_expr io so r /\ (thrown <-> k < length x).
Proof.
  intros I io S T so to mo old x k Hio Ls Lt X Hx r thrown. subst r thrown. unfold assign_from_c.
  rewrite emplace_all_c_eq. cbn [fst snd].
  pose proof (canonical_firstn io to k x Hx) as Hk.
  pose proof (canonical_wf io Hio to _ Hk) as [hs _].
  assert (E : fold_left (fun e p => fst (map_emplace (std_gen_ops io) (fst p) (mx_conv mo (snd p)) e)) (firstn k x) [] =
              convert_all (mx_conv mo) (firstn k x)) by (now rewrite (fold_emplace (std_gen_ops io) (mx_conv mo)) by auto).
  split; [exact E|]. split.
  - rewrite E. destruct Hk as [h1 h2]. split.
    + unfold convert_all. rewrite map_map. exact h1.
    + intros m c i. apply in_map_iff in i. destruct i as [[n d] [K i]]. injection K as <- <-.
      destruct (h2 _ _ i) as [c1 c2]. split; auto. simpl. intros K. apply c2.
      apply (sl_is_zero _ Lt). rewrite <- (xc_is_zero _ _ _ X). now apply (sl_is_zero _ Ls).
  - unfold mono; destruct (Nat.leb_spec (length x) k); split; intros X0; try discriminate X0; try lia; reflexivity.
Qed.
Print Assumptions C79_assign_from.

(** Programs: any sequence of assignments, each interrupted by an exception at
    any point (or not at all), with the exceptions caught.  [over B]: the
    monomials used are products of generators from [B]; [no_alias]: += and -=
    are not applied to an expression and itself (C58). *)
Definition over {I S} (B : list (gen I)) (s : @stmt (gen I) S) : Prop :=
  match s with SAssign _ (RMono _ m) => incl m B | _ => True end.
Definition no_alias {G S} (s : @stmt G S) : Prop :=
  match s with SAdd i j | SSub i j => i <> j | _ => True end.

Theorem C79_programs : forall I (io : index_ops I) S (so : scalar_ops S) B (p : list (nat * @stmt (gen I) S)),
  index_order io -> scalar_domain so -> conj_laws so -> spin_consistent B ->
  Forall (fun q => over B (snd q) /\ no_alias (snd q)) p ->
  exists v, exec_all (std_gen_ops io) so p env0 = Some v /\ forall i, canonical_expr io so (v i).
Proof.
  intros I io S so B p Hio D CL HB. pose proof (sd_laws _ D) as L. pose proof (std_order io Hio) as Hgo.
  pose proof (std_canon io Hio B HB) as AC.
  set (IV := inv (std_gen_ops io) so (admissible B)).
  assert (K : forall q v, Forall (fun q => over B (snd q) /\ no_alias (snd q)) q -> (forall i, IV (v i)) ->
     exists v', exec_all (std_gen_ops io) so q v = Some v' /\ forall i, IV (v' i)).
  2: { intros F. destruct (K p env0 F) as (v & h1 & h2).
       - intros i. apply inv_nil.
       - exists v. split; auto. intros i. apply (inv_canonical io Hio so B). apply h2. }
  assert (SET : forall v i e, (forall j, IV (v j)) -> IV e -> forall j, IV (env_set v i e j)).
  { intros v i e hv he j. unfold env_set. destruct (Nat.eqb j i); auto. }
  induction q as [|[k s] q IH]; intros v F Hv; [exists v; auto|].
  inversion F as [|? ? [hO _] F']; subst. cbn [snd] in hO. cbn [exec_all].
  assert (E1 : exists v1, exec (std_gen_ops io) so k s v = Some v1 /\ forall i, IV (v1 i)).
  2: { destruct E1 as (v1 & -> & h). apply IH; auto. }
  destruct s as [i r|i j|i j|i j|i x|i x|i x]; cbn [exec].
  - destruct k as [|k]; [exists v; auto|].
    destruct (eval_rhs (std_gen_ops io) so v r) as [e| |] eqn:E; [|exists v; auto|].
    + exists (env_set v i e). split; auto. apply SET; auto.
      destruct r as [x|x m|j l|j l|j l|j|j|j x]; cbn [eval_rhs] in E.
      * injection E as <-. apply (e_const_inv _ Hgo so D).
      * eapply (e_mono_inv _ Hgo so D _ AC); [|exact E]. apply (adm_incl B). exact hO.
      * injection E as <-. apply (inv_add _ Hgo so D); apply Hv.
      * injection E as <-. apply (inv_sub _ Hgo so D); apply Hv.
      * eapply (e_mul_inv _ Hgo so D _ AC); [apply Hv|apply Hv|exact E].
      * injection E as <-. apply (inv_neg _ so D); apply Hv.
      * eapply (e_conj_inv io Hio so D B HB); [apply Hv|exact E].
      * injection E as <-. unfold e_mul_const_post. destruct (s_is_zero so x) eqn:Z; [apply inv_nil|].
        apply (mul_const_inv io so B (fun y => s_mul so y x)); [|apply Hv].
        intros y hy. apply (mul_nz so D); auto. now apply (s_is_zero_false so L).
    + exfalso. destruct r as [x|x m|j l|j l|j l|j|j|j x]; cbn [eval_rhs] in E; try discriminate.
      * exact (e_mono_terminates _ so x m E).
      * exact (e_mul_terminates _ so _ _ E).
      * exact (e_conj_not_bad _ so _ E).
  - eexists. split; [reflexivity|]. apply SET; auto. rewrite add_assign_c_eq. cbn [fst].
    apply (inv_add _ Hgo so D); [apply Hv|]. apply inv_firstn. apply Hv.
  - eexists. split; [reflexivity|]. apply SET; auto.
    destruct (sub_assign_c_spec (std_gen_ops io) so (v j) k (v i)) as (n & _ & -> & _).
    apply (inv_sub _ Hgo so D); [apply Hv|]. apply inv_firstn. apply Hv.
  - destruct (mul_assign_c_spec (std_gen_ops io) so k (v i) (v j)) as ([e o] & -> & h2 & h3). cbn [option_map fst snd] in *.
    eexists. split; [reflexivity|]. apply SET; auto. destruct o as [o|].
    + assert (E : e_mul (std_gen_ops io) so (v i) (v j) = Ok e) by (apply h3; discriminate).
      eapply (e_mul_inv _ Hgo so D _ AC); [apply Hv|apply Hv|exact E].
    + rewrite h2; auto.
  - eexists. split; [reflexivity|]. apply SET; auto. unfold mul_const_c. generalize (Hv i). generalize (v i). clear - D L. change (@emap (gen I) S) with (list (list (gen I) * S)). intros a Ha.
    destruct (s_is_zero so x) eqn:Z; [apply inv_nil|]. rewrite scale_c_eq. cbn [fst].
    destruct (Ha : inv (std_gen_ops io) so (admissible B) a) as [h1 [h2 h3]].
    assert (KE : map fst (map (fun p => (fst p, s_mul so (snd p) x)) (firstn k a) ++ skipn k a) = map fst a).
    { rewrite map_app, map_map. cbn [fst]. rewrite <- map_app, firstn_skipn. reflexivity. }
    apply (inv_keys (std_gen_ops io) so (admissible B) a Ha).
    + unfold msorted in *. refine (eq_ind_r (fun l : list (list (gen I)) => StronglySorted (klt (std_gen_ops io)) l) _ KE). exact h1.
    + intros m c hi. apply in_app_or in hi. destruct hi as [hi|hi].
      * apply in_map_iff in hi. destruct hi as [[m' y] [E hi]]. cbn [fst snd] in E. injection E as <- <-.
        apply (mul_nz so D); [|now apply (s_is_zero_false so L)]. eapply h2. eapply in_firstn; eauto.
      * apply (h2 m). rewrite <- (firstn_skipn k a). apply in_or_app. auto.
    + intros m c hi. exact (eq_ind _ (fun l => In m l) (in_map fst _ (m, c) hi) _ KE).
  - eexists. split; [reflexivity|]. apply SET; auto.
    destruct (add_const_c_spec (std_gen_ops io) so k (v i) x) as (h1 & h2 & _).
    destruct (snd (add_const_c (std_gen_ops io) so k (v i) x)) eqn:E.
    + rewrite h2 by discriminate. rewrite (add_assign_const_ins _ so L), add_const_ins.
      destruct (s_is_zero so x) eqn:Z; [apply Hv|].
      apply (add_const_inv io Hio so D B); [apply Hv|]. now apply (s_is_zero_false so L).
    + rewrite h1; auto.
  - eexists. split; [reflexivity|]. apply SET; auto.
    destruct (sub_const_c_spec (std_gen_ops io) so k (v i) x) as (h1 & h2 & _).
    destruct (snd (sub_const_c (std_gen_ops io) so k (v i) x)) eqn:E.
    + rewrite h2 by discriminate. rewrite (sub_const_ins _ so L).
      destruct (s_is_zero so x) eqn:Z; [apply Hv|].
      apply (add_const_inv io Hio so D B); [apply Hv|]. intros E'.
      apply (proj1 (s_neg_zero_iff so L _)) in E'. apply (s_is_zero_false so L) in Z. contradiction.
    + rewrite h1; auto.
Qed.
Print Assumptions C79_programs.

(** What the statements of a program mean: the variable they assign to and the
    value they give it if nothing throws *)
Definition target {G S} (s : @stmt G S) : nat :=
  match s with
  | SAssign i _ | SAdd i _ | SSub i _ | SMul i _ => i
  | SMulC i _ | SAddC i _ | SSubC i _ => i
  end.
Definition meaning {G S} (go : gen_ops G) (so : scalar_ops S) (s : @stmt G S) (v : nat -> list (list G * S)) : res (list (list G * S)) :=
  match s with
  | SAssign _ (RScalar x) => Ok (e_const so x)
  | SAssign _ (RMono x m) => e_mono go so x m
  | SAssign _ (RSum j l) => Ok (e_add go so (v j) (v l))
  | SAssign _ (RDiff j l) => Ok (e_sub go so (v j) (v l))
  | SAssign _ (RProd j l) => e_mul go so (v j) (v l)
  | SAssign _ (RNeg j) => Ok (e_neg so (v j))
  | SAssign _ (RConj j) => e_conj go so (v j)
  | SAssign _ (RScale j x) => Ok (e_mul_const_post so (v j) x)
  | SAdd i j => Ok (e_add_assign go so (v i) (v j))
  | SSub i j => Ok (e_sub_assign go so (v i) (v j))
  | SMul i j => e_mul go so (v i) (v j)
  | SMulC i x => Ok (e_mul_const_post so (v i) x)
  | SAddC i x => Ok (e_add_assign_const go so (v i) x)
  | SSubC i x => Ok (e_sub_const go so (v i) x)
  end.
(** Whatever the crash point, only the assigned variable changes; with enough
    successful calls it gets the value of the right-hand side, or keeps its
    value if the computation of that value throws by itself. *)
Theorem C79_statement_effect : forall G (go : gen_ops G) S (so : scalar_ops S) s v,
  (forall k v', exec go so k s v = Some v' -> forall j, j <> target s -> v' j = v j) /\
  exists n, forall k v', n <= k -> exec go so k s v = Some v' ->
    match meaning go so s v with
    | Ok e => v' (target s) = e
    | Throw => v' (target s) = v (target s)
    | Bad => False
    end.
Proof.
  intros G go S so s v. split.
  - intros k v' E j hj. assert (ES : forall e, env_set v (target s) e j = v j).
    { intros e. unfold env_set. destruct (Nat.eqb_spec j (target s)); [contradiction|reflexivity]. }
    destruct s as [i r|i j'|i j'|i j'|i x|i x|i x]; cbn [exec target] in *; try (injection E as <-; apply ES).
    + destruct k; [injection E as <-; reflexivity|]. destruct (eval_rhs go so v r); inversion E; auto.
    + destruct (mul_assign_c go so k (v i) (v j')) as [o|]; cbn in E; [|discriminate]. injection E as <-. apply ES.
  - assert (ES : forall e, env_set v (target s) e (target s) = e).
    { intros e. unfold env_set. now rewrite Nat.eqb_refl. }
    destruct s as [i r|i j|i j|i j|i x|i x|i x]; cbn [exec target meaning] in *.
    + exists 1. intros k v' hk E. destruct k as [|k]; [lia|].
      assert (Q : match eval_rhs go so v r with Ok e => v' i = e | Throw => v' i = v i | Bad => False end).
      { destruct (eval_rhs go so v r) as [e| |]; inversion E; auto. }
      destruct r; exact Q.
    + exists (length (v j)). intros k v' hk E. injection E as <-. rewrite ES, add_assign_c_eq. cbn [fst].
      now rewrite firstn_all2.
    + exists (Datatypes.S (2 * length (v j))). intros k v' hk E. injection E as <-. rewrite ES.
      destruct (sub_assign_c_spec go so (v j) k (v i)) as (n0 & h1 & h2 & h3 & h4). rewrite h2.
      assert (X : snd (sub_assign_c go so k (v i) (v j)) <> None).
      { intros X. apply h4 in X. unfold emap, mono in *. clear - hk X. lia. }
      rewrite (h3 X). now rewrite firstn_all.
    + exists (length (v i) * length (v j)). intros k v' hk E.
      destruct (C79_all_or_nothing G go S so k (v i) (v j) (s_zero so)) as [[o [h1 [h2 [h3 h4]]]] _].
      rewrite h1 in E. cbn in E. injection E as <-. rewrite ES. destruct (snd o) eqn:Eo.
      * rewrite h3 by discriminate. reflexivity.
      * rewrite h4 by auto. auto.
    + exists (length (v i)). intros k v' hk E. injection E as <-. rewrite ES. unfold mul_const_c, e_mul_const_post.
      destruct (s_is_zero so x); auto. rewrite scale_c_eq. cbn [fst]. unfold emap, mono in *. rewrite firstn_all2, skipn_all2 by exact hk. now rewrite app_nil_r.
    + exists 3. intros k v' hk E. injection E as <-. rewrite ES.
      destruct (C79_all_or_nothing G go S so k (v i) (v i) x) as [_ [_ [h1 [_ [_ h2]]]]]. apply h1. now apply h2.
    + exists 3. intros k v' hk E. injection E as <-. rewrite ES.
      destruct (C79_all_or_nothing G go S so k (v i) (v i) x) as [_ [_ [_ [_ [h1 h2]]]]]. apply h1. now apply h2.
Qed.
Print Assumptions C79_statement_effect.

(** Non-vacuity: a = c^+_0 + c_0 (variable 0), b = 3 c^+_0 - c_0 + 5 c_1 (variable 1);
    [a += b] interrupted after one, two and no calls *)
Definition ex_prog (k : nat) : list (nat * @stmt (gen Z) Z) :=
  [ (1, SAssign 0 (RMono 1%Z [GFermion true 0%Z])); (1, SAssign 2 (RMono 1%Z [GFermion false 0%Z]));
    (9, SAdd 0 2);
    (1, SAssign 1 (RMono 3%Z [GFermion true 0%Z])); (9, SSub 1 2);
    (1, SAssign 2 (RMono 5%Z [GFermion false 1%Z])); (9, SAdd 1 2);
    (k, SAdd 0 1) ].
Definition ex_final (k : nat) : option (list (list (gen Z) * Z)) :=
  option_map (fun v => v 0) (exec_all (std_gen_ops int_index_ops) int_scalar_ops (ex_prog k) env0).
Definition ex_gens : list (gen Z) := [GFermion true 0%Z; GFermion false 0%Z; GFermion false 1%Z].
Example C79_ex :
  spin_consistent ex_gens /\
  (forall k, Forall (fun q => over ex_gens (snd q) /\ no_alias (snd q)) (ex_prog k)) /\
  ex_final 0 = Some [([GFermion true 0%Z], 1%Z); ([GFermion false 0%Z], 1%Z)] /\
  ex_final 1 = Some [([GFermion true 0%Z], 4%Z); ([GFermion false 0%Z], 1%Z)] /\
  ex_final 2 = Some [([GFermion true 0%Z], 4%Z); ([GFermion false 1%Z], 5%Z); ([GFermion false 0%Z], 1%Z)] /\
  ex_final 3 = Some [([GFermion true 0%Z], 4%Z); ([GFermion false 1%Z], 5%Z)].
Proof.
  split; [|split; [|vm_compute; auto]].
  - split.
    + intros c c' m i h1 h2. simpl in h1. repeat (destruct h1 as [h1|h1]; [discriminate|]). contradiction.
    + intros m c i h. simpl in h. repeat (destruct h as [h|h]; [discriminate|]). contradiction.
  - intros k. unfold ex_prog.
    repeat (apply Forall_cons; [split; simpl; auto; try discriminate; try (intros g [<-|[]]; simpl; auto)|]).
    apply Forall_nil.
Qed.
