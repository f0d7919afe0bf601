(** When do expression operations throw?  Only when a structure constant
    cannot be converted to the scalar type. *)
From Coq Require Import ZArith Bool Lia List Sorted.
From Verif Require Import ExprModel ExprSpec ExprOrder ExprMap ExprEval.
Import ListNotations.
Open Scope nat_scope.
Open Scope list_scope.

Section Throw.
Context {G S : Type} (go : gen_ops G) (so : scalar_ops S) (P : G -> Prop).

Definition mk (v : var_number) : Prop := s_make so v <> None.
Definition lf_mk (f : linfun G) : Prop :=
  mk (const_term f) /\ Forall (fun t => P (fst t) /\ mk (snd t)) (terms f).

Record alg_make : Prop := {
  am_swap : forall a b c f, P a -> P b -> g_swap go a b = (c, f) -> mk c /\ lf_mk f;
  am_simplify : forall a b f, P a -> P b -> g_simplify go a b = Some f -> lf_mk f;
  am_reduce : forall a n f, P a -> g_reduce go a n = Some f -> lf_mk f;
  am_conj : forall a, P a -> lf_mk (g_conj go a)
}.
Context (AM : alg_make).

Notation recT := (list G -> S -> list (list G * S) -> res (list (list G * S))).
Definition nt {A} (r : res A) : Prop := r <> Throw.
Definition rec_nt (rec : recT) : Prop := forall m c t, Forall P m -> nt (rec m c t).

Lemma process_terms_nt rec pre post c : rec_nt rec -> Forall P pre -> Forall P post ->
  forall ts t, Forall (fun t => P (fst t) /\ mk (snd t)) ts -> nt (process_terms so rec pre post c ts t).
Proof.
  intros Hr Hp Hq. induction ts as [|[g v] ts IH]; simpl; intros t h; [discriminate|].
  inversion h as [|? ? [h1 h2] h3]; subst. simpl in *.
  destruct (s_make so v) as [x|] eqn:E; [|contradiction].
  assert (HF : Forall P (pre ++ g :: post)) by (apply Forall_app; auto).
  pose proof (Hr (pre ++ g :: post) (s_mul so c x) t HF) as Hr'.
  destruct (rec _ _ t) as [t1| |]; simpl; auto; try discriminate; contradiction.
Qed.
Lemma process_f_nt rec pre post c f t : rec_nt rec -> Forall P pre -> Forall P post ->
  lf_mk f -> nt (process_f so rec pre post c f t).
Proof.
  intros Hr Hp Hq [h1 h2]. unfold process_f.
  destruct (vn_is_zero (const_term f)); simpl.
  - apply process_terms_nt; auto.
  - destruct (s_make so (const_term f)) as [x|] eqn:E; [|contradiction].
    assert (HF : Forall P (pre ++ post)) by (apply Forall_app; auto).
    pose proof (Hr (pre ++ post) (s_mul so c x) t HF) as Hr'.
    destruct (rec _ _ t) as [t1| |]; simpl; try contradiction; try discriminate.
    apply process_terms_nt; auto.
Qed.

Definition loop_nt (r : @loop_res G S) : Prop :=
  match r with LThrow => False | LDone m _ _ _ => Forall P m | _ => True end.

Lemma sort_pass_nt rec : rec_nt rec -> forall k n m c sw t, Forall P m ->
  loop_nt (sort_pass go so rec k n m c sw t).
Proof.
  intros Hr. induction k as [|k IH]; simpl; intros n m c sw t Hm; auto.
  destruct (nth_error m (n - 1)) as [a|] eqn:Ea; simpl; auto.
  destruct (nth_error m n) as [b|] eqn:Eb; simpl; auto.
  assert (Hpre : Forall P (firstn (n - 1) m)) by (apply Forall_firstn; auto).
  assert (Hpost : Forall P (skipn (n + 1) m)) by (apply Forall_skipn; auto).
  assert (Ha : P a) by (eapply (proj1 (Forall_forall _ _) Hm); eapply nth_error_In; eauto).
  assert (Hb : P b) by (eapply (proj1 (Forall_forall _ _) Hm); eapply nth_error_In; eauto).
  destruct (g_gt go a b).
  - destruct (g_swap go a b) as [cc f] eqn:Es. destruct (am_swap AM a b cc f Ha Hb Es) as [h1 h2].
    pose proof (process_f_nt rec _ _ c f t Hr Hpre Hpost h2) as K.
    destruct (process_f so rec (firstn (n - 1) m) (skipn (n + 1) m) c f t); simpl; auto.
    destruct (vn_eqb cc (VInt 0)); simpl; auto.
    destruct (s_make so cc) eqn:E; [|contradiction].
    apply IH. unfold swap_at. apply Forall_app; auto.
  - destruct (g_simplify go a b) as [f|] eqn:Es; auto.
    pose proof (am_simplify AM a b f Ha Hb Es) as h2.
    pose proof (process_f_nt rec _ _ c f t Hr Hpre Hpost h2) as K.
    destruct (process_f so rec (firstn (n - 1) m) (skipn (n + 1) m) c f t); simpl; auto.
Qed.
Lemma sort_loop_nt rec : rec_nt rec -> forall n_max m c t, Forall P m ->
  loop_nt (sort_loop go so rec n_max m c t).
Proof.
  intros Hr. induction n_max as [|n IH]; intros m c t Hm.
  - simpl. auto.
  - change (sort_loop go so rec (Datatypes.S n) m c t) with
      (match sort_pass go so rec (Datatypes.S n) 1 m c false t with
       | LDone m' coeff' true target' => sort_loop go so rec n m' coeff' target'
       | r => r end).
    pose proof (sort_pass_nt rec Hr (Datatypes.S n) 1 m c false t Hm) as K.
    destruct (sort_pass go so rec (Datatypes.S n) 1 m c false t) as [m' c' [|] t'|t'| |]; auto.
Qed.
Lemma reduce_terms_nt rec pre post c : rec_nt rec -> Forall P pre -> Forall P post ->
  forall ts t, Forall (fun t => P (fst t) /\ mk (snd t)) ts -> nt (reduce_terms so rec pre post c ts t).
Proof.
  intros Hr Hp Hq. induction ts as [|[g v] ts IH]; simpl; intros t h; [discriminate|].
  inversion h as [|? ? [h1 h2] h3]; subst. simpl in *.
  destruct (s_make so v) as [x|] eqn:E; [|contradiction].
  destruct (s_is_zero so x); simpl; auto.
  assert (HF : Forall P (pre ++ g :: post)) by (apply Forall_app; auto).
  pose proof (Hr (pre ++ g :: post) (s_mul so c x) t HF) as Hr'.
  destruct (rec _ _ t) as [t1| |]; simpl; auto; try discriminate; contradiction.
Qed.
Lemma reduce_scan_nt nrec rrec : rec_nt nrec -> rec_nt rrec -> forall k it pw m c t, Forall P m ->
  nt (reduce_scan go so nrec rrec k it pw m c t).
Proof.
  intros Hn Hr. induction k as [|k IH]; simpl; intros it pw m c t Hm; [discriminate|].
  destruct (it + 1 =? length m); [discriminate|].
  destruct (nth_error m it) as [cur|] eqn:Ec; [|discriminate].
  destruct (nth_error m (it + 1)) as [nx|]; [|discriminate].
  destruct (g_eq go nx cur); auto.
  destruct (if 2 <? pw + 1 then g_reduce go cur (pw + 1) else None) as [f|] eqn:Er; auto.
  destruct (lf_vanishing f); [discriminate|].
  assert (Hc : P cur) by (eapply (proj1 (Forall_forall _ _) Hm); eapply nth_error_In; eauto).
  assert (Hf : lf_mk f).
  { destruct (2 <? pw + 1); [|discriminate]. eapply (am_reduce AM); eauto. }
  destruct Hf as [h1 h2]. destruct (s_make so (const_term f)) as [v|] eqn:E; [|contradiction].
  assert (Hpre : Forall P (firstn (it + 2 - (pw + 1)) m)) by (apply Forall_firstn; auto).
  assert (Hpost : Forall P (skipn (it + 2) m)) by (apply Forall_skipn; auto).
  destruct (s_is_zero so v); simpl.
  - apply reduce_terms_nt; auto.
  - assert (HF : Forall P (firstn (it + 2 - (pw + 1)) m ++ skipn (it + 2) m)) by (apply Forall_app; auto).
    pose proof (Hr _ (s_mul so c v) t HF) as Hr'.
    destruct (rrec _ _ t) as [t1| |]; simpl; try contradiction; try discriminate.
    apply reduce_terms_nt; auto.
Qed.
Lemma normalize_nt_aux : forall fuel,
  rec_nt (normalize_and_store go so fuel) /\ rec_nt (reduce_powers_and_store go so fuel).
Proof.
  induction fuel as [|fuel [IH1 IH2]].
  - split; intros m c t _; discriminate.
  - split; intros m c t Hm.
    + rewrite normalize_S. destruct (2 <=? length m); [|apply IH2; auto].
      pose proof (sort_loop_nt _ IH1 (length m - 1) m c t Hm) as K.
      destruct (sort_loop go so (normalize_and_store go so fuel) (length m - 1) m c t)
        as [m' c' sw t1|t1| |]; simpl in K; try discriminate; try contradiction.
      destruct (s_is_zero so c'); [discriminate|]. apply IH2; auto.
    + rewrite reduce_S. destruct m as [|g m]; [discriminate|]. apply reduce_scan_nt; auto.
Qed.

(** together with termination: always a result *)
Lemma normalize_total m c t : Forall P m -> exists t', normalize go so m c t = Ok t'.
Proof.
  intros Hm. pose proof (proj1 (normalize_nt_aux (norm_fuel m)) m c t Hm) as K1.
  pose proof (normalize_terminates go so m c t) as K2. unfold normalize in *.
  destruct (normalize_and_store go so (norm_fuel m) m c t) as [t'| |]; eauto; contradiction.
Qed.
Lemma e_mono_total x m : Forall P m -> exists e, e_mono go so x m = Ok e.
Proof.
  intros Hm. unfold e_mono. destruct (s_is_zero so x); eauto. now apply normalize_total.
Qed.
Definition Pe (e : list (list G * S)) : Prop := forall m c, In (m, c) e -> Forall P m.
Lemma e_mul_total a b : Pe a -> Pe b -> exists e, e_mul go so a b = Ok e.
Proof.
  intros Ha Hb. unfold e_mul. generalize (@nil (@mono G * S)).
  assert (K : forall m1 c1, Forall P m1 -> forall b, Pe b -> forall t, exists t', mul_row go so m1 c1 b t = Ok t').
  { intros m1 c1 H1. clear b Hb. induction b as [|[m2 c2] b IH]; simpl; intros hb t; eauto.
    destruct (normalize_total (m1 ++ m2) (s_mul so c1 c2) t) as [t1 E].
    - apply Forall_app; split; auto. eapply hb; left; eauto.
    - rewrite E. simpl. apply IH. intros m c i; eapply hb; right; eauto. }
  induction a as [|[m1 c1] a IH]; simpl; intros t; eauto.
  destruct (K m1 c1) with (b := b) (t := t) as [t1 E]; auto.
  { eapply Ha; left; eauto. }
  rewrite E. simpl. apply IH. intros m c i; eapply Ha; right; eauto.
Qed.
End Throw.

(** ** The built-in algebras *)
Section Std.
Context {I S : Type} (io : index_ops I) (so : scalar_ops S) (L : scalar_laws so).
Notation go := (std_gen_ops io).

Lemma mk_int z : mk so (VInt z).
Proof. unfold mk. rewrite (sl_make_int _ L). discriminate. Qed.

(** scalar types with fractions never throw *)
Lemma std_make_frac : (forall p q, q <> 0%Z -> s_make so (VRat p q) <> None) ->
  alg_make go so (fun _ => True).
Proof.
  intros HF.
  assert (M2 : forall p, mk so (VRat p 2)) by (intros p; apply HF; discriminate).
  assert (M4 : forall p, mk so (VRat p 4)) by (intros p; apply HF; discriminate).
  pose proof mk_int as MI.
  constructor.
  - intros a b c f Pa Pb E. simpl in E.
    destruct a as [d i|d i|m cc i], b as [d' j|d' j|m' cc' j]; simpl in E;
      try (inversion E; subst; split; [apply mk_int|split; [apply mk_int|constructor]]; fail).
    destruct (base_equal io (GSpin m cc i) (GSpin m' cc' j) && (m =? m'));
      [destruct (m =? 2)|];
      destruct cc, cc'; inversion E; subst; simpl; unfold lf_mk; simpl;
        repeat (apply Forall_cons || apply Forall_nil || split || simpl; auto).
  - intros a b f Pa Pb E. simpl in E.
    destruct a as [d i|d i|m cc i], b as [d' j|d' j|m' cc' j]; simpl in E; try discriminate.
    + destruct (gen_eqb io (GFermion d i) (GFermion d' j)); inversion E; subst.
      split; [apply mk_int|constructor].
    + destruct (negb _ || _); [discriminate|].
      destruct cc, cc'; inversion E; subst; unfold lf_mk; simpl; repeat (apply Forall_cons || apply Forall_nil || split || simpl; auto).
  - intros a n f Pa E. simpl in E. destruct a as [d i|d i|m cc i]; simpl in E; try discriminate.
    destruct (negb (comp_eqb cc Zcomp) && (m <=? n)); inversion E; subst.
    split; [apply mk_int|constructor].
  - intros a Pa. split; [apply mk_int|]. repeat constructor. apply mk_int.
Qed.

(** without spin-1/2 only integer structure constants occur *)
Definition not_half (g : gen I) : Prop := match g with GSpin m _ _ => m <> 2 | _ => True end.
Lemma std_make_int : alg_make go so not_half.
Proof.
  constructor.
  - intros a b c f Pa Pb E. simpl in E.
    destruct a as [d i|d i|m cc i], b as [d' j|d' j|m' cc' j]; simpl in E;
      try (inversion E; subst; split; [apply mk_int|split; [apply mk_int|constructor]]; fail).
    simpl in Pa, Pb.
    destruct (base_equal io (GSpin m cc i) (GSpin m' cc' j) && (m =? m')).
    + destruct (Nat.eqb_spec m 2); [contradiction|].
      destruct cc, cc'; inversion E; subst;
        (split; [apply mk_int|split; [apply mk_int|repeat constructor; auto; apply mk_int]]).
    + inversion E; subst; split; [apply mk_int|split; [apply mk_int|constructor]].
  - intros a b f Pa Pb E. simpl in E.
    destruct a as [d i|d i|m cc i], b as [d' j|d' j|m' cc' j]; simpl in E; try discriminate.
    + destruct (gen_eqb io (GFermion d i) (GFermion d' j)); inversion E; subst.
      split; [apply mk_int|constructor].
    + simpl in Pa. destruct (Nat.eqb_spec m 2); [contradiction|]. rewrite orb_true_r in E. discriminate.
  - intros a n f Pa E. simpl in E. destruct a as [d i|d i|m cc i]; simpl in E; try discriminate.
    destruct (negb (comp_eqb cc Zcomp) && (m <=? n)); inversion E; subst.
    split; [apply mk_int|constructor].
  - intros a Pa. split; [apply mk_int|]. repeat constructor; [|apply mk_int].
    destruct a; simpl in *; auto.
Qed.
End Std.
