(** Normalization preserves values (for any family of generators whose
    structure constants are sound in a ring) and terminates. *)
From Coq Require Import ZArith Bool Lia List Setoid Morphisms Ncring Ncring_tac.
From Verif Require Import ExprModel ExprSpec ExprOrder ExprMap.
Import ListNotations.
Open Scope nat_scope.
Open Scope list_scope.

(** *** Rings *)
Section RingInst.
Context {R : Type} (ro : ring_ops R) (Hr : is_ring ro).

Definition rsub (x y : R) : R := radd ro x (ropp ro y).
Definition nc_ops : @Ring_ops R (r0 ro) (r1 ro) (radd ro) (rmul ro) rsub (ropp ro) (req ro)
  := @Build_Ring_ops R (r0 ro) (r1 ro) (radd ro) (rmul ro) rsub (ropp ro) (req ro).

Lemma rsub_ext : Proper (req ro ==> req ro ==> req ro) rsub.
Proof.
  pose proof (ri_equiv _ Hr). pose proof (ri_add_ext _ Hr). pose proof (ri_opp_ext _ Hr).
  intros a b e c d e'. unfold rsub. rewrite e, e'. reflexivity.
Qed.

Lemma nc_ring : @Ring _ _ _ _ _ _ _ _ nc_ops.
Proof.
  exact (@Build_Ring _ _ _ _ _ _ _ _ nc_ops (ri_equiv _ Hr) (ri_add_ext _ Hr)
   (ri_mul_ext _ Hr) rsub_ext (ri_opp_ext _ Hr)
   (ri_add_0 _ Hr) (ri_add_comm _ Hr) (ri_add_assoc _ Hr) (ri_mul_1_l _ Hr)
   (ri_mul_1_r _ Hr) (ri_mul_assoc _ Hr)
   (fun x y z => ri_dist_r _ Hr x y z) (fun x y z => ri_dist_l _ Hr z x y)
   (fun x y => @reflexivity _ _ (@Equivalence_Reflexive _ _ (ri_equiv _ Hr)) _)
   (ri_opp _ Hr)).
Qed.
End RingInst.

(** *** Lists *)
Lemma split_at {A} (m : list A) n a b : 1 <= n ->
  nth_error m (n - 1) = Some a -> nth_error m n = Some b ->
  m = firstn (n - 1) m ++ a :: b :: skipn (n + 1) m.
Proof.
  intros h ha hb.
  destruct n as [|n]; [lia|]. simpl in ha. rewrite Nat.sub_0_r in ha.
  replace (S n - 1) with n by lia.
  rewrite <- (firstn_skipn n m) at 1. f_equal.
  assert (K : forall (l : list A) k x, nth_error l k = Some x -> skipn k l = x :: skipn (S k) l).
  { clear. induction l as [|y l IH]; intros [|k] x; simpl; try discriminate.
    - intros E; inversion E; auto.
    - intros E. rewrite (IH _ _ E). reflexivity. }
  rewrite (K _ _ _ ha). f_equal. rewrite (K _ _ _ hb). f_equal. f_equal. lia.
Qed.

Lemma swap_at_length {A} (m : list A) n a b : 1 <= n ->
  nth_error m (n - 1) = Some a -> nth_error m n = Some b ->
  length (swap_at n a b m) = length m.
Proof.
  intros h ha hb. pose proof (split_at m n a b h ha hb) as E.
  unfold swap_at. rewrite E at 3. rewrite !app_length. simpl. reflexivity.
Qed.

Lemma Forall_app_inv {A} (P : A -> Prop) l1 l2 :
  Forall P (l1 ++ l2) <-> Forall P l1 /\ Forall P l2.
Proof. apply Forall_app. Qed.

Lemma Forall_firstn {A} (P : A -> Prop) n l : Forall P l -> Forall P (firstn n l).
Proof.
  intros h. rewrite <- (firstn_skipn n l) in h. apply Forall_app in h. tauto.
Qed.
Lemma Forall_skipn {A} (P : A -> Prop) n l : Forall P l -> Forall P (skipn n l).
Proof.
  intros h. rewrite <- (firstn_skipn n l) in h. apply Forall_app in h. tauto.
Qed.

Section Unfold.
Context {G S : Type} (go : gen_ops G) (so : scalar_ops S).
Lemma normalize_S fuel m coeff target :
  normalize_and_store go so (Datatypes.S fuel) m coeff target =
      if Nat.leb 2 (length m) then
        match sort_loop go so (normalize_and_store go so fuel) (length m - 1) m coeff target with
        | LDone m' coeff' _ target' =>
            if s_is_zero so coeff' then Ok target'
            else reduce_powers_and_store go so fuel m' coeff' target'
        | LReturn target' => Ok target'
        | LThrow => Throw
        | LBad => Bad
        end
      else reduce_powers_and_store go so fuel m coeff target.
Proof. reflexivity. Qed.
Lemma reduce_S fuel m coeff target :
  reduce_powers_and_store go so (Datatypes.S fuel) m coeff target =
      match m with
      | [] => Ok (store_monomial go so m coeff target)
      | _ =>
          reduce_scan go so (normalize_and_store go so fuel) (reduce_powers_and_store go so fuel)
                      (length m) 0 1 m coeff target
      end.
Proof. reflexivity. Qed.

End Unfold.

(** *** Value of an expression *)
Section Value.
Context {G S R : Type} (go : gen_ops G) (Hgo : gen_order go).
Context (so : scalar_ops S) (L : scalar_laws so).
Context (ro : ring_ops R) (Hr : is_ring ro) (inj : S -> R) (rho : G -> R).
Context (SI : scalar_image so ro inj rho).

Local Instance opsI : @Ring_ops R (r0 ro) (r1 ro) (radd ro) (rmul ro) (rsub ro) (ropp ro) (req ro)
  := nc_ops ro.
Local Instance ringI : @Ring _ _ _ _ _ _ _ _ opsI := nc_ring ro Hr.
Local Instance eqI : Equivalence (req ro) := ri_equiv _ Hr.
Local Instance addI : Proper (req ro ==> req ro ==> req ro) (radd ro) := ri_add_ext _ Hr.
Local Instance mulI : Proper (req ro ==> req ro ==> req ro) (rmul ro) := ri_mul_ext _ Hr.
Local Instance oppI : Proper (req ro ==> req ro) (ropp ro) := ri_opp_ext _ Hr.

Notation "x == y" := (req ro x y) (at level 70).
Notation "x + y" := (radd ro x y).
Notation "x * y" := (rmul ro x y).
Notation "- x" := (ropp ro x).
Notation em := (eval_mono ro rho).
Notation ev := (eval_expr ro inj rho).

Ltac ncr := non_commutative_ring.

Lemma em_app a b : em (a ++ b) == em a * em b.
Proof.
  induction a as [|g a IH]; simpl.
  - ncr.
  - rewrite IH. ncr.
Qed.

Lemma inj_comm_em m x : em m * inj x == inj x * em m.
Proof.
  induction m as [|g m IH]; simpl.
  - ncr.
  - transitivity (rho g * (em m * inj x)); [ncr|]. rewrite IH.
    transitivity ((rho g * inj x) * em m); [ncr|].
    rewrite (si_comm _ _ _ _ SI). ncr.
Qed.

Lemma inj_neg x : inj (s_neg so x) == - inj x.
Proof.
  assert (K : inj x + inj (s_neg so x) == r0 ro).
  { rewrite <- (si_add _ _ _ _ SI), (sl_neg _ L). apply (si_0 _ _ _ _ SI). }
  transitivity ((inj x + inj (s_neg so x)) + - inj x); [ncr|]. rewrite K. ncr.
Qed.

Lemma ev_app a b : ev (a ++ b) == ev a + ev b.
Proof.
  induction a as [|[m c] a IH]; simpl; [ncr|]. rewrite IH. ncr.
Qed.

(** adding a term *)
Lemma ev_ins k c e : ev (add_entry go so (k, c) e) == inj c * em k + ev e.
Proof.
  induction e as [|[x v] t IH].
  - simpl. reflexivity.
  - rewrite (ins_cons go so).
    destruct (mono_lt go x k) eqn:E1; [|destruct (mono_lt go k x) eqn:E2].
    + simpl. rewrite IH. ncr.
    + simpl. reflexivity.
    + assert (x = k) by (eapply (sto_eq_of (mono_sto go Hgo)); eauto). subst x.
      assert (A : inj (s_add so v c) == inj v + inj c) by apply (si_add _ _ _ _ SI).
      destruct (s_is_zero so (s_add so v c)) eqn:Z.
      * apply (sl_is_zero _ L) in Z. rewrite Z in A. rewrite (si_0 _ _ _ _ SI) in A.
        simpl. transitivity ((inj v + inj c) * em k + ev t); [rewrite <- A; ncr|ncr].
      * simpl. rewrite A. ncr.
Qed.

Lemma ev_store m c t : ev (store_monomial go so m c t) == inj c * em m + ev t.
Proof. rewrite store_is_ins. apply ev_ins. Qed.

Lemma ev_add_assign b : forall a, ev (e_add_assign go so a b) == ev a + ev b.
Proof.
  unfold e_add_assign. induction b as [|[k c] b IH]; simpl; intros a.
  - ncr.
  - rewrite IH, ev_ins. ncr.
Qed.

Lemma ev_neg e : ev (neg_map so e) == - ev e.
Proof.
  induction e as [|[m c] e IH]; simpl; [ncr|]. unfold neg_map in IH. rewrite IH, inj_neg. ncr.
Qed.
Lemma ev_sub_assign a b : ev (e_sub_assign go so a b) == ev a + - ev b.
Proof. rewrite (sub_assign_add go so L), ev_add_assign, ev_neg. reflexivity. Qed.

Lemma ev_const x : ev (e_const so x) == inj x.
Proof.
  unfold e_const. destruct (s_is_zero so x) eqn:Z; simpl.
  - apply (sl_is_zero _ L) in Z. subst x. symmetry. apply (si_0 _ _ _ _ SI).
  - ncr.
Qed.

(** *** Structure constants *)
Definition cval (v : var_number) : option R :=
  if vn_is_zero v then Some (r0 ro) else option_map inj (s_make so v).
Fixpoint tval (ts : list (G * var_number)) : option R :=
  match ts with
  | [] => Some (r0 ro)
  | (g, v) :: ts' =>
      match s_make so v, tval ts' with
      | Some x, Some r => Some (inj x * rho g + r)
      | _, _ => None
      end
  end.
Definition lval (f : linfun G) : option R :=
  match cval (const_term f), tval (terms f) with
  | Some a, Some b => Some (a + b) | _, _ => None end.
Definition lval2 (f : linfun G) : option R :=
  match s_make so (const_term f), tval (terms f) with
  | Some a, Some b => Some (inj a + b) | _, _ => None end.

Context (P : G -> Prop).
Definition closed (f : linfun G) : Prop := Forall (fun t => P (fst t)) (terms f).

Record alg_sound : Prop := {
  as_swap : forall g h c f, P g -> P h -> g_gt go g h = true -> g_swap go g h = (c, f) ->
    closed f /\
    forall r, lval f = Some r ->
      (vn_eqb c (VInt 0) = true -> rho g * rho h == r) /\
      (forall x, vn_eqb c (VInt 0) = false -> s_make so c = Some x ->
         rho g * rho h == inj x * (rho h * rho g) + r);
  as_simplify : forall g h f, P g -> P h -> g_gt go g h = false ->
    g_simplify go g h = Some f ->
    closed f /\ forall r, lval f = Some r -> rho g * rho h == r;
  as_reduce : forall g n f, P g -> 2 < n -> g_reduce go g n = Some f ->
    closed f /\ (lf_vanishing f = true -> rpow ro (rho g) n == r0 ro) /\
    forall r, lval2 f = Some r -> rpow ro (rho g) n == r
}.

Definition rec_ok (rec : list G -> S -> list (list G * S) -> res (list (list G * S))) : Prop :=
  forall m c t t', Forall P m -> rec m c t = Ok t' -> ev t' == inj c * em m + ev t.

Lemma process_terms_ok rec pre post coeff : rec_ok rec ->
  Forall P pre -> Forall P post ->
  forall ts t t', Forall (fun t => P (fst t)) ts ->
  process_terms so rec pre post coeff ts t = Ok t' ->
  exists r, tval ts = Some r /\ ev t' == inj coeff * (em pre * (r * em post)) + ev t.
Proof.
  intros Hrec Hpre Hpost. induction ts as [|[g v] ts IH]; simpl; intros t t' Hts E.
  - inversion E; subst. exists (r0 ro). split; auto. ncr.
  - destruct (s_make so v) as [x|]; try discriminate.
    destruct (rec (pre ++ g :: post) (s_mul so coeff x) t) as [t1| |] eqn:E1; try discriminate.
    simpl in E. inversion Hts as [|? ? Hg Hts']; subst. simpl in Hg.
    destruct (IH _ _ Hts' E) as [r [Er Ev]]. rewrite Er. eexists. split; [reflexivity|].
    rewrite Ev. apply Hrec in E1.
    + rewrite E1, em_app. simpl. rewrite (si_mul _ _ _ _ SI).
      transitivity (inj coeff * (em pre * (r * em post)) +
                    (inj coeff * ((inj x * em pre) * (rho g * em post)) + ev t)); [ncr|].
      rewrite <- inj_comm_em. ncr.
    + apply Forall_app. split; auto.
Qed.

Lemma process_f_ok rec pre post coeff f t t' : rec_ok rec ->
  Forall P pre -> Forall P post -> closed f ->
  process_f so rec pre post coeff f t = Ok t' ->
  exists r, lval f = Some r /\ ev t' == inj coeff * (em pre * (r * em post)) + ev t.
Proof.
  intros Hrec Hpre Hpost Hf. unfold process_f, lval, cval.
  destruct (vn_is_zero (const_term f)) eqn:Z.
  - simpl. intros E. destruct (process_terms_ok rec pre post coeff Hrec Hpre Hpost _ _ _ Hf E)
      as [r [Er Ev]]. rewrite Er. eexists; split; [reflexivity|]. rewrite Ev. ncr.
  - destruct (s_make so (const_term f)) as [x|]; [|discriminate]. simpl.
    destruct (rec (pre ++ post) (s_mul so coeff x) t) as [t1| |] eqn:E1; try discriminate.
    simpl. intros E.
    destruct (process_terms_ok rec pre post coeff Hrec Hpre Hpost _ _ _ Hf E) as [r [Er Ev]].
    rewrite Er. eexists; split; [reflexivity|]. rewrite Ev. apply Hrec in E1.
    + rewrite E1, em_app, (si_mul _ _ _ _ SI).
      transitivity (inj coeff * (em pre * (r * em post)) +
                    (inj coeff * ((inj x * em pre) * em post) + ev t)); [ncr|].
      rewrite <- inj_comm_em. ncr.
    + apply Forall_app. split; auto.
Qed.

Context (AS : alg_sound).

Definition loop_ok (m : list G) (c : S) (t : list (list G * S)) (r : @loop_res G S) : Prop :=
  match r with
  | LDone m' c' _ t' => Forall P m' /\ inj c' * em m' + ev t' == inj c * em m + ev t
  | LReturn t' => ev t' == inj c * em m + ev t
  | _ => True
  end.

Lemma sort_pass_ok rec : rec_ok rec -> forall k n m c sw t, 1 <= n -> Forall P m ->
  loop_ok m c t (sort_pass go so rec k n m c sw t).
Proof.
  intros Hrec. induction k as [|k IH]; intros n m c sw t Hn Hm; simpl.
  - split; auto. reflexivity.
  - destruct (nth_error m (n - 1)) as [a|] eqn:Ea; simpl; auto.
    destruct (nth_error m n) as [b|] eqn:Eb; simpl; auto.
    pose proof (split_at m n a b Hn Ea Eb) as Em.
    set (pre := firstn (n - 1) m) in *. set (post := skipn (n + 1) m) in *.
    assert (Hpre : Forall P pre) by (apply Forall_firstn; auto).
    assert (Hpost : Forall P post) by (apply Forall_skipn; auto).
    assert (Ha : P a) by (eapply (proj1 (Forall_forall _ _) Hm); eapply nth_error_In; eauto).
    assert (Hb : P b) by (eapply (proj1 (Forall_forall _ _) Hm); eapply nth_error_In; eauto).
    assert (Vm : em m == em pre * ((rho a * rho b) * em post)).
    { rewrite Em at 1. rewrite em_app. simpl. ncr. }
    destruct (g_gt go a b) eqn:Eg.
    + destruct (g_swap go a b) as [cc f] eqn:Es.
      destruct (as_swap AS a b cc f Ha Hb Eg Es) as [Hf Hv].
      destruct (process_f so rec pre post c f t) as [t1| |] eqn:Ep; simpl; auto.
      destruct (process_f_ok rec pre post c f t t1 Hrec Hpre Hpost Hf Ep) as [r [Er Ev]].
      destruct (Hv r Er) as [H0 H1].
      destruct (vn_eqb cc (VInt 0)) eqn:Ec; simpl.
      * rewrite Ev, Vm, (H0 eq_refl). ncr.
      * destruct (s_make so cc) as [x|] eqn:Ex; simpl; auto.
        specialize (IH (n + 1)%nat (swap_at n a b m) (s_mul so c x) true t1 ltac:(lia)).
        assert (Hsw : Forall P (swap_at n a b m)).
        { unfold swap_at. apply Forall_app. auto. }
        specialize (IH Hsw).
        assert (K : inj (s_mul so c x) * em (swap_at n a b m) + ev t1 == inj c * em m + ev t).
        { unfold swap_at. fold pre post. rewrite Ev, Vm, em_app. simpl.
          rewrite (si_mul _ _ _ _ SI), (H1 x eq_refl eq_refl).
          transitivity (inj c * ((inj x * em pre) * ((rho b * rho a) * em post)) +
                        (inj c * (em pre * (r * em post)) + ev t)); [ncr|].
          rewrite <- inj_comm_em. ncr. }
        destruct (sort_pass go so rec k (n + 1) (swap_at n a b m) (s_mul so c x) true t1);
          simpl in IH |- *; auto.
        -- destruct IH as [I1 I2]. split; auto. rewrite I2. exact K.
        -- rewrite IH. exact K.
    + destruct (g_simplify go a b) as [f|] eqn:Es.
      * destruct (as_simplify AS a b f Ha Hb Eg Es) as [Hf Hv].
        destruct (process_f so rec pre post c f t) as [t1| |] eqn:Ep; simpl; auto.
        destruct (process_f_ok rec pre post c f t t1 Hrec Hpre Hpost Hf Ep) as [r [Er Ev]].
        rewrite Ev, Vm, (Hv r Er). ncr.
      * apply IH; auto. lia.
Qed.

Lemma sort_loop_ok rec : rec_ok rec -> forall n_max m c t, Forall P m ->
  loop_ok m c t (sort_loop go so rec n_max m c t).
Proof.
  intros Hrec. induction n_max as [|n IH]; intros m c t Hm.
  - simpl. split; auto. reflexivity.
  - change (sort_loop go so rec (Datatypes.S n) m c t) with
      (match sort_pass go so rec (Datatypes.S n) 1 m c false t with
       | LDone m' coeff' true target' => sort_loop go so rec n m' coeff' target'
       | r => r end).
    pose proof (sort_pass_ok rec Hrec (Datatypes.S n) 1 m c false t ltac:(lia) Hm) as K.
    destruct (sort_pass go so rec (Datatypes.S n) 1 m c false t) as [m' c' [|] t'|t'| |]; auto.
    simpl in K. destruct K as [K1 K2]. specialize (IH m' c' t' K1).
    destruct (sort_loop go so rec n m' c' t'); simpl in *; auto.
    + destruct IH as [I1 I2]. split; auto. rewrite I2. exact K2.
    + rewrite IH. exact K2.
Qed.

Lemma reduce_terms_ok rec pre post coeff : rec_ok rec ->
  Forall P pre -> Forall P post ->
  forall ts t t', Forall (fun t => P (fst t)) ts ->
  reduce_terms so rec pre post coeff ts t = Ok t' ->
  exists r, tval ts = Some r /\ ev t' == inj coeff * (em pre * (r * em post)) + ev t.
Proof.
  intros Hrec Hpre Hpost. induction ts as [|[g v] ts IH]; simpl; intros t t' Hts E.
  - inversion E; subst. exists (r0 ro). split; auto. ncr.
  - destruct (s_make so v) as [x|]; try discriminate.
    inversion Hts as [|? ? Hg Hts']; subst. simpl in Hg.
    destruct (s_is_zero so x) eqn:Z.
    + simpl in E. destruct (IH _ _ Hts' E) as [r [Er Ev]]. rewrite Er.
      eexists. split; [reflexivity|]. rewrite Ev.
      apply (sl_is_zero _ L) in Z. subst x. rewrite (si_0 _ _ _ _ SI). ncr.
    + destruct (rec (pre ++ g :: post) (s_mul so coeff x) t) as [t1| |] eqn:E1; try discriminate.
      simpl in E.
      destruct (IH _ _ Hts' E) as [r [Er Ev]]. rewrite Er. eexists. split; [reflexivity|].
      rewrite Ev. apply Hrec in E1.
      * rewrite E1, em_app. simpl. rewrite (si_mul _ _ _ _ SI).
        transitivity (inj coeff * (em pre * (r * em post)) +
                      (inj coeff * ((inj x * em pre) * (rho g * em post)) + ev t)); [ncr|].
        rewrite <- inj_comm_em. ncr.
      * apply Forall_app. split; auto.
Qed.

Lemma em_repeat g n : em (repeat g n) == rpow ro (rho g) n.
Proof. induction n as [|n IH]; simpl; [reflexivity|]. rewrite IH. reflexivity. Qed.

Lemma repeat_snoc {A} (g : A) n : repeat g n ++ [g] = repeat g (Datatypes.S n).
Proof. induction n; simpl; auto. f_equal. exact IHn. Qed.

Lemma firstn_S_nth {A} (l : list A) k x : nth_error l k = Some x ->
  firstn (Datatypes.S k) l = firstn k l ++ [x].
Proof.
  revert k. induction l as [|y l IH]; intros [|k] E; simpl in *; try discriminate.
  - inversion E; auto.
  - now rewrite <- (IH _ E).
Qed.

Lemma reduce_scan_ok nrec rrec : rec_ok nrec -> rec_ok rrec ->
  forall k it power m coeff t t' cur, Forall P m ->
  (it + k = length m)%nat -> 1 <= k -> 1 <= power -> power <= it + 1 ->
  nth_error m it = Some cur ->
  firstn (it + 1) m = firstn (it + 1 - power) m ++ repeat cur power ->
  reduce_scan go so nrec rrec k it power m coeff t = Ok t' ->
  ev t' == inj coeff * em m + ev t.
Proof.
  intros Hn Hrr. induction k as [|k IH]; intros it power m coeff t t' cur Hm Hk Hk1 Hp1 Hp Ecur Hrun.
  - lia.
  - simpl. destruct (Nat.eqb_spec (it + 1)%nat (length m)) as [e|ne].
    + intros E. inversion E; subst. apply ev_store.
    + rewrite Ecur.
      destruct (nth_error m (it + 1)) as [nx|] eqn:En; [|discriminate].
      destruct (g_eq go nx cur) eqn:Eq.
      * apply (sto_eq _ _ _ Hgo) in Eq. subst nx.
        assert (Hrun' : firstn (it + 1 + 1) m = firstn (it + 1 + 1 - (power + 1)) m ++ repeat cur (power + 1)).
        { replace (it + 1 + 1)%nat with (Datatypes.S (it + 1)) by lia.
          rewrite (firstn_S_nth _ _ _ En), Hrun.
          replace (power + 1)%nat with (Datatypes.S power) by lia.
          rewrite <- repeat_snoc, app_assoc. f_equal; f_equal; try lia. }
        destruct (if Nat.ltb 2 (power + 1) then g_reduce go cur (power + 1) else None) as [f|] eqn:Er.
        -- destruct (Nat.ltb_spec 2 (power + 1)); try discriminate.
           assert (Pc : P cur) by (eapply (proj1 (Forall_forall _ _) Hm); eapply nth_error_In; eauto).
           destruct (as_reduce AS cur _ f Pc H Er) as [Hf [Hvan Hval]].
           set (pre := firstn (it + 2 - (power + 1)) m).
           set (post := skipn (it + 2) m).
           assert (Vm : em m == em pre * (rpow ro (rho cur) (power + 1) * em post)).
           { rewrite <- (firstn_skipn (it + 2) m) at 1. rewrite em_app.
             replace (it + 2)%nat with (it + 1 + 1)%nat at 1 by lia. rewrite Hrun', em_app, em_repeat.
             fold post. replace (it + 1 + 1 - (power + 1))%nat with (it + 2 - (power + 1))%nat by lia.
             fold pre. ncr. }
           assert (Hpre : Forall P pre) by (apply Forall_firstn; auto).
           assert (Hpost : Forall P post) by (apply Forall_skipn; auto).
           destruct (lf_vanishing f) eqn:Ev.
           ++ intros E. inversion E; subst. rewrite Vm, (Hvan eq_refl). ncr.
           ++ destruct (s_make so (const_term f)) as [v|] eqn:Es; [|discriminate].
              destruct (s_is_zero so v) eqn:Z.
              ** simpl. intros E. destruct (reduce_terms_ok nrec pre post coeff Hn Hpre Hpost _ _ _ Hf E) as [r [Er' Ev']].
                 rewrite Ev', Vm. rewrite (Hval (inj v + r)).
                 --- apply (sl_is_zero _ L) in Z. subst v. rewrite (si_0 _ _ _ _ SI). ncr.
                 --- unfold lval2. now rewrite Es, Er'.
              ** destruct (rrec (pre ++ post) (s_mul so coeff v) t) as [t1| |] eqn:E1; try discriminate.
                 simpl. intros E. destruct (reduce_terms_ok nrec pre post coeff Hn Hpre Hpost _ _ _ Hf E) as [r [Er' Ev']].
                 rewrite Ev', Vm. rewrite (Hval (inj v + r)).
                 --- apply Hrr in E1; [|apply Forall_app; auto]. rewrite E1, em_app, (si_mul _ _ _ _ SI).
                     transitivity (inj coeff * (em pre * (r * em post)) +
                        (inj coeff * ((inj v * em pre) * em post) + ev t)); [ncr|].
                     rewrite <- inj_comm_em. ncr.
                 --- unfold lval2. now rewrite Es, Er'.
        -- apply (IH _ _ _ _ _ _ cur); auto; try lia.
      * apply (IH _ _ _ _ _ _ nx); auto; try lia.
        replace (it + 1 + 1)%nat with (Datatypes.S (it + 1)) by lia.
        rewrite (firstn_S_nth _ _ _ En). simpl. f_equal. f_equal. lia.
Qed.

Lemma normalize_sound_aux : forall fuel,
  rec_ok (normalize_and_store go so fuel) /\ rec_ok (reduce_powers_and_store go so fuel).
Proof.
  induction fuel as [|fuel [IH1 IH2]].
  - split; intros m c t t' _ E; discriminate.
  - split; intros m c t t' Hm E.
    + rewrite normalize_S in E. destruct (Nat.leb 2 (length m)).
      2: apply (IH2 _ _ _ _ Hm E).
      pose proof (sort_loop_ok _ IH1 (length m - 1) m c t Hm) as K.
      destruct (sort_loop go so (normalize_and_store go so fuel) (length m - 1) m c t)
          as [m' c' sw t1|t1| |]; unfold loop_ok in K; try discriminate.
        -- destruct K as [K1 K2]. destruct (s_is_zero so c') eqn:Z.
           ++ inversion E; subst. rewrite <- K2. apply (sl_is_zero _ L) in Z. subst c'.
              rewrite (si_0 _ _ _ _ SI). ncr.
           ++ rewrite <- K2. apply (IH2 _ _ _ _ K1 E).
        -- inversion E; subst. exact K.
    + rewrite reduce_S in E. destruct m as [|g m].
      * inversion E; subst. apply ev_store.
      * refine (reduce_scan_ok _ _ IH1 IH2 (length (g :: m)) 0 1 (g :: m) c t t' g Hm _ _ _ _ _ _ E);
          simpl; try lia; reflexivity.
Qed.

Lemma normalize_sound m c t t' : Forall P m -> normalize go so m c t = Ok t' ->
  ev t' == inj c * em m + ev t.
Proof. apply (proj1 (normalize_sound_aux _)). Qed.

Lemma e_mono_sound x m e : Forall P m -> e_mono go so x m = Ok e -> ev e == inj x * em m.
Proof.
  intros Hm. unfold e_mono. destruct (s_is_zero so x) eqn:Z.
  - intros E; inversion E; subst. apply (sl_is_zero _ L) in Z. subst x. simpl.
    rewrite (si_0 _ _ _ _ SI). ncr.
  - intros E. apply normalize_sound in E; auto. rewrite E. simpl. ncr.
Qed.

Definition Pexpr (e : list (list G * S)) : Prop := Forall (fun p => Forall P (fst p)) e.

Lemma mul_row_sound m1 c1 : Forall P m1 -> forall b t t', Pexpr b ->
  mul_row go so m1 c1 b t = Ok t' ->
  ev t' == (inj c1 * em m1) * ev b + ev t.
Proof.
  intros H1. induction b as [|[m2 c2] b IH]; simpl; intros t t' Hb E.
  - inversion E; subst. ncr.
  - inversion Hb as [|? ? Hm2 Hb']; subst. simpl in Hm2.
    destruct (normalize go so (m1 ++ m2) (s_mul so c1 c2) t) as [t1| |] eqn:E1; try discriminate.
    simpl in E. rewrite (IH _ _ Hb' E). apply normalize_sound in E1; [|apply Forall_app; auto].
    rewrite E1, em_app, (si_mul _ _ _ _ SI).
    transitivity ((inj c1 * em m1) * ev b + (inj c1 * (inj c2 * em m1) * em m2 + ev t)); [ncr|].
    rewrite <- (inj_comm_em m1 c2). ncr.
Qed.

Lemma mul_rows_sound b : Pexpr b -> forall a t t', Pexpr a ->
  mul_rows go so a b t = Ok t' -> ev t' == ev a * ev b + ev t.
Proof.
  intros Hb. induction a as [|[m1 c1] a IH]; simpl; intros t t' Ha E.
  - inversion E; subst. ncr.
  - inversion Ha as [|? ? Hm Ha']; subst. simpl in Hm.
    destruct (mul_row go so m1 c1 b t) as [t1| |] eqn:E1; try discriminate.
    simpl in E. rewrite (IH _ _ Ha' E). apply mul_row_sound in E1; auto. rewrite E1. ncr.
Qed.

Lemma e_mul_sound a b e : Pexpr a -> Pexpr b -> e_mul go so a b = Ok e -> ev e == ev a * ev b.
Proof. intros Ha Hb E. apply mul_rows_sound in E; auto. rewrite E. simpl. ncr. Qed.

End Value.

(** *** Termination: with the chosen fuel the model never gets stuck *)
Section Termination.
Context {G S : Type} (go : gen_ops G) (so : scalar_ops S).

Definition nb {A} (r : res A) : Prop := r <> Bad.
Definition rec_nb (n : nat) (rec : list G -> S -> list (list G * S) -> res (list (list G * S))) : Prop :=
  forall m c t, length m <= n -> rec m c t <> Bad.

Lemma process_terms_nb n rec pre post coeff : rec_nb n rec ->
  length pre + length post + 1 <= n ->
  forall ts t, process_terms so rec pre post coeff ts t <> Bad.
Proof.
  intros Hrec Hl. induction ts as [|[g v] ts IH]; simpl; intros t; [discriminate|].
  destruct (s_make so v); [|discriminate].
  pose proof (Hrec (pre ++ g :: post) (s_mul so coeff s) t) as K.
  destruct (rec (pre ++ g :: post) (s_mul so coeff s) t); simpl; auto; try discriminate.
  apply K. rewrite app_length. simpl. lia.
Qed.
Lemma process_f_nb n rec pre post coeff f t : rec_nb n rec ->
  length pre + length post + 1 <= n ->
  process_f so rec pre post coeff f t <> Bad.
Proof.
  intros Hrec Hl. unfold process_f.
  destruct (vn_is_zero (const_term f)); simpl.
  - eapply process_terms_nb; eauto.
  - destruct (s_make so (const_term f)) as [x|]; [|discriminate].
    pose proof (Hrec (pre ++ post) (s_mul so coeff x) t) as K.
    destruct (rec (pre ++ post) (s_mul so coeff x) t); simpl; try discriminate.
    + eapply process_terms_nb; eauto.
    + apply K. rewrite app_length. lia.
Qed.

Definition loop_nb (len : nat) (r : @loop_res G S) : Prop :=
  match r with LBad => False | LDone m' _ _ _ => length m' = len | _ => True end.

Lemma firstn_skipn_len {A} (m : list A) n : 1 <= n -> n < length m ->
  length (firstn (n - 1) m) + length (skipn (n + 1) m) + 2 = length m.
Proof. intros. rewrite firstn_length, skipn_length. lia. Qed.

Lemma sort_pass_nb N rec : rec_nb N rec -> forall k n m c sw t, 1 <= n ->
  n + k <= length m -> length m <= N + 1 ->
  loop_nb (length m) (sort_pass go so rec k n m c sw t).
Proof.
  intros Hrec. induction k as [|k IH]; intros n m c sw t Hn Hk HN; simpl; auto.
  destruct (nth_error m (n - 1)) as [a|] eqn:Ea;
    [|apply nth_error_None in Ea; lia].
  destruct (nth_error m n) as [b|] eqn:Eb; [|apply nth_error_None in Eb; lia].
  pose proof (firstn_skipn_len m n Hn ltac:(lia)) as Hl.
  destruct (g_gt go a b).
  - destruct (g_swap go a b) as [cc f].
    pose proof (process_f_nb N rec (firstn (n - 1) m) (skipn (n + 1) m) c f t Hrec ltac:(lia)) as K.
    destruct (process_f so rec (firstn (n - 1) m) (skipn (n + 1) m) c f t); simpl; auto; try congruence.
    destruct (vn_eqb cc (VInt 0)); simpl; auto.
    destruct (s_make so cc); simpl; auto.
    rewrite <- (swap_at_length m n a b Hn Ea Eb).
    apply IH; rewrite ?(swap_at_length m n a b Hn Ea Eb); lia.
  - destruct (g_simplify go a b) as [f|].
    + pose proof (process_f_nb N rec (firstn (n - 1) m) (skipn (n + 1) m) c f t Hrec ltac:(lia)) as K.
      destruct (process_f so rec (firstn (n - 1) m) (skipn (n + 1) m) c f t); simpl; auto; congruence.
    + apply IH; lia.
Qed.

Lemma sort_loop_nb N rec : rec_nb N rec -> forall n_max m c t,
  n_max + 1 <= length m -> length m <= N + 1 ->
  loop_nb (length m) (sort_loop go so rec n_max m c t).
Proof.
  intros Hrec. induction n_max as [|n IH]; intros m c t H1 H2.
  - simpl. auto.
  - change (sort_loop go so rec (Datatypes.S n) m c t) with
      (match sort_pass go so rec (Datatypes.S n) 1 m c false t with
       | LDone m' coeff' true target' => sort_loop go so rec n m' coeff' target'
       | r => r end).
    pose proof (sort_pass_nb N rec Hrec (Datatypes.S n) 1 m c false t ltac:(lia) ltac:(lia) H2) as K.
    destruct (sort_pass go so rec (Datatypes.S n) 1 m c false t) as [m' c' [|] t'|t'| |]; auto.
    simpl in K. rewrite <- K. apply IH; lia.
Qed.

Lemma reduce_terms_nb n rec pre post coeff : rec_nb n rec ->
  length pre + length post + 1 <= n ->
  forall ts t, reduce_terms so rec pre post coeff ts t <> Bad.
Proof.
  intros Hrec Hl. induction ts as [|[g v] ts IH]; simpl; intros t; [discriminate|].
  destruct (s_make so v); [|discriminate].
  destruct (s_is_zero so s); simpl; auto.
  pose proof (Hrec (pre ++ g :: post) (s_mul so coeff s) t) as K.
  destruct (rec (pre ++ g :: post) (s_mul so coeff s) t); simpl; auto; try discriminate.
  apply K. rewrite app_length. simpl. lia.
Qed.

Lemma reduce_scan_nb N nrec rrec : rec_nb N nrec -> rec_nb N rrec ->
  forall k it power m coeff t, it + k = length m -> length m <= N + 1 ->
  power <= it + 1 -> 1 <= power ->
  reduce_scan go so nrec rrec k it power m coeff t <> Bad.
Proof.
  intros Hn Hr. induction k as [|k IH]; intros it power m coeff t Hk HN Hp Hp1; simpl; [discriminate|].
  destruct (Nat.eqb_spec (it + 1) (length m)); [discriminate|].
  destruct (nth_error m it) as [a|] eqn:Ea; [|apply nth_error_None in Ea; lia].
  destruct (nth_error m (it + 1)) as [b|] eqn:Eb; [|apply nth_error_None in Eb; lia].
  destruct (g_eq go b a); [|apply IH; lia].
  destruct (Nat.ltb_spec 2 (power + 1)).
  - destruct (g_reduce go a (power + 1)) as [f|]; [|apply IH; lia].
    destruct (lf_vanishing f); [discriminate|].
    assert (Hl : length (firstn (it + 2 - (power + 1)) m) + length (skipn (it + 2) m) + 1 <= N).
    { rewrite firstn_length, skipn_length. lia. }
    destruct (s_make so (const_term f)) as [v|]; [|discriminate].
    destruct (s_is_zero so v); simpl.
    + eapply reduce_terms_nb; eauto.
    + match goal with |- context [rrec ?a ?b ?c] => pose proof (Hr a b c) as K; destruct (rrec a b c) end;
        simpl; try discriminate.
      * eapply reduce_terms_nb; eauto.
      * apply K. rewrite app_length. lia.
  - apply IH; lia.
Qed.

Lemma normalize_nb_aux : forall fuel,
  (forall m c t, 2 * length m + 2 <= fuel -> normalize_and_store go so fuel m c t <> Bad) /\
  (forall m c t, 2 * length m + 1 <= fuel -> reduce_powers_and_store go so fuel m c t <> Bad).
Proof.
  induction fuel as [|fuel [IH1 IH2]]; split; intros m c t Hf; try lia.
  - rewrite normalize_S. destruct (Nat.leb_spec 2 (length m)); [|apply IH2; lia].
    assert (HN : rec_nb (length m - 1) (normalize_and_store go so fuel)).
    { intros m' c' t' H'. apply IH1. lia. }
    pose proof (sort_loop_nb _ _ HN (length m - 1) m c t ltac:(lia) ltac:(lia)) as K.
    destruct (sort_loop go so (normalize_and_store go so fuel) (length m - 1) m c t)
      as [m' c' sw t1|t1| |]; unfold loop_nb in K; try discriminate; try tauto.
    destruct (s_is_zero so c'); [discriminate|]. apply IH2. lia.
  - rewrite reduce_S. destruct m as [|g m]; [discriminate|].
    simpl in Hf.
    apply (reduce_scan_nb (length m)); simpl; try lia.
    + intros m' c' t' H. apply IH1. lia.
    + intros m' c' t' H. apply IH2. lia.
Qed.

Lemma normalize_terminates m c t : normalize go so m c t <> Bad.
Proof. apply (proj1 (normalize_nb_aux _)). unfold norm_fuel. lia. Qed.

Lemma mul_row_terminates m1 c1 b : forall t, mul_row go so m1 c1 b t <> Bad.
Proof.
  induction b as [|[m2 c2] b IH]; simpl; intros t; [discriminate|].
  pose proof (normalize_terminates (m1 ++ m2) (s_mul so c1 c2) t) as K.
  destruct (normalize go so (m1 ++ m2) (s_mul so c1 c2) t); simpl; auto; congruence.
Qed.
Lemma e_mul_terminates a b : e_mul go so a b <> Bad.
Proof.
  enough (K0 : forall t, mul_rows go so a b t <> Bad) by apply K0.
  induction a as [|[m1 c1] a IH]; simpl; intros t; [discriminate|].
  pose proof (mul_row_terminates m1 c1 b t) as K.
  destruct (mul_row go so m1 c1 b t); simpl; auto; congruence.
Qed.
Lemma e_mono_terminates x m : e_mono go so x m <> Bad.
Proof. unfold e_mono. destruct (s_is_zero so x); [discriminate|apply normalize_terminates]. Qed.
End Termination.
