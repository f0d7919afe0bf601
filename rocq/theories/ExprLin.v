(** Normalization is linear: for an arbitrary algebra (any [gen_ops]) adding
    [coeff] times a monomial to a map adds [coeff] times a fixed combination of
    monomials, the same for every coefficient and every map. *)
From Coq Require Import ZArith Bool Lia List Sorted.
From Verif Require Import ExprModel ExprSpec ExprOrder ExprMap ExprEval.
Import ListNotations.
Open Scope nat_scope.
Open Scope list_scope.

Section Lin.
Context {G S : Type} (go : gen_ops G) (Hgo : gen_order go).
Context (so : scalar_ops S) (D : scalar_domain so).
Let L := sd_laws _ D.
Notation mono := (list G).
Notation emap := (list (list G * S)).
Declare Scope lin_scope.
Notation "0" := (s_zero so) : lin_scope.
Notation "1" := (s_one so) : lin_scope.
Infix "+" := (s_add so) : lin_scope.
Infix "*" := (s_mul so) : lin_scope.
Delimit Scope lin_scope with l.
Notation cf := (coef go so).

(** no structure constant that the code multiplies with is zero *)
Definition lf_nonzero (f : linfun G) : Prop := forall g v, In (g, v) (terms f) -> vn_is_zero v = false.
Record constants_nonzero : Prop := {
  cn_swap : forall a b c f, g_gt go a b = true -> g_swap go a b = (c, f) ->
    lf_nonzero f /\ (vn_eqb c (VInt 0) = false -> vn_is_zero c = false);
  cn_simplify : forall a b f, g_gt go a b = false -> g_simplify go a b = Some f -> lf_nonzero f
}.
Context (CN : constants_nonzero).

Definition stored (e : emap) : Prop := msorted go e /\ nonzero so e.

Definition adds (w : mono -> S) (c : S) (t t' : emap) : Prop :=
  stored t' /\ forall k, cf t' k = (cf t k + c * w k)%l.

Lemma s_nz c x : c <> s_zero so -> x <> s_zero so -> s_mul so c x <> s_zero so.
Proof. intros h1 h2 E. apply (sd_nzd _ D) in E. tauto. Qed.

Lemma adds_refl c t : stored t -> adds (fun _ => s_zero so) c t t.
Proof. intros h; split; auto. intros k. now rewrite (s_mul_0_r so L), (s_add_0_r so L). Qed.
Lemma adds_trans w1 w2 c x t t1 t2 : adds w1 c t t1 -> adds w2 (s_mul so c x) t1 t2 ->
  adds (fun k => w1 k + x * w2 k)%l c t t2.
Proof.
  intros [h1 h2] [h3 h4]. split; auto. intros k.
  now rewrite h4, h2, (sl_dist_l _ L), (sl_add_assoc _ L), (sl_mul_assoc _ L).
Qed.
Lemma adds_trans1 w1 w2 c t t1 t2 : adds w1 c t t1 -> adds w2 c t1 t2 ->
  adds (fun k => w1 k + w2 k)%l c t t2.
Proof.
  intros [h1 h2] [h3 h4]. split; auto. intros k.
  now rewrite h4, h2, (sl_dist_l _ L), (sl_add_assoc _ L).
Qed.
Lemma adds_mul w c x t t1 : adds w (s_mul so c x) t t1 -> adds (fun k => x * w k)%l c t t1.
Proof. intros [h1 h2]. split; auto. intros k. now rewrite h2, (sl_mul_assoc _ L). Qed.
Lemma adds_store m c t : c <> s_zero so -> stored t ->
  adds (fun k => if mono_dec go Hgo k m then s_one so else s_zero so) c t (store_monomial go so m c t).
Proof.
  intros hc [h1 h2]. rewrite store_is_ins. split.
  - split; [now apply ins_sorted|now apply ins_nonzero].
  - intros k. rewrite (coef_ins go Hgo so L) by auto.
    destruct (mono_dec go Hgo k m) as [->|n].
    + now rewrite (sl_mul_1_r _ L).
    + now rewrite (s_mul_0_r so L), (s_add_0_r so L).
Qed.

(** [F] succeeds for all non-zero coefficients, adding [c * w], or for none *)
Definition linear (F : S -> emap -> res emap) : Prop :=
  (exists w, forall c t, c <> s_zero so -> stored t -> exists t', F c t = Ok t' /\ adds w c t t') \/
  (forall c t t', c <> s_zero so -> stored t -> F c t <> Ok t').

Notation recT := (mono -> S -> emap -> res emap).
Definition rec_lin (r : recT) : Prop := forall m, linear (r m).

Lemma linear_bind F H : linear F -> linear H -> linear (fun c t => rbind (F c t) (H c)).
Proof.
  intros [[w1 h1]|h1].
  - intros [[w2 h2]|h2].
    + left. exists (fun k => w1 k + w2 k)%l. intros c t hc ht.
      destruct (h1 c t hc ht) as [t1 [E1 A1]]. rewrite E1. simpl.
      destruct (h2 c t1 hc (proj1 A1)) as [t2 [E2 A2]]. exists t2. split; auto.
      now apply adds_trans1 with (t1 := t1).
    + right. intros c t t' hc ht. destruct (h1 c t hc ht) as [t1 [E1 A1]]. rewrite E1. simpl.
      apply h2; auto. apply A1.
  - intros _. right. intros c t t' hc ht E.
    destruct (F c t) as [t1| |] eqn:E1; try discriminate. eapply h1; eauto.
Qed.
Lemma linear_ok : linear (fun _ t => Ok t).
Proof. left. exists (fun _ => s_zero so). intros c t hc ht. exists t; split; auto. now apply adds_refl. Qed.
Lemma linear_throw : linear (fun _ _ => Throw).
Proof. right. intros. discriminate. Qed.
Lemma linear_mul F x : x <> s_zero so -> linear F -> linear (fun c t => F (s_mul so c x) t).
Proof.
  intros hx [[w h]|h].
  - left. exists (fun k => x * w k)%l. intros c t hc ht.
    destruct (h (s_mul so c x) t (s_nz _ _ hc hx) ht) as [t' [E A]]. exists t'; split; auto.
    now apply adds_mul.
  - right. intros c t t' hc ht. apply h; auto. now apply s_nz.
Qed.
Lemma linear_ext F H : (forall c t, F c t = H c t) -> linear F -> linear H.
Proof.
  intros E [[w h]|h]; [left; exists w|right]; intros c t; rewrite <- E; apply h.
Qed.

Lemma process_terms_lin r pre post ts : rec_lin r -> (forall g v, In (g, v) ts -> vn_is_zero v = false) ->
  linear (fun c t => process_terms so r pre post c ts t).
Proof.
  intros Hr. induction ts as [|[g v] ts IH]; intros Hz; simpl; [apply linear_ok|].
  destruct (s_make so v) as [x|] eqn:Ev; [|apply linear_throw].
  assert (hx : x <> s_zero so) by (eapply (sd_const _ D); [exact Ev|eapply Hz; left; reflexivity]).
  apply (linear_bind (fun c t => r (pre ++ g :: post) (s_mul so c x) t)
           (fun c => process_terms so r pre post c ts)).
  - apply linear_mul; [exact hx|apply Hr].
  - apply IH. intros g' v' i. eapply Hz; right; eauto.
Qed.
Lemma process_f_lin r pre post f : rec_lin r -> lf_nonzero f ->
  linear (fun c t => process_f so r pre post c f t).
Proof.
  intros Hr Hf. unfold process_f.
  pose proof (process_terms_lin r pre post (terms f) Hr Hf) as K.
  destruct (vn_is_zero (const_term f)) eqn:Z.
  - exact K.
  - destruct (s_make so (const_term f)) as [x|] eqn:Ev; [|apply linear_throw].
    assert (hx : x <> s_zero so) by (eapply (sd_const _ D); eauto).
    apply (linear_bind (fun c t => r (pre ++ post) (s_mul so c x) t)
             (fun c => process_terms so r pre post c (terms f))); auto.
    apply linear_mul; [exact hx|apply Hr].
Qed.

(** The loops: they all end in the same way, whatever the coefficient *)
Definition loop_linear (F : S -> emap -> @loop_res G S) : Prop :=
  (exists m' x sw w, x <> s_zero so /\ forall c t, c <> s_zero so -> stored t -> exists t',
     F c t = LDone m' (s_mul so c x) sw t' /\ adds w c t t') \/
  (exists w, forall c t, c <> s_zero so -> stored t -> exists t', F c t = LReturn t' /\ adds w c t t') \/
  (forall c t, c <> s_zero so -> stored t -> F c t = LThrow \/ F c t = LBad).

Lemma loop_lin_done m sw : loop_linear (fun c t => LDone m c sw t).
Proof.
  left. exists m, (s_one so), sw, (fun _ => s_zero so). split.
  - destruct (s_eq_dec_zero so L (s_one so)) as [e|n]; auto. exfalso.
    eapply (sd_const _ D (VInt 1)); [apply (sl_make_int _ L)|reflexivity|].
    rewrite (zmul_1 so L). exact e.
  - intros c t hc ht. exists t. rewrite (sl_mul_1_r _ L). split; auto. now apply adds_refl.
Qed.
Lemma loop_lin_bad : loop_linear (fun _ _ => LBad).
Proof. right; right; auto. Qed.

(** continue with coefficient [c * x] after a linear step *)
Lemma loop_lin_seq F x H : linear F -> x <> s_zero so -> loop_linear H ->
  loop_linear (fun c t => match F c t with
     | Throw => LThrow | Bad => LBad | Ok t' => H (s_mul so c x) t' end).
Proof.
  intros [[w1 h1]|h1] hx.
  - intros [[m' [y [sw [w2 [hy h2]]]]]|[[w2 h2]|h2]].
    + left. exists m', (s_mul so x y), sw, (fun k => w1 k + x * w2 k)%l. split; [now apply s_nz|].
      intros c t hc ht. destruct (h1 c t hc ht) as [t1 [E1 A1]]. rewrite E1.
      destruct (h2 (s_mul so c x) t1 (s_nz _ _ hc hx) (proj1 A1)) as [t2 [E2 A2]]. exists t2.
      rewrite E2, (sl_mul_assoc _ L). split; auto. eapply adds_trans; eauto.
    + right; left. exists (fun k => w1 k + x * w2 k)%l.
      intros c t hc ht. destruct (h1 c t hc ht) as [t1 [E1 A1]]. rewrite E1.
      destruct (h2 (s_mul so c x) t1 (s_nz _ _ hc hx) (proj1 A1)) as [t2 [E2 A2]]. exists t2.
      rewrite E2. split; auto. eapply adds_trans; eauto.
    + right; right. intros c t hc ht. destruct (h1 c t hc ht) as [t1 [E1 A1]]. rewrite E1.
      apply h2; [now apply s_nz|apply A1].
  - intros _. right; right. intros c t hc ht.
    destruct (F c t) as [t1| |] eqn:E; auto. exfalso. eapply h1; eauto.
Qed.
Lemma loop_lin_return F : linear F ->
  loop_linear (fun c t => match F c t with
     | Throw => LThrow | Bad => LBad | Ok t' => LReturn t' end).
Proof.
  intros [[w1 h1]|h1].
  - right; left. exists w1. intros c t hc ht. destruct (h1 c t hc ht) as [t1 [E1 A1]]. rewrite E1. eauto.
  - right; right. intros c t hc ht.
    destruct (F c t) as [t1| |] eqn:E; auto. exfalso. eapply h1; eauto.
Qed.
Lemma loop_lin_ext F H : (forall c t, F c t = H c t) -> loop_linear F -> loop_linear H.
Proof.
  intros E [[m' [y [sw [w2 [hy h2]]]]]|[[w2 h2]|h2]].
  - left. exists m', y, sw, w2. split; auto. intros c t; rewrite <- E; apply h2.
  - right; left. exists w2. intros c t; rewrite <- E; apply h2.
  - right; right. intros c t; rewrite <- E; apply h2.
Qed.
Lemma loop_lin_throw F : linear F ->
  loop_linear (fun c t => match F c t with
     | Throw => LThrow | Bad => LBad | Ok _ => LThrow end).
Proof.
  intros _. right; right. intros c t hc ht. destruct (F c t); auto.
Qed.

Lemma sort_pass_lin r : rec_lin r -> forall k n m sw,
  loop_linear (fun c t => sort_pass go so r k n m c sw t).
Proof.
  intros Hr. induction k as [|k IH]; intros n m sw; cbn [sort_pass].
  - apply loop_lin_done.
  - destruct (nth_error m (n - 1)) as [a|]; [|apply loop_lin_bad].
    destruct (nth_error m n) as [b|]; [|apply loop_lin_bad].
    destruct (g_gt go a b) eqn:Eg.
    + destruct (g_swap go a b) as [cc f] eqn:Es.
      destruct (cn_swap CN _ _ _ _ Eg Es) as [Hf Hc].
      pose proof (process_f_lin r (firstn (n - 1) m) (skipn (n + 1) m) f Hr Hf) as Kf.
      destruct (vn_eqb cc (VInt 0)) eqn:E0.
      * apply (loop_lin_return _ Kf).
      * destruct (s_make so cc) as [x|] eqn:Ex; [|apply (loop_lin_throw _ Kf)].
        assert (hx : x <> s_zero so) by (eapply (sd_const _ D); eauto).
        apply (loop_lin_seq _ x (fun c t => sort_pass go so r k (n + 1) (swap_at n a b m) c true t) Kf hx).
        apply IH.
    + destruct (g_simplify go a b) as [f|] eqn:Es; [|apply IH].
      apply loop_lin_return. apply process_f_lin; auto. eapply cn_simplify; eauto.
Qed.

Lemma sort_loop_lin r : rec_lin r -> forall n_max m,
  loop_linear (fun c t => sort_loop go so r n_max m c t).
Proof.
  intros Hr. induction n_max as [|n IH]; intros m.
  - cbn [sort_loop sort_pass]. apply loop_lin_done.
  - pose proof (sort_pass_lin r Hr (Datatypes.S n) 1 m false) as K.
    apply (loop_lin_ext (fun c t => match sort_pass go so r (Datatypes.S n) 1 m c false t with
       | LDone m' coeff' true target' => sort_loop go so r n m' coeff' target'
       | q => q end)); [reflexivity|].
    destruct K as [[m' [x [sw [w [hx h]]]]]|[[w h]|h]].
    + destruct sw.
      * destruct (IH m') as [[m2 [x2 [sw2 [w2 [hx2 h2]]]]]|[[w2 h2]|h2]].
        -- left. exists m2, (s_mul so x x2), sw2, (fun k => w k + x * w2 k)%l. split; [now apply s_nz|].
           intros c t hc ht. destruct (h c t hc ht) as [t1 [E1 A1]]. rewrite E1.
           destruct (h2 (s_mul so c x) t1 (s_nz _ _ hc hx) (proj1 A1)) as [t2 [E2 A2]]. exists t2.
           rewrite E2, (sl_mul_assoc _ L). split; auto. eapply adds_trans; eauto.
        -- right; left. exists (fun k => w k + x * w2 k)%l.
           intros c t hc ht. destruct (h c t hc ht) as [t1 [E1 A1]]. rewrite E1.
           destruct (h2 (s_mul so c x) t1 (s_nz _ _ hc hx) (proj1 A1)) as [t2 [E2 A2]]. exists t2.
           rewrite E2. split; auto. eapply adds_trans; eauto.
        -- right; right. intros c t hc ht. destruct (h c t hc ht) as [t1 [E1 A1]]. rewrite E1.
           apply h2; [now apply s_nz|apply A1].
      * left. exists m', x, false, w. split; auto. intros c t hc ht.
        destruct (h c t hc ht) as [t1 [E1 A1]]. exists t1. now rewrite E1.
    + right; left. exists w. intros c t hc ht.
      destruct (h c t hc ht) as [t1 [E1 A1]]. exists t1. now rewrite E1.
    + right; right. intros c t hc ht. destruct (h c t hc ht) as [E|E]; rewrite E; auto.
Qed.

Lemma reduce_terms_lin r pre post ts : rec_lin r ->
  linear (fun c t => reduce_terms so r pre post c ts t).
Proof.
  intros Hr. induction ts as [|[g v] ts IH]; simpl; [apply linear_ok|].
  destruct (s_make so v) as [x|] eqn:Ev; [|apply linear_throw].
  destruct (s_is_zero so x) eqn:Z; [exact IH|].
  apply (linear_bind (fun c t => r (pre ++ g :: post) (s_mul so c x) t)
           (fun c => reduce_terms so r pre post c ts)); auto.
  apply linear_mul; [now apply (s_is_zero_false so L)|apply Hr].
Qed.

Lemma linear_store m : linear (fun c t => Ok (store_monomial go so m c t)).
Proof.
  left. eexists. intros c t hc ht. eexists. split; [reflexivity|]. now apply adds_store.
Qed.
Lemma linear_bad : linear (fun _ _ => Bad).
Proof. right. intros. discriminate. Qed.

Lemma reduce_scan_lin nr rr : rec_lin nr -> rec_lin rr -> forall k it pw m,
  linear (fun c t => reduce_scan go so nr rr k it pw m c t).
Proof.
  intros Hn Hr. induction k as [|k IH]; intros it pw m; cbn [reduce_scan]; [apply linear_ok|].
  destruct (it + 1 =? length m); [apply linear_store|].
  destruct (nth_error m it) as [cur|]; [|apply linear_bad].
  destruct (nth_error m (it + 1)) as [nx|]; [|apply linear_bad].
  destruct (g_eq go nx cur); [|apply IH]. cbv zeta.
  destruct (if 2 <? pw + 1 then g_reduce go cur (pw + 1) else None) as [f|]; [|apply IH].
  destruct (lf_vanishing f); [apply linear_ok|].
  destruct (s_make so (const_term f)) as [v|] eqn:Ev; [|apply linear_throw].
  apply (linear_bind (fun c t => if s_is_zero so v then Ok t
                else rr (firstn (it + 2 - (pw + 1)) m ++ skipn (it + 2) m) (s_mul so c v) t)
           (fun c => reduce_terms so nr (firstn (it + 2 - (pw + 1)) m) (skipn (it + 2) m) c (terms f))).
  - destruct (s_is_zero so v) eqn:Z; [apply linear_ok|].
    apply linear_mul; [now apply (s_is_zero_false so L)|apply Hr].
  - now apply reduce_terms_lin.
Qed.

Lemma normalize_lin_aux : forall fuel,
  rec_lin (normalize_and_store go so fuel) /\ rec_lin (reduce_powers_and_store go so fuel).
Proof.
  induction fuel as [|fuel [IH1 IH2]].
  - split; intros m; apply linear_bad.
  - split; intros m.
    + apply (linear_ext (fun c t => if Nat.leb 2 (length m) then
        match sort_loop go so (normalize_and_store go so fuel) (length m - 1) m c t with
        | LDone m' coeff' _ target' =>
            if s_is_zero so coeff' then Ok target'
            else reduce_powers_and_store go so fuel m' coeff' target'
        | LReturn target' => Ok target'
        | LThrow => Throw
        | LBad => Bad
        end
      else reduce_powers_and_store go so fuel m c t)); [reflexivity|].
      destruct (2 <=? length m); [|apply IH2].
      destruct (sort_loop_lin _ IH1 (length m - 1) m) as [[m' [x [sw [w [hx h]]]]]|[[w h]|h]].
      * destruct (IH2 m') as [[w2 h2]|h2].
        -- left. exists (fun k => w k + x * w2 k)%l. intros c t hc ht.
           destruct (h c t hc ht) as [t1 [E1 A1]]. rewrite E1.
           rewrite (proj2 (s_is_zero_false so L _) (s_nz _ _ hc hx)).
           destruct (h2 (s_mul so c x) t1 (s_nz _ _ hc hx) (proj1 A1)) as [t2 [E2 A2]]. exists t2.
           split; auto. eapply adds_trans; eauto.
        -- right. intros c t t' hc ht. destruct (h c t hc ht) as [t1 [E1 A1]]. rewrite E1.
           rewrite (proj2 (s_is_zero_false so L _) (s_nz _ _ hc hx)).
           apply h2; [now apply s_nz|apply A1].
      * left. exists w. intros c t hc ht. destruct (h c t hc ht) as [t1 [E1 A1]]. rewrite E1. eauto.
      * right. intros c t t' hc ht. destruct (h c t hc ht) as [E|E]; rewrite E; discriminate.
    + destruct m as [|g m].
      * apply linear_store.
      * apply (reduce_scan_lin _ _ IH1 IH2).
Qed.

Lemma normalize_lin m : linear (normalize go so m).
Proof. apply (proj1 (normalize_lin_aux _) m). Qed.

(** ** The normal form of a monomial *)
Definition nf (m : mono) (k : mono) : S :=
  match normalize go so m (s_one so) [] with Ok t => cf t k | _ => s_zero so end.

Lemma nf_eq m u k : normalize go so m (s_one so) [] = Ok u -> nf m k = cf u k.
Proof.
  intros E. unfold nf.
  match goal with |- match ?X with _ => _ end = _ => replace X with (Ok u) by (symmetry; exact E) end.
  reflexivity.
Qed.
Lemma one_nz : s_one so <> s_zero so.
Proof.
  intros e. eapply (sd_const _ D (VInt 1)); [apply (sl_make_int _ L)|reflexivity|].
  rewrite (zmul_1 so L). exact e.
Qed.
Lemma stored_nil : stored [].
Proof. split; [constructor|intros m c []]. Qed.

Lemma normalize_nf m c t t' : c <> s_zero so -> stored t -> normalize go so m c t = Ok t' ->
  adds (nf m) c t t'.
Proof.
  intros hc ht E. destruct (normalize_lin m) as [[w h]|h].
  - destruct (h c t hc ht) as [t1 [E1 A1]]. rewrite E in E1. inversion E1; subst t1.
    destruct (h (s_one so) [] one_nz stored_nil) as [u [E2 A2]].
    destruct A1 as [a1 a2]. split; auto. intros k. rewrite a2. rewrite (nf_eq _ _ k E2).
    rewrite (proj2 A2), coef_nil, (sl_add_0 _ L), (sl_mul_1_l _ L). reflexivity.
  - exfalso. eapply h; eauto.
Qed.
(** success does not depend on the coefficient or on the map *)
Lemma normalize_success m c t : c <> s_zero so -> stored t ->
  (exists t', normalize go so m c t = Ok t') <-> (exists t', normalize go so m (s_one so) [] = Ok t').
Proof.
  intros hc ht. destruct (normalize_lin m) as [[w h]|h].
  - destruct (h c t hc ht) as [t1 [E1 _]]. destruct (h _ _ one_nz stored_nil) as [u [E2 _]].
    split; eauto.
  - split; intros [t' E]; exfalso; eapply h; try exact E; auto using one_nz, stored_nil.
Qed.

(** ** Products: structure constants *)
Fixpoint lsum {A} (f : A -> S) (l : list A) : S :=
  match l with [] => s_zero so | x :: l' => (f x + lsum f l')%l end.

Definition prod_coef (a b : emap) (k : mono) : S :=
  lsum (fun p => lsum (fun q => (snd p * snd q) * nf (fst p ++ fst q) k)%l b) a.

Lemma nonzero_inv m c (e : emap) : nonzero so ((m, c) :: e) -> c <> s_zero so /\ nonzero so e.
Proof. intros h. split; [eapply h; left; reflexivity|intros k d i; eapply h; right; eauto]. Qed.

Lemma mul_row_nf m1 c1 : c1 <> s_zero so -> forall b t t', nonzero so b -> stored t ->
  mul_row go so m1 c1 b t = Ok t' ->
  stored t' /\ forall k, cf t' k = (cf t k + lsum (fun q => (c1 * snd q) * nf (m1 ++ fst q) k) b)%l.
Proof.
  intros hc. induction b as [|[m2 c2] b IH]; cbn [mul_row lsum]; intros t t' hb ht E.
  - inversion E; subst. split; auto. intros k. now rewrite (s_add_0_r so L).
  - destruct (nonzero_inv _ _ _ hb) as [h2 hb'].
    destruct (normalize go so (m1 ++ m2) (s_mul so c1 c2) t) as [t1| |] eqn:E1; try discriminate.
    cbn [rbind] in E. destruct (normalize_nf _ _ _ _ (s_nz _ _ hc h2) ht E1) as [ht1 K1].
    destruct (IH t1 t' hb' ht1 E) as [hs K]. split; auto. intros k.
    rewrite K, K1. cbn [fst snd]. now rewrite (sl_add_assoc _ L).
Qed.
Lemma mul_rows_nf b : nonzero so b -> forall a t t', nonzero so a -> stored t ->
  mul_rows go so a b t = Ok t' ->
  stored t' /\ forall k, cf t' k = (cf t k + prod_coef a b k)%l.
Proof.
  intros hb. induction a as [|[m1 c1] a IH]; cbn [mul_rows]; intros t t' ha ht E.
  - inversion E; subst. split; auto. intros k. unfold prod_coef; cbn [lsum]. now rewrite (s_add_0_r so L).
  - destruct (nonzero_inv _ _ _ ha) as [h1 ha'].
    destruct (mul_row go so m1 c1 b t) as [t1| |] eqn:E1; try discriminate.
    cbn [rbind] in E. destruct (mul_row_nf _ _ h1 _ _ _ hb ht E1) as [ht1 K1].
    destruct (IH t1 t' ha' ht1 E) as [hs K]. split; auto. intros k.
    rewrite K, K1. unfold prod_coef; cbn [lsum fst snd]. now rewrite (sl_add_assoc _ L).
Qed.
Lemma e_mul_nf a b e : nonzero so a -> nonzero so b -> e_mul go so a b = Ok e ->
  stored e /\ forall k, cf e k = prod_coef a b k.
Proof.
  intros ha hb E. destruct (mul_rows_nf b hb a [] e ha stored_nil E) as [h K].
  split; auto. intros k. now rewrite K, coef_nil, (sl_add_0 _ L).
Qed.

(** sums over a stored expression are additive in the expression *)
Lemma lsum_ext {A} (f g : A -> S) l : (forall x, In x l -> f x = g x) -> lsum f l = lsum g l.
Proof.
  induction l as [|x l IH]; simpl; intros h; auto. rewrite (h x), IH; auto.
Qed.
Lemma lsum_0 {A} (l : list A) : lsum (fun _ => s_zero so) l = s_zero so.
Proof. induction l as [|x l IH]; simpl; auto. now rewrite IH, (sl_add_0 _ L). Qed.
Lemma s_add_swap a b c d : ((a + b) + (c + d) = (a + c) + (b + d))%l.
Proof.
  rewrite <- !(sl_add_assoc _ L). f_equal. rewrite !(sl_add_assoc _ L). f_equal. apply (sl_add_comm _ L).
Qed.
Lemma lsum_add {A} (f g : A -> S) l : lsum (fun x => f x + g x)%l l = (lsum f l + lsum g l)%l.
Proof.
  induction l as [|x l IH]; simpl.
  - now rewrite (sl_add_0 _ L).
  - rewrite IH. apply s_add_swap.
Qed.
Lemma lsum_mul_l {A} s (f : A -> S) l : lsum (fun x => s * f x)%l l = (s * lsum f l)%l.
Proof.
  induction l as [|x l IH]; simpl.
  - now rewrite (s_mul_0_r so L).
  - now rewrite IH, (sl_dist_l _ L).
Qed.
Lemma lsum_map {A B} (f : B -> S) (g : A -> B) l : lsum f (map g l) = lsum (fun x => f (g x)) l.
Proof. induction l as [|x l IH]; simpl; auto. now rewrite IH. Qed.

(** [W] additive in the coefficient *)
Definition additive (W : mono * S -> S) : Prop :=
  (forall m x y, W (m, s_add so x y) = (W (m, x) + W (m, y))%l).
Lemma additive_0 W m : additive W -> W (m, s_zero so) = s_zero so.
Proof.
  intros h. apply (s_add_cancel so L (W (m, s_zero so))).
  rewrite <- h, (sl_add_0 _ L), (s_add_0_r so L). reflexivity.
Qed.
Lemma lsum_ins W k c e : additive W -> lsum W (add_entry go so (k, c) e) = (lsum W e + W (k, c))%l.
Proof.
  intros hW. induction e as [|[x v] e IH].
  - rewrite ins_nil. simpl. apply (sl_add_comm _ L).
  - rewrite ins_cons. destruct (mono_lt go x k) eqn:E1.
    + simpl. now rewrite IH, (sl_add_assoc _ L).
    + destruct (mono_lt go k x) eqn:E2.
      * simpl. apply (sl_add_comm _ L).
      * assert (x = k) by (eapply (sto_eq_of (mono_sto go Hgo)); eauto). subst x.
        assert (Ev : (W (k, v) + W (k, c))%l = W (k, s_add so v c)) by (symmetry; apply hW).
        destruct (s_is_zero so (s_add so v c)) eqn:Z.
        -- apply (sl_is_zero _ L) in Z. pose proof (eq_trans Ev (eq_trans (f_equal (fun z => W (k, z)) Z) (additive_0 W k hW))) as Ev0. simpl.
           rewrite (sl_add_comm _ L (W (k, v))), <- (sl_add_assoc _ L), Ev0. symmetry. apply (s_add_0_r so L).
        -- simpl. rewrite <- Ev, <- !(sl_add_assoc _ L). f_equal. apply (sl_add_comm _ L).
Qed.
Lemma lsum_e_add W b : additive W -> forall a, lsum W (e_add go so a b) = (lsum W a + lsum W b)%l.
Proof.
  intros hW. unfold e_add, e_add_assign. induction b as [|[k c] b IH]; simpl; intros a.
  - now rewrite (s_add_0_r so L).
  - now rewrite IH, (lsum_ins W k c a hW), (sl_add_assoc _ L).
Qed.

Lemma stored_add a b : stored a -> stored b -> stored (e_add go so a b).
Proof.
  intros [h1 h2] [h3 h4]. split; [now apply fold_ins_sorted|now apply fold_ins_nonzero].
Qed.
Lemma stored_ext e1 e2 : stored e1 -> stored e2 -> (forall k, cf e1 k = cf e2 k) -> e1 = e2.
Proof. intros [h1 h2] [h3 h4] E. now apply (coef_ext go Hgo so L). Qed.

Lemma prod_coef_add_l a b c k : prod_coef (e_add go so a b) c k = (prod_coef a c k + prod_coef b c k)%l.
Proof.
  unfold prod_coef. apply lsum_e_add. intros m x y. cbn [fst snd].
  rewrite <- lsum_add. apply lsum_ext. intros q _. now rewrite !(sl_dist_r _ L).
Qed.
Lemma prod_coef_add_r a b c k : prod_coef a (e_add go so b c) k = (prod_coef a b k + prod_coef a c k)%l.
Proof.
  unfold prod_coef. rewrite <- lsum_add. apply lsum_ext. intros p _.
  apply lsum_e_add. intros m x y. cbn [fst snd].
  now rewrite (sl_dist_l _ L), (sl_dist_r _ L).
Qed.

Lemma mul_add_l a b c r p q : stored a -> stored b -> stored c ->
  e_mul go so (e_add go so a b) c = Ok r -> e_mul go so a c = Ok p -> e_mul go so b c = Ok q ->
  r = e_add go so p q.
Proof.
  intros ha hb hc Er Ep Eq.
  destruct (e_mul_nf _ _ _ (proj2 (stored_add _ _ ha hb)) (proj2 hc) Er) as [sr Kr].
  destruct (e_mul_nf _ _ _ (proj2 ha) (proj2 hc) Ep) as [sp Kp].
  destruct (e_mul_nf _ _ _ (proj2 hb) (proj2 hc) Eq) as [sq Kq].
  apply stored_ext; auto using stored_add. intros k.
  unfold e_add at 1. rewrite (coef_add_assign go Hgo so L) by (apply sp || apply sq).
  rewrite Kr, Kp, Kq. apply prod_coef_add_l.
Qed.
Lemma mul_add_r a b c r p q : stored a -> stored b -> stored c ->
  e_mul go so a (e_add go so b c) = Ok r -> e_mul go so a b = Ok p -> e_mul go so a c = Ok q ->
  r = e_add go so p q.
Proof.
  intros ha hb hc Er Ep Eq.
  destruct (e_mul_nf _ _ _ (proj2 ha) (proj2 (stored_add _ _ hb hc)) Er) as [sr Kr].
  destruct (e_mul_nf _ _ _ (proj2 ha) (proj2 hb) Ep) as [sp Kp].
  destruct (e_mul_nf _ _ _ (proj2 ha) (proj2 hc) Eq) as [sq Kq].
  apply stored_ext; auto using stored_add. intros k.
  unfold e_add at 1. rewrite (coef_add_assign go Hgo so L) by (apply sp || apply sq).
  rewrite Kr, Kp, Kq. apply prod_coef_add_r.
Qed.

(** ** Scalars *)
Lemma stored_map (f : S -> S) e : (forall x, x <> s_zero so -> f x <> s_zero so) -> stored e ->
  stored (map (fun p => (fst p, f (snd p))) e).
Proof.
  intros hf [h1 h2]. split; [|now apply map_nonzero].
  unfold msorted. rewrite map_map. exact h1.
Qed.
Lemma stored_pre s e : stored e -> stored (e_mul_const_pre so s e).
Proof.
  intros h. unfold e_mul_const_pre. destruct (s_is_zero so s) eqn:Z; [apply stored_nil|].
  apply (stored_map (s_mul so s)); auto. intros x hx. apply s_nz; auto. now apply (s_is_zero_false so L).
Qed.
Lemma stored_post s e : stored e -> stored (e_mul_const_post so e s).
Proof.
  intros h. unfold e_mul_const_post. destruct (s_is_zero so s) eqn:Z; [apply stored_nil|].
  apply (stored_map (fun x => s_mul so x s)); auto. intros x hx. apply s_nz; auto. now apply (s_is_zero_false so L).
Qed.
Lemma cf_pre s e k : cf (e_mul_const_pre so s e) k = (s * cf e k)%l.
Proof.
  unfold e_mul_const_pre. destruct (s_is_zero so s) eqn:Z.
  - apply (sl_is_zero _ L) in Z. subst s. now rewrite (s_mul_0_l so L), coef_nil.
  - apply (coef_map go so (s_mul so s)). apply (s_mul_0_r so L).
Qed.
Lemma cf_post s e k : cf (e_mul_const_post so e s) k = (cf e k * s)%l.
Proof.
  unfold e_mul_const_post. destruct (s_is_zero so s) eqn:Z.
  - apply (sl_is_zero _ L) in Z. subst s. now rewrite (s_mul_0_r so L), coef_nil.
  - apply (coef_map go so (fun x => s_mul so x s)). apply (s_mul_0_l so L).
Qed.
Lemma lsum_pre (W : mono * S -> S) s e : additive W ->
  lsum W (e_mul_const_pre so s e) = lsum (fun p => W (fst p, s_mul so s (snd p))) e.
Proof.
  intros hW. unfold e_mul_const_pre. destruct (s_is_zero so s) eqn:Z.
  - apply (sl_is_zero _ L) in Z. subst s. simpl. symmetry.
    rewrite (lsum_ext _ (fun _ => s_zero so)); [apply lsum_0|].
    intros p _. rewrite (s_mul_0_l so L). now apply additive_0.
  - apply lsum_map.
Qed.
Lemma lsum_post (W : mono * S -> S) s e : additive W ->
  lsum W (e_mul_const_post so e s) = lsum (fun p => W (fst p, s_mul so (snd p) s)) e.
Proof.
  intros hW. unfold e_mul_const_post. destruct (s_is_zero so s) eqn:Z.
  - apply (sl_is_zero _ L) in Z. subst s. simpl. symmetry.
    rewrite (lsum_ext _ (fun _ => s_zero so)); [apply lsum_0|].
    intros p _. rewrite (s_mul_0_r so L). now apply additive_0.
  - apply lsum_map.
Qed.
Lemma additive_row b k : additive (fun p => lsum (fun q => (snd p * snd q) * nf (fst p ++ fst q) k)%l b).
Proof.
  intros m x y. cbn [fst snd]. rewrite <- lsum_add. apply lsum_ext. intros q _. now rewrite !(sl_dist_r _ L).
Qed.
Lemma additive_col p k : additive (fun q : mono * S => (snd p * snd q) * nf (fst p ++ fst q) k)%l.
Proof.
  intros m x y. cbn [fst snd]. now rewrite (sl_dist_l _ L), (sl_dist_r _ L).
Qed.

(** (s a) b = s (a b) *)
Lemma mul_pre s a b r p : stored a -> stored b ->
  e_mul go so (e_mul_const_pre so s a) b = Ok r -> e_mul go so a b = Ok p ->
  r = e_mul_const_pre so s p.
Proof.
  intros ha hb Er Ep.
  destruct (e_mul_nf _ _ _ (proj2 (stored_pre s a ha)) (proj2 hb) Er) as [sr Kr].
  destruct (e_mul_nf _ _ _ (proj2 ha) (proj2 hb) Ep) as [sp Kp].
  apply stored_ext; auto using stored_pre. intros k.
  rewrite cf_pre, Kr, Kp. unfold prod_coef.
  rewrite (lsum_pre _ s a (additive_row b k)), <- lsum_mul_l. apply lsum_ext. intros u _.
  rewrite <- lsum_mul_l. apply lsum_ext. intros v _. cbn [fst snd]. now rewrite !(sl_mul_assoc _ L).
Qed.
(** (a s) b = a (s b) *)
Lemma mul_mid s a b r p : stored a -> stored b ->
  e_mul go so (e_mul_const_post so a s) b = Ok r -> e_mul go so a (e_mul_const_pre so s b) = Ok p ->
  r = p.
Proof.
  intros ha hb Er Ep.
  destruct (e_mul_nf _ _ _ (proj2 (stored_post s a ha)) (proj2 hb) Er) as [sr Kr].
  destruct (e_mul_nf _ _ _ (proj2 ha) (proj2 (stored_pre s b hb)) Ep) as [sp Kp].
  apply stored_ext; auto. intros k.
  rewrite Kr, Kp. unfold prod_coef.
  rewrite (lsum_post _ s a (additive_row b k)). apply lsum_ext. intros u _.
  rewrite (lsum_pre _ s b (additive_col u k)). apply lsum_ext. intros v _. cbn [fst snd].
  now rewrite !(sl_mul_assoc _ L).
Qed.
(** a (b s) = (a b) s when scalars commute *)
Lemma mul_post s a b r p : (forall x y, s_mul so x y = s_mul so y x) -> stored a -> stored b ->
  e_mul go so a (e_mul_const_post so b s) = Ok r -> e_mul go so a b = Ok p ->
  r = e_mul_const_post so p s.
Proof.
  intros comm ha hb Er Ep.
  destruct (e_mul_nf _ _ _ (proj2 ha) (proj2 (stored_post s b hb)) Er) as [sr Kr].
  destruct (e_mul_nf _ _ _ (proj2 ha) (proj2 hb) Ep) as [sp Kp].
  apply stored_ext; auto using stored_post. intros k.
  rewrite cf_post, Kr, Kp, comm. unfold prod_coef. rewrite <- lsum_mul_l. apply lsum_ext. intros u _.
  rewrite (lsum_post _ s b (additive_col u k)), <- lsum_mul_l. apply lsum_ext. intros v _. cbn [fst snd].
  rewrite (comm (snd v) s), !(sl_mul_assoc _ L). f_equal. f_equal. apply comm.
Qed.

(** ** When products exist *)
Definition normalizes (m : mono) : Prop := exists t, normalize go so m (s_one so) [] = Ok t.

Lemma mul_row_succ m1 c1 b : c1 <> s_zero so -> nonzero so b -> forall t, stored t ->
  (exists t', mul_row go so m1 c1 b t = Ok t') <-> (forall m2 c2, In (m2, c2) b -> normalizes (m1 ++ m2)).
Proof.
  intros hc. induction b as [|[m2 c2] b IH]; cbn [mul_row]; intros hb t ht.
  - split; [intros _ m2 c2 []|eauto].
  - destruct (nonzero_inv _ _ _ hb) as [h2 hb'].
    pose proof (normalize_success (m1 ++ m2) _ t (s_nz _ _ hc h2) ht) as K.
    destruct (normalize go so (m1 ++ m2) (s_mul so c1 c2) t) as [t1| |] eqn:E1; cbn [rbind].
    + destruct (normalize_nf _ _ _ _ (s_nz _ _ hc h2) ht E1) as [ht1 _].
      rewrite (IH hb' t1 ht1). split.
      * intros h n d [i|i]; [inversion i; subst; apply K; eauto|eapply h; eauto].
      * intros h n d i. eapply h; right; eauto.
    + split; [intros [t' E]; discriminate|]. intros h.
      destruct (proj2 K (h m2 c2 (or_introl eq_refl))) as [t' E]. discriminate.
    + split; [intros [t' E]; discriminate|]. intros h.
      destruct (proj2 K (h m2 c2 (or_introl eq_refl))) as [t' E]. discriminate.
Qed.
Lemma mul_rows_succ b : nonzero so b -> forall a t, nonzero so a -> stored t ->
  (exists t', mul_rows go so a b t = Ok t') <->
  (forall m1 c1 m2 c2, In (m1, c1) a -> In (m2, c2) b -> normalizes (m1 ++ m2)).
Proof.
  intros hb. induction a as [|[m1 c1] a IH]; cbn [mul_rows]; intros t ha ht.
  - split; [intros _ m1 c1 m2 c2 []|eauto].
  - destruct (nonzero_inv _ _ _ ha) as [h1 ha'].
    pose proof (mul_row_succ m1 c1 b h1 hb t ht) as K.
    destruct (mul_row go so m1 c1 b t) as [t1| |] eqn:E1; cbn [rbind].
    + destruct (mul_row_nf _ _ h1 _ _ _ hb ht E1) as [ht1 _].
      rewrite (IH t1 ha' ht1). split.
      * intros h n1 d1 n2 d2 [i|i] j.
        -- inversion i; subst. eapply (proj1 K); eauto.
        -- eapply h; eauto.
      * intros h n1 d1 n2 d2 i j. eapply h; [right; exact i|exact j].
    + split; [intros [t' E]; discriminate|]. intros h. exfalso.
      destruct (proj2 K (fun n2 d2 j => h m1 c1 n2 d2 (or_introl eq_refl) j)) as [t' E]. discriminate.
    + split; [intros [t' E]; discriminate|]. intros h. exfalso.
      destruct (proj2 K (fun n2 d2 j => h m1 c1 n2 d2 (or_introl eq_refl) j)) as [t' E]. discriminate.
Qed.
Lemma e_mul_succ a b : nonzero so a -> nonzero so b ->
  (exists e, e_mul go so a b = Ok e) <->
  (forall m1 m2, In m1 (map fst a) -> In m2 (map fst b) -> normalizes (m1 ++ m2)).
Proof.
  intros ha hb. unfold e_mul. rewrite (mul_rows_succ b hb a [] ha stored_nil). split.
  - intros h m1 m2 i j. apply in_map_iff in i, j.
    destruct i as [[n1 c1] [<- i]], j as [[n2 c2] [<- j]]. eapply h; eauto.
  - intros h m1 c1 m2 c2 i j. apply (in_map fst) in i, j. now apply h.
Qed.
Lemma add_keys a b m : In m (map fst (e_add go so a b)) -> In m (map fst a) \/ In m (map fst b).
Proof.
  intros i. apply in_map_iff in i. destruct i as [[n d] [<- i]]. now apply (add_assign_In go Hgo so) in i.
Qed.

Lemma e_mul_add_l a b c p q : stored a -> stored b -> stored c ->
  e_mul go so a c = Ok p -> e_mul go so b c = Ok q ->
  e_mul go so (e_add go so a b) c = Ok (e_add go so p q).
Proof.
  intros ha hb hc Ep Eq.
  destruct (proj2 (e_mul_succ (e_add go so a b) c (proj2 (stored_add _ _ ha hb)) (proj2 hc))) as [r Er].
  - intros m1 m2 i j. apply add_keys in i. destruct i as [i|i].
    + eapply (proj1 (e_mul_succ a c (proj2 ha) (proj2 hc))); eauto.
    + eapply (proj1 (e_mul_succ b c (proj2 hb) (proj2 hc))); eauto.
  - rewrite Er. f_equal. exact (mul_add_l a b c r p q ha hb hc Er Ep Eq).
Qed.
Lemma e_mul_add_r a b c p q : stored a -> stored b -> stored c ->
  e_mul go so a b = Ok p -> e_mul go so a c = Ok q ->
  e_mul go so a (e_add go so b c) = Ok (e_add go so p q).
Proof.
  intros ha hb hc Ep Eq.
  destruct (proj2 (e_mul_succ a (e_add go so b c) (proj2 ha) (proj2 (stored_add _ _ hb hc)))) as [r Er].
  - intros m1 m2 i j. apply add_keys in j. destruct j as [j|j].
    + eapply (proj1 (e_mul_succ a b (proj2 ha) (proj2 hb))); eauto.
    + eapply (proj1 (e_mul_succ a c (proj2 ha) (proj2 hc))); eauto.
  - rewrite Er. f_equal. exact (mul_add_r a b c r p q ha hb hc Er Ep Eq).
Qed.
Lemma pre_keys s (a : emap) m : In m (map fst (e_mul_const_pre so s a)) -> In m (map fst a).
Proof.
  unfold e_mul_const_pre. destruct (s_is_zero so s); [intros []|]. rewrite map_map. auto.
Qed.
Lemma post_keys s (a : emap) m : In m (map fst (e_mul_const_post so a s)) -> In m (map fst a).
Proof.
  unfold e_mul_const_post. destruct (s_is_zero so s); [intros []|]. rewrite map_map. auto.
Qed.
Lemma e_mul_pre s a b p : stored a -> stored b -> e_mul go so a b = Ok p ->
  e_mul go so (e_mul_const_pre so s a) b = Ok (e_mul_const_pre so s p).
Proof.
  intros ha hb Ep.
  destruct (proj2 (e_mul_succ (e_mul_const_pre so s a) b (proj2 (stored_pre s a ha)) (proj2 hb))) as [r Er].
  - intros m1 m2 i j. apply pre_keys in i.
    eapply (proj1 (e_mul_succ a b (proj2 ha) (proj2 hb))); eauto.
  - rewrite Er. f_equal. exact (mul_pre s a b r p ha hb Er Ep).
Qed.
Lemma e_mul_mid s a b p : stored a -> stored b ->
  e_mul go so (e_mul_const_post so a s) b = Ok p -> e_mul go so a (e_mul_const_pre so s b) = Ok p.
Proof.
  intros ha hb Ep.
  assert (X : exists r, e_mul go so a (e_mul_const_pre so s b) = Ok r).
  { apply (proj2 (e_mul_succ a (e_mul_const_pre so s b) (proj2 ha) (proj2 (stored_pre s b hb)))).
    pose proof (proj1 (e_mul_succ (e_mul_const_post so a s) b (proj2 (stored_post s a ha)) (proj2 hb))
                  (ex_intro _ p Ep)) as K.
    intros m1 m2. revert K. unfold e_mul_const_post, e_mul_const_pre.
    destruct (s_is_zero so s); [intros _ _ []|]. rewrite !map_map. intros K. apply K. }
  destruct X as [r Er]. rewrite Er. f_equal. symmetry. exact (mul_mid s a b p r ha hb Ep Er).
Qed.
Lemma e_mul_post s a b p : (forall x y, s_mul so x y = s_mul so y x) -> stored a -> stored b ->
  e_mul go so a b = Ok p ->
  e_mul go so a (e_mul_const_post so b s) = Ok (e_mul_const_post so p s).
Proof.
  intros comm ha hb Ep.
  destruct (proj2 (e_mul_succ a (e_mul_const_post so b s) (proj2 ha) (proj2 (stored_post s b hb)))) as [r Er].
  - intros m1 m2 i j. apply post_keys in j.
    eapply (proj1 (e_mul_succ a b (proj2 ha) (proj2 hb))); eauto.
  - rewrite Er. f_equal. exact (mul_post s a b r p comm ha hb Er Ep).
Qed.

(** ** Conjugation *)
Lemma stored_e_mono x m e : e_mono go so x m = Ok e -> stored e.
Proof.
  unfold e_mono. destruct (s_is_zero so x) eqn:Z; intros E.
  - inversion E. apply stored_nil.
  - apply (normalize_nf m x [] e); auto using stored_nil. now apply (s_is_zero_false so L).
Qed.
Lemma stored_const x : stored (e_const so x).
Proof.
  unfold e_const. destruct (s_is_zero so x) eqn:Z; [apply stored_nil|]. split.
  - apply msorted_cons; [constructor|intros m c []].
  - intros m c [i|[]]. inversion i; subst. now apply (s_is_zero_false so L).
Qed.
Lemma stored_linfun_terms ts : forall e e', stored e -> linfun_terms go so ts e = Ok e' -> stored e'.
Proof.
  induction ts as [|[g v] ts IH]; cbn [linfun_terms]; intros e e' he E.
  - inversion E; subst; auto.
  - destruct (s_make so v) as [x|]; [|discriminate].
    destruct (s_is_zero so x); [eapply IH; eauto|].
    destruct (e_mono go so x [g]) as [d| |] eqn:Ed; try discriminate. cbn [rbind] in E.
    eapply IH; [|exact E]. apply stored_add; auto. eapply stored_e_mono; eauto.
Qed.
Lemma stored_linfun f e : e_linfun go so f = Ok e -> stored e.
Proof.
  unfold e_linfun. destruct (vn_is_zero (const_term f)) eqn:Z; cbn [rbind].
  - apply stored_linfun_terms, stored_nil.
  - destruct (s_make so (const_term f)) as [x|] eqn:Ev; [|discriminate]. cbn [rbind].
    apply stored_linfun_terms. split.
    + apply msorted_cons; [constructor|intros m c []].
    + intros m c [i|[]]. inversion i; subst. eapply (sd_const _ D); eauto.
Qed.
Lemma stored_mul a b e : stored a -> stored b -> e_mul go so a b = Ok e -> stored e.
Proof. intros [_ ha] [_ hb] E. now apply (e_mul_nf a b e ha hb). Qed.
Lemma stored_conj_mono l : forall a e, stored a -> conj_mono go so l a = Ok e -> stored e.
Proof.
  induction l as [|g l IH]; cbn [conj_mono]; intros a e ha E.
  - inversion E; subst; auto.
  - destruct (e_linfun go so (g_conj go g)) as [ef| |] eqn:Ef; try discriminate. cbn [rbind] in E.
    destruct (e_mul go so a ef) as [a'| |] eqn:Ea; try discriminate. cbn [rbind] in E.
    eapply IH; [|exact E]. exact (stored_mul a ef a' ha (stored_linfun _ _ Ef) Ea).
Qed.
Lemma conj_mono_pre s l : forall a e, stored a -> conj_mono go so l a = Ok e ->
  conj_mono go so l (e_mul_const_pre so s a) = Ok (e_mul_const_pre so s e).
Proof.
  induction l as [|g l IH]; cbn [conj_mono]; intros a e ha E.
  - inversion E; subst; auto.
  - destruct (e_linfun go so (g_conj go g)) as [ef| |] eqn:Ef; try discriminate. cbn [rbind] in E |- *.
    destruct (e_mul go so a ef) as [a'| |] eqn:Ea; try discriminate. cbn [rbind] in E.
    rewrite (e_mul_pre s a ef a' ha (stored_linfun _ _ Ef) Ea). cbn [rbind]. apply IH; auto.
    exact (stored_mul a ef a' ha (stored_linfun _ _ Ef) Ea).
Qed.
(** undoing a scaling is not possible in a domain; instead compare keys *)
Lemma pre_same_keys s (a : emap) : s <> s_zero so -> map fst (e_mul_const_pre so s a) = map fst a.
Proof.
  intros hs. unfold e_mul_const_pre. rewrite (proj2 (s_is_zero_false so L s) hs). now rewrite map_map.
Qed.
Lemma conj_mono_pre_inv s l : s <> s_zero so -> forall a e, stored a ->
  conj_mono go so l (e_mul_const_pre so s a) = Ok e -> exists e', conj_mono go so l a = Ok e'.
Proof.
  intros hs. induction l as [|g l IH]; cbn [conj_mono]; intros a e ha E.
  - eauto.
  - destruct (e_linfun go so (g_conj go g)) as [ef| |] eqn:Ef; try discriminate. cbn [rbind] in E |- *.
    pose proof (stored_linfun _ _ Ef) as hf.
    destruct (e_mul go so (e_mul_const_pre so s a) ef) as [a'| |] eqn:Ea; try discriminate. cbn [rbind] in E.
    destruct (proj2 (e_mul_succ a ef (proj2 ha) (proj2 hf))) as [a1 Ea1].
    + intros m1 m2 i j. rewrite <- (pre_same_keys s a hs) in i.
      eapply (proj1 (e_mul_succ _ ef (proj2 (stored_pre s a ha)) (proj2 hf))); eauto.
    + rewrite Ea1. cbn [rbind]. rewrite (e_mul_pre s a ef a1 ha hf Ea1) in Ea. inversion Ea; subst a'.
      eapply IH; [|exact E]. exact (stored_mul a ef a1 ha hf Ea1).
Qed.

Lemma const_pre x : x <> s_zero so -> e_const so x = e_mul_const_pre so x (@e_const G S so (s_one so)).
Proof.
  intros hx. unfold e_const, e_mul_const_pre.
  rewrite (proj2 (s_is_zero_false so L x) hx), (proj2 (s_is_zero_false so L _) one_nz). simpl.
  now rewrite (sl_mul_1_r _ L).
Qed.

(** the conjugate of a monomial *)
Definition cnf (m : mono) (k : mono) : S :=
  match conj_mono go so (rev m) (e_const so (s_one so)) with Ok t => cf t k | _ => s_zero so end.
Definition conjugates (m : mono) : Prop :=
  exists t, conj_mono go so (rev m) (e_const so (s_one so)) = Ok t.
Lemma cnf_eq m u k : conj_mono go so (rev m) (e_const so (s_one so)) = Ok u -> cnf m k = cf u k.
Proof.
  intros E. unfold cnf.
  match goal with |- match ?X with _ => _ end = _ => replace X with (Ok u) by (symmetry; exact E) end.
  reflexivity.
Qed.

Lemma conj_mono_cnf m x e : x <> s_zero so -> conj_mono go so (rev m) (e_const so x) = Ok e ->
  stored e /\ conjugates m /\ forall k, cf e k = (x * cnf m k)%l.
Proof.
  intros hx E. split; [eapply stored_conj_mono; [apply stored_const|exact E]|].
  rewrite (const_pre x hx) in E.
  destruct (conj_mono_pre_inv x (rev m) hx _ _ (stored_const _) E) as [u Eu].
  split; [exists u; exact Eu|]. intros k.
  rewrite (conj_mono_pre x (rev m) _ u (stored_const _) Eu) in E. inversion E; subst e.
  rewrite cf_pre. now rewrite (cnf_eq m u k Eu).
Qed.
Lemma conj_mono_succ m x : x <> s_zero so -> conjugates m ->
  exists e, conj_mono go so (rev m) (e_const so x) = Ok e.
Proof.
  intros hx [u Eu]. rewrite (const_pre x hx). eexists. eapply conj_mono_pre; [apply stored_const|exact Eu].
Qed.

Context (CL : conj_laws so).
Lemma conj_nz x : x <> s_zero so -> s_conj so x <> s_zero so.
Proof.
  intros hx E. apply hx. rewrite <- (cl_invol _ CL x), E.
  apply (s_add_cancel so L (s_conj so (s_zero so))).
  now rewrite <- (cl_add _ CL), (sl_add_0 _ L), (s_add_0_r so L).
Qed.

Lemma conj_loop_nf e : nonzero so e -> forall mc out r, stored out ->
  conj_loop go so e mc out = Ok r ->
  stored r /\ (forall m, In m (map fst e) -> conjugates m) /\
  forall k, cf r k = (cf out k + lsum (fun p => s_conj so (snd p) * cnf (fst p) k) e)%l.
Proof.
  induction e as [|[m x] e IH]; cbn [conj_loop lsum]; intros he mc out r ho E.
  - inversion E; subst. split; auto. split; [intros m []|]. intros k. now rewrite (s_add_0_r so L).
  - destruct (nonzero_inv _ _ _ he) as [hx he'].
    rewrite (proj2 (s_is_zero_false so L _) (conj_nz x hx)) in E.
    destruct (conj_mono go so (rev m) (e_const so (s_conj so x))) as [ct| |] eqn:Ec; try discriminate.
    cbn [rbind] in E. destruct (conj_mono_cnf m _ ct (conj_nz x hx) Ec) as [hct [hm K]].
    destruct (IH he' ct _ r (stored_add out ct ho hct) E) as [hr [hk Kr]]. split; auto. split.
    + cbn [map fst]. intros n [<-|i]; auto.
    + intros k. rewrite Kr. rewrite (coef_add_assign go Hgo so L) by (apply ho || apply hct).
      rewrite K. cbn [fst snd]. now rewrite (sl_add_assoc _ L).
Qed.
Lemma conj_loop_succ e : nonzero so e -> (forall m, In m (map fst e) -> conjugates m) ->
  forall mc out, exists r, conj_loop go so e mc out = Ok r.
Proof.
  induction e as [|[m x] e IH]; cbn [conj_loop]; intros he hk mc out; [eauto|].
  destruct (nonzero_inv _ _ _ he) as [hx he'].
  rewrite (proj2 (s_is_zero_false so L _) (conj_nz x hx)).
  destruct (conj_mono_succ m _ (conj_nz x hx) (hk m (or_introl eq_refl))) as [ct Ec].
  rewrite Ec. cbn [rbind]. apply IH; auto. intros n i. apply hk; right; exact i.
Qed.
Lemma e_conj_nf e r : nonzero so e -> e_conj go so e = Ok r ->
  stored r /\ (forall m, In m (map fst e) -> conjugates m) /\
  forall k, cf r k = lsum (fun p => s_conj so (snd p) * cnf (fst p) k)%l e.
Proof.
  intros he E. destruct (conj_loop_nf e he [] [] r stored_nil E) as [h1 [h2 h3]].
  split; auto. split; auto. intros k. now rewrite h3, coef_nil, (sl_add_0 _ L).
Qed.
Lemma e_conj_add a b p q : stored a -> stored b -> e_conj go so a = Ok p -> e_conj go so b = Ok q ->
  e_conj go so (e_add go so a b) = Ok (e_add go so p q).
Proof.
  intros ha hb Ep Eq.
  destruct (e_conj_nf a p (proj2 ha) Ep) as [sp [kp Kp]].
  destruct (e_conj_nf b q (proj2 hb) Eq) as [sq [kq Kq]].
  pose proof (stored_add a b ha hb) as hab.
  destruct (conj_loop_succ (e_add go so a b) (proj2 hab)) with (mc := @nil (mono * S)) (out := @nil (mono * S)) as [r Er].
  { intros m i. apply add_keys in i. destruct i; auto. }
  change (e_conj go so (e_add go so a b) = Ok r) in Er. rewrite Er. f_equal.
  destruct (e_conj_nf _ r (proj2 hab) Er) as [sr [_ Kr]].
  apply stored_ext; auto using stored_add. intros k.
  unfold e_add at 1. rewrite (coef_add_assign go Hgo so L) by (apply sp || apply sq).
  rewrite Kr, Kp, Kq.
  apply (lsum_e_add (fun p => s_conj so (snd p) * cnf (fst p) k)%l).
  intros m x y. cbn [fst snd]. now rewrite (cl_add _ CL), (sl_dist_r _ L).
Qed.
(** conj(a s) = conj(s) conj(a) *)
Lemma e_conj_post s a p : stored a -> e_conj go so a = Ok p ->
  e_conj go so (e_mul_const_post so a s) = Ok (e_mul_const_pre so (s_conj so s) p).
Proof.
  intros ha Ep.
  destruct (e_conj_nf a p (proj2 ha) Ep) as [sp [kp Kp]].
  pose proof (stored_post s a ha) as hs.
  destruct (conj_loop_succ (e_mul_const_post so a s) (proj2 hs)) with (mc := @nil (mono * S)) (out := @nil (mono * S)) as [r Er].
  { intros m i. apply post_keys in i. auto. }
  change (e_conj go so (e_mul_const_post so a s) = Ok r) in Er. rewrite Er. f_equal.
  destruct (e_conj_nf _ r (proj2 hs) Er) as [sr [_ Kr]].
  apply stored_ext; auto using stored_pre. intros k. rewrite cf_pre, Kr, Kp.
  rewrite (lsum_post (fun p => s_conj so (snd p) * cnf (fst p) k)%l s a).
  - rewrite <- lsum_mul_l. apply lsum_ext. intros u _. cbn [fst snd].
    now rewrite (cl_mul _ CL), (sl_mul_assoc _ L).
  - intros m x y. cbn [fst snd]. now rewrite (cl_add _ CL), (sl_dist_r _ L).
Qed.

End Lin.
