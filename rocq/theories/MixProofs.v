(** C66: expressions mixing generators of two algebras. *)
From Coq Require Import ZArith Bool Lia List Sorted Wf_nat Ring.
From Verif Require Import ExprModel ExprSpec ExprOrder ExprMap ExprEval ExprLin ExprCanon LinSpec AssocSpec AssocProofs LieProofs UserModel ConjUser PropConjUser MixSpec.
Import ListNotations.
Open Scope nat_scope.
Open Scope list_scope.

(** ** Embedding of one algebra into another *)
Record embedding {A B} (oA : gen_ops A) (oB : gen_ops B) (h : A -> B) : Prop := {
  em_inj : forall x y, h x = h y -> x = y;
  em_lt : forall x y, g_lt oB (h x) (h y) = g_lt oA x y;
  em_gt : forall x y, g_gt oB (h x) (h y) = g_gt oA x y;
  em_swap : forall x y, g_swap oB (h x) (h y) = (fst (g_swap oA x y), lf_map h (snd (g_swap oA x y)));
  em_simplify : forall x y, g_simplify oB (h x) (h y) = option_map (lf_map h) (g_simplify oA x y);
  em_conj : forall x, g_conj oB (h x) = lf_map h (g_conj oA x)
}.
Section Embed.
Context {A B S : Type} (oA : gen_ops A) (oB : gen_ops B) (h : A -> B) (so : scalar_ops S).
Context (D : scalar_domain so) (comm : forall x y, s_mul so x y = s_mul so y x).
Context (RA : regular_algebra oA so) (RB : regular_algebra oB so) (EM : embedding oA oB h).
Let L := sd_laws _ D.
Add Ring Sring_em : (Sring so D comm).
Notation ev := (ev so).
Notation tv := (tv so).
Definition fmap (l : list (S * list A)) : list (S * list B) := map (fun p => (fst p, map h (snd p))) l.
Lemma ev_fmap phi l : ev phi (fmap l) = ev (fun u => phi (map h u)) l.
Proof. induction l as [|[c u] l IH]; cbn [fmap map AssocProofs.ev fst snd]; auto. f_equal. exact IH. Qed.
Lemma fs_lift (e : list (list A * S)) : fs (lift_expr h e) = fmap (fs e).
Proof. unfold fs, lift_expr, fmap. now rewrite !map_map. Qed.
Lemma tv_lift phi e : tv phi (lift_expr h e) = tv (fun u => phi (map h u)) e.
Proof. unfold AssocProofs.tv. now rewrite fs_lift, ev_fmap. Qed.
Lemma scale_fmap c l : scale so c (fmap l) = fmap (scale so c l).
Proof. unfold scale, fmap. now rewrite !map_map. Qed.
Lemma fmap_app a b : fmap (a ++ b) = fmap a ++ fmap b.
Proof. apply map_app. Qed.
Lemma bindf_fmap l (FB : list B -> list (S * list B)) (FA : list A -> list (S * list A)) :
  (forall c u, In (c, u) l -> FB (map h u) = fmap (FA u)) -> bindf so (fmap l) FB = fmap (bindf so l FA).
Proof.
  intros H. unfold bindf. induction l as [|[c u] l IH]; auto. cbn [fmap map flat_map fst snd].
  rewrite (H c u) by (left; auto). rewrite scale_fmap. rewrite fmap_app. f_equal.
  apply IH. intros; eapply H; right; eauto.
Qed.
Lemma lf_sum_map f : lf_sum so (lf_map h f) = fmap (lf_sum so f).
Proof.
  unfold lf_sum, fmap, lf_map. cbn [const_term terms]. rewrite map_app, !map_map. f_equal.
  destruct (vn_is_zero (const_term f)); reflexivity.
Qed.
Lemma F_map x y : F oB so (h x) (h y) = option_map fmap (F oA so x y).
Proof.
  unfold F. rewrite (em_gt _ _ _ EM), (em_swap _ _ _ EM), (em_simplify _ _ _ EM).
  destruct (g_gt oA x y).
  - destruct (g_swap oA x y) as [c f]. cbn [fst snd option_map]. f_equal. rewrite lf_sum_map. unfold fmap. rewrite map_app. f_equal.
    destruct (vn_eqb c (VInt 0)); reflexivity.
  - destruct (g_simplify oA x y) as [f|]; cbn [option_map]; auto. now rewrite lf_sum_map.
Qed.
Definition rmap (o : option (list A * list (S * list A) * list A)) :=
  option_map (fun q => (map h (fst (fst q)), fmap (snd (fst q)), map h (snd q))) o.
Lemma first_red_map w : first_red oB so (map h w) = rmap (first_red oA so w).
Proof.
  induction w as [|x [|y w] IH]; auto. cbn [map]. rewrite !first_red_cons, F_map.
  destruct (F oA so x y) as [ts|]; cbn [option_map]; auto.
  change (h y :: map h w) with (map h (y :: w)). rewrite IH.
  destruct (first_red oA so (y :: w)) as [[[p ts] s]|]; reflexivity.
Qed.
Lemma NL_map w : NL oB so (map h w) = fmap (NL oA so w).
Proof.
  induction w as [w IH] using (induction_ltof1 _ (M oA)). unfold ltof in IH.
  pose proof (first_red_map w) as K. destruct (first_red oA so w) as [[[p ts] s]|] eqn:E; cbn [rmap option_map fst snd] in K.
  - rewrite (NL_red oB so RB _ _ _ _ K), (NL_red oA so RA _ _ _ _ E). apply bindf_fmap. intros c u i.
    rewrite <- !map_app. apply IH. destruct (first_red_some _ _ _ _ _ _ E) as [x [y [-> e2]]].
    exact (M_step oA so RA p x y s ts c u e2 i).
  - rewrite (NL_irr oB so _ K), (NL_irr oA so _ E). reflexivity.
Qed.
Lemma V_map k w : V oB so RB k (map h w) = ev (fun u => del oB so RB k (map h u)) (NL oA so w).
Proof. unfold V. now rewrite NL_map, ev_fmap. Qed.
Lemma map_inj (u v : list A) : map h u = map h v -> u = v.
Proof.
  revert v. induction u as [|x u IH]; intros [|y v] e; try discriminate; auto. cbn [map] in e. injection e as e1 e2.
  f_equal; [now apply (em_inj _ _ _ EM)|auto].
Qed.
Lemma del_map k u : del oB so RB (map h k) (map h u) = del oA so RA k u.
Proof.
  unfold del. destruct (wdec oB so RB (map h u) (map h k)) as [e|n], (wdec oA so RA u k) as [e'|n']; auto.
  - exfalso. apply n', map_inj, e.
  - exfalso. apply n. now rewrite e'.
Qed.
Lemma V_map_map k w : V oB so RB (map h k) (map h w) = V oA so RA k w.
Proof. rewrite V_map. unfold V. apply ev_ext. intros. apply del_map. Qed.
Lemma Res_map x y z : Res oA so RA x y z -> Res oB so RB (h x) (h y) (h z).
Proof.
  intros H k. change [h x; h y] with (map h [x; y]). change [h y; h z] with (map h [y; z]). rewrite !NL_map, !ev_fmap.
  transitivity (ev (fun u => del oB so RB k (map h u)) (bindf so (NL oA so [x; y]) (fun u => NL oA so (u ++ [z])))).
  { rewrite (ev_bind so D). apply ev_ext. intros c u _. change [h z] with (map h [z]). rewrite <- map_app. apply V_map. }
  transitivity (ev (fun u => del oB so RB k (map h u)) (bindf so (NL oA so [y; z]) (fun u => NL oA so (x :: u)))).
  2:{ rewrite (ev_bind so D). apply ev_ext. intros c u _. change (h x :: map h u) with (map h (x :: u)). symmetry. apply V_map. }
  apply (ev_coefs oA so D RA). intros k'. rewrite !(ev_bind so D). apply H.
Qed.
Lemma Inv_map phi : Inv oB so phi -> Inv oA so (fun u => phi (map h u)).
Proof.
  intros H p w s. rewrite !map_app, H, NL_map, ev_fmap. apply ev_ext. intros. now rewrite !map_app.
Qed.

(** the ordering of monomials *)
Lemma lex_map u v : lex_compare (g_lt oB) (map h u) (map h v) = lex_compare (g_lt oA) u v.
Proof.
  revert v. induction u as [|x u IH]; intros [|y v]; cbn [map lex_compare]; auto.
  rewrite !(em_lt _ _ _ EM), IH. reflexivity.
Qed.
Lemma mono_lt_map u v : mono_lt oB (map h u) (map h v) = mono_lt oA u v.
Proof. unfold mono_lt. rewrite !map_length, lex_map. reflexivity. Qed.
Lemma stored_lift e : stored oA so e -> stored oB so (lift_expr h e).
Proof.
  intros [h1 h2]. split.
  - unfold msorted in *. unfold lift_expr. rewrite map_map. cbn [fst].
    replace (map (fun x : list A * S => map h (fst x)) e) with (map (map h) (map fst e)) by apply map_map.
    clear h2. induction (map fst e) as [|m l IH]; cbn [map]; constructor; inversion h1 as [|? ? h3 h4]; subst; auto.
    apply Forall_forall. intros x i. apply in_map_iff in i. destruct i as [n [<- i]]. rewrite Forall_forall in h4. specialize (h4 n i). unfold klt in *. now rewrite mono_lt_map.
  - intros m c i. unfold lift_expr in i. apply in_map_iff in i. destruct i as [[m' c'] [e1 i]]. cbn [fst snd] in e1. inversion e1; subst. eauto.
Qed.

Context (CA : forall w, Conf oA so RA w) (CB : forall w, Conf oB so RB w).
Lemma fs_coef k e : stored oA so e -> ev (del oA so RA k) (fs e) = coef oA so e k.
Proof. intros H. exact (tv_del oA so D RA k e (proj1 H)). Qed.
Lemma fsB_coef k e : stored oB so e -> ev (del oB so RB k) (fs e) = coef oB so e k.
Proof. intros H. exact (tv_del oB so D RB k e (proj1 H)). Qed.
(** products *)
Lemma mul_lift a b e : stored oA so a -> stored oA so b -> e_mul oA so a b = Ok e ->
  e_mul oB so (lift_expr h a) (lift_expr h b) = Ok (lift_expr h e).
Proof.
  intros ha hb E. pose proof (stored_lift _ ha) as la. pose proof (stored_lift _ hb) as lb.
  destruct (e_mul_ok oB so RB (lift_expr h a) (lift_expr h b)) as [r Er]. rewrite Er. f_equal.
  pose proof (proj1 (mul_coef oA so D RA a b e [] (proj2 ha) (proj2 hb) E)) as Se.
  apply (stored_ext oB (ra_order _ _ RB) so D).
  - exact (proj1 (mul_coef oB so D RB _ _ r [] (proj2 la) (proj2 lb) Er)).
  - now apply stored_lift.
  - intros k. rewrite (mul_V oB so D RB CB _ _ r k (proj2 la) (proj2 lb) Er), tv_lift.
    rewrite <- (fsB_coef k) by now apply stored_lift. change (ev (del oB so RB k) (fs (lift_expr h e))) with (tv (del oB so RB k) (lift_expr h e)).
    rewrite tv_lift. rewrite (mul_value oA so D RA a b e _ (proj2 ha) (proj2 hb) E) by (intros; apply HB; auto).
    rewrite (ev_wprod so D). apply ev_ext. intros c m _. rewrite tv_lift. apply ev_ext. intros d n _. rewrite <- map_app. apply V_map.
Qed.
(** conjugation *)
Lemma linfun_tv {G} (go : gen_ops G) (RG : regular_algebra go so) f e phi : e_linfun go so f = Ok e -> tv phi e = ev phi (lf_sum so f).
Proof.
  assert (AD : forall d e0, tv phi (e_add_assign go so e0 d) = s_add so (tv phi d) (tv phi e0)).
  { induction d as [|[m c] d IH]; intros e0.
    - unfold e_add_assign. cbn [fold_left]. unfold AssocProofs.tv. cbn [fs map AssocProofs.ev]. ring.
    - change (e_add_assign go so e0 ((m, c) :: d)) with (e_add_assign go so (add_entry go so (m, c) e0) d).
      rewrite IH, (tv_ins go so D RG). unfold AssocProofs.tv at 3. cbn [fs map AssocProofs.ev fst snd].
      change (ev phi (map (fun p : list G * S => (snd p, fst p)) d)) with (tv phi d). ring. }
  assert (K : forall ts e0 e', linfun_terms go so ts e0 = Ok e' ->
    tv phi e' = s_add so (tv phi e0) (ev phi (map (fun p => (mkc so (snd p), [fst p])) ts))).
  { induction ts as [|[g v] ts IH]; intros e0 e' E; cbn [linfun_terms] in E.
    - injection E as <-. cbn. ring.
    - cbn [map AssocProofs.ev fst snd]. unfold mkc at 1. destruct (s_make so v) as [x|]; [|discriminate]. destruct (s_is_zero so x) eqn:Z.
      + apply (sl_is_zero _ L) in Z. rewrite (IH _ _ E). subst x. ring.
      + unfold e_mono in E. rewrite Z in E.
        assert (R : normalize go so [g] x [] = Ok [([g], x)]) by reflexivity.
        rewrite R in E. cbn [rbind] in E. rewrite (IH _ _ E), AD. unfold AssocProofs.tv at 1. cbn [fs map AssocProofs.ev fst snd]. ring. }
  intros E. unfold e_linfun in E. unfold lf_sum. rewrite (ev_app so D). destruct (vn_is_zero (const_term f)); cbn [rbind] in E.
  - rewrite (K _ _ _ E). reflexivity.
  - unfold mkc at 1. destruct (s_make so (const_term f)); [|discriminate]. cbn [rbind] in E. rewrite (K _ _ _ E). reflexivity.
Qed.
Lemma Eg_map phi x : tv phi (Eg oB so (h x)) = tv (fun u => phi (map h u)) (Eg oA so x).
Proof.
  rewrite (linfun_tv oB RB _ _ phi (Eg_ok oB so RB (h x))), (linfun_tv oA RA _ _ _ (Eg_ok oA so RA x)).
  now rewrite (em_conj _ _ _ EM), lf_sum_map, ev_fmap.
Qed.
Lemma P_map phi w : ev phi (P oB so (map h w)) = ev (fun u => phi (map h u)) (P oA so w).
Proof.
  revert phi. induction w as [|x w IH]; intros phi; cbn [map].
  - rewrite (P_nil oB so D comm), (P_nil oA so D comm). reflexivity.
  - rewrite (P_cons oB so D), (P_cons oA so D), Eg_map. apply ev_ext. intros c u _. rewrite IH. apply ev_ext. intros.
    now rewrite map_app.
Qed.
Context (CL : conj_laws so).
Lemma conj_val a e phi : stored oA so a -> e_conj oA so a = Ok e ->
  tv phi e = ev (fun m => ev (fun u => ev phi (NL oA so u)) (P oA so (rev m))) (cl so (fs a)).
Proof.
  intros ha E.
  transitivity (ev phi (bindf so (cl so (fs a)) (fun m => bindf so (P oA so (rev m)) (NL oA so)))).
  2:{ rewrite (ev_bind so D). apply ev_ext. intros c m _. apply (ev_bind so D). }
  apply (ev_coefs oA so D RA). intros k. rewrite (fs_coef k e) by exact (proj1 (conj_V oA so D comm CL RA CA a e [] (proj2 ha) E)).
  rewrite (proj2 (conj_V oA so D comm CL RA CA a e k (proj2 ha) E)), (ev_bind so D). apply ev_ext. intros c m _.
  now rewrite (ev_bind so D).
Qed.
Lemma conj_lift a e : stored oA so a -> e_conj oA so a = Ok e -> e_conj oB so (lift_expr h a) = Ok (lift_expr h e).
Proof.
  intros ha E. pose proof (stored_lift _ ha) as la. destruct (conj_ok oB so D CL RB _ (proj2 la)) as [r Er]. rewrite Er. f_equal.
  pose proof (proj1 (conj_V oA so D comm CL RA CA a e [] (proj2 ha) E)) as Se.
  apply (stored_ext oB (ra_order _ _ RB) so D).
  - exact (proj1 (conj_V oB so D comm CL RB CB _ r [] (proj2 la) Er)).
  - now apply stored_lift.
  - intros k. rewrite (proj2 (conj_V oB so D comm CL RB CB _ r k (proj2 la) Er)).
    rewrite <- (fsB_coef k) by now apply stored_lift. change (ev (del oB so RB k) (fs (lift_expr h e))) with (tv (del oB so RB k) (lift_expr h e)).
    rewrite tv_lift.
    rewrite (conj_val a e _ ha E). rewrite !(ev_cl so D comm CL), fs_lift, ev_fmap. f_equal. apply ev_ext. intros c u _. f_equal.
    rewrite <- map_rev, P_map. apply ev_ext. intros c' u' _. apply V_map.
Qed.
Lemma Rev2_map x y : Rev2 oA so x y -> Rev2 oB so (h x) (h y).
Proof.
  intros H phi ts hi hF. rewrite F_map in hF. destruct (F oA so x y) as [t|] eqn:E; [|discriminate]. cbn [option_map] in hF. injection hF as <-.
  change [h y; h x] with (map h [y; x]). rewrite P_map, (H _ t (Inv_map _ hi) E). rewrite !(ev_cl so D comm CL), ev_fmap. f_equal. apply ev_ext.
  intros c u _. f_equal. rewrite <- map_rev. symmetry. apply P_map.
Qed.
Lemma Invol1_map x : Invol1 oA so x -> Invol1 oB so (h x).
Proof.
  intros H phi hi. pose proof (H _ (Inv_map _ hi)) as K. cbn [map] in K. rewrite <- K. rewrite !(ev_cl so D comm CL). f_equal.
  change [h x] with (map h [x]). rewrite P_map. apply ev_ext. intros c u _. f_equal. rewrite <- map_rev. apply P_map.
Qed.
End Embed.

(** ** The mixture of two algebras *)
Section Mix.
Context {G1 G2 S : Type} (id1 : G1 -> Z) (id2 : G2 -> Z) (o1 : gen_ops G1) (o2 : gen_ops G2) (so : scalar_ops S).
Context (D : scalar_domain so) (comm : forall x y, s_mul so x y = s_mul so y x).
Context (R1 : regular_algebra o1 so) (R2 : regular_algebra o2 so) (Hid : forall a b, (id1 a < id2 b)%Z).
Let L := sd_laws _ D.
Add Ring Sring_mx : (Sring so D comm).
Notation go := (mix_ops id1 id2 o1 o2).
Notation ev := (ev so).
Notation tv := (tv so).
Notation e1 := (map (@inl G1 G2)).
Notation e2 := (map (@inr G1 G2)).

Lemma id_lr a b : (id1 a <? id2 b)%Z = true.
Proof. apply Z.ltb_lt, Hid. Qed.
Lemma id_rl a b : (id2 b <? id1 a)%Z = false.
Proof. apply Z.ltb_ge. pose proof (Hid a b). lia. Qed.

Lemma mix_order : gen_order go.
Proof.
  pose proof (ra_order _ _ R1) as H1. pose proof (ra_order _ _ R2) as H2. unfold gen_order in *. constructor; cbn.
  - intros [a|a] [b|b]; cbn [mix_eq]; try (split; discriminate).
    + rewrite (sto_eq _ _ _ H1). split; [now intros ->|intros e; now inversion e].
    + rewrite (sto_eq _ _ _ H2). split; [now intros ->|intros e; now inversion e].
  - intros [a|a]; cbn [mix_lt]; [apply (sto_irrefl _ _ _ H1)|apply (sto_irrefl _ _ _ H2)].
  - intros [a|a] [b|b] [c|c]; cbn [mix_lt mix_id]; rewrite ?id_lr, ?id_rl; try congruence; auto.
    + apply (sto_trans _ _ _ H1).
    + apply (sto_trans _ _ _ H2).
  - intros [a|a] [b|b]; cbn [mix_lt mix_id]; rewrite ?id_lr, ?id_rl; auto.
    + destruct (sto_total _ _ _ H1 a b) as [ -> |[K|K]]; auto.
    + destruct (sto_total _ _ _ H2 a b) as [ -> |[K|K]]; auto.
  - intros [a|a] [b|b]; cbn [mix_lt mix_gt mix_id]; auto; [apply (sto_gt _ _ _ H1)|apply (sto_gt _ _ _ H2)].
Qed.
Lemma terms_map {A B} (h : A -> B) f g v : In (g, v) (terms (lf_map h f)) -> exists a, g = h a /\ In (a, v) (terms f).
Proof.
  cbn [lf_map terms]. intros i. apply in_map_iff in i. destruct i as [[a w] [e i]]. cbn [fst snd] in e. inversion e; subst. eauto.
Qed.
Lemma repr_map {A B} (h : A -> B) f : representable so f -> representable so (lf_map h f).
Proof.
  intros [k1 k2]. split; [exact k1|]. intros g v i. destruct (terms_map _ _ _ _ i) as [a [_ j]]. eauto.
Qed.
Lemma repr_0 {A} : representable so (mk_linfun (VInt 0) (@nil (A * var_number))).
Proof. split; [cbn; rewrite (sl_make_int _ L); discriminate|intros g v []]. Qed.
Lemma mix_regular : regular_algebra go so.
Proof.
  constructor.
  - apply mix_order.
  - destruct (ra_constants _ _ R1) as [s1 t1]. destruct (ra_constants _ _ R2) as [s2 t2]. constructor.
    + intros [a|a] [b|b] c f hg E; cbn [g_swap g_gt mix_ops mix_swap mix_gt] in *.
      * destruct (g_swap o1 a b) as [c' f'] eqn:Es. inversion E; subst. destruct (s1 _ _ _ _ hg Es) as [p q]. split; auto.
        intros g v i. destruct (terms_map _ _ _ _ i) as [x [_ j]]. eauto.
      * inversion E; subst. split; [intros g v []|auto].
      * inversion E; subst. split; [intros g v []|auto].
      * destruct (g_swap o2 a b) as [c' f'] eqn:Es. inversion E; subst. destruct (s2 _ _ _ _ hg Es) as [p q]. split; auto.
        intros g v i. destruct (terms_map _ _ _ _ i) as [x [_ j]]. eauto.
    + intros [a|a] [b|b] f hg E g v i; cbn [g_simplify g_gt mix_ops mix_simplify mix_gt] in *; try discriminate.
      * destruct (g_simplify o1 a b) as [f'|] eqn:Es; [|discriminate]. inversion E; subst. destruct (terms_map _ _ _ _ i) as [x [_ j]]. eauto.
      * destruct (g_simplify o2 a b) as [f'|] eqn:Es; [|discriminate]. inversion E; subst. destruct (terms_map _ _ _ _ i) as [x [_ j]]. eauto.
  - intros [a|a] [b|b] c f hl hs E; cbn [g_simplify g_lt g_swap mix_ops mix_simplify mix_lt mix_swap] in *; try congruence.
    + destruct (g_swap o1 b a) as [c' f'] eqn:Es. inversion E; subst. apply (ra_detect _ _ R1 a b c f'); auto.
      destruct (g_simplify o1 a b); [discriminate|now cbn in hs].
    + destruct (g_swap o2 b a) as [c' f'] eqn:Es. inversion E; subst. apply (ra_detect _ _ R2 a b c f'); auto.
      destruct (g_simplify o2 a b); [discriminate|now cbn in hs].
  - intros [a|a] n; cbn [g_reduce mix_ops mix_reduce]; [rewrite (ra_reduce _ _ R1)|rewrite (ra_reduce _ _ R2)]; reflexivity.
  - intros [a|a] [b|b] c f E; cbn [g_swap mix_ops mix_swap] in E.
    + destruct (g_swap o1 a b) as [c' f'] eqn:Es. inversion E; subst. destruct (ra_repr_swap _ _ R1 _ _ _ _ Es). split; auto using repr_map.
    + inversion E; subst. split; [rewrite (sl_make_int _ L); discriminate|apply repr_0].
    + inversion E; subst. split; [rewrite (sl_make_int _ L); discriminate|apply repr_0].
    + destruct (g_swap o2 a b) as [c' f'] eqn:Es. inversion E; subst. destruct (ra_repr_swap _ _ R2 _ _ _ _ Es). split; auto using repr_map.
  - intros [a|a] [b|b] f E; cbn [g_simplify mix_ops mix_simplify] in E; try discriminate.
    + destruct (g_simplify o1 a b) as [f'|] eqn:Es; [|discriminate]. inversion E; subst. apply repr_map. eapply (ra_repr_simplify _ _ R1); eauto.
    + destruct (g_simplify o2 a b) as [f'|] eqn:Es; [|discriminate]. inversion E; subst. apply repr_map. eapply (ra_repr_simplify _ _ R2); eauto.
  - intros [a|a]; cbn [g_conj mix_ops mix_conj]; apply repr_map; [apply (ra_repr_conj _ _ R1)|apply (ra_repr_conj _ _ R2)].
Qed.
Notation RM := mix_regular.
Lemma emb1 : embedding o1 go inl.
Proof.
  constructor; cbn; auto.
  - intros x y e. now inversion e.
  - intros x y. now destruct (g_swap o1 x y).
Qed.
Lemma emb2 : embedding o2 go inr.
Proof.
  constructor; cbn; auto.
  - intros x y e. now inversion e.
  - intros x y. now destruct (g_swap o2 x y).
Qed.
Notation V := (V go so RM).
Lemma F_lr a b : F go so (inl a) (inr b) = None.
Proof. unfold F. cbn. now rewrite id_rl. Qed.
Lemma mkc1 : mkc so (VInt 1) = s_one so.
Proof. unfold mkc. rewrite (sl_make_int _ L). apply (zmul_1 so L). Qed.
Lemma F_rl a b : F go so (inr b) (inl a) = Some [(s_one so, [inl a; inr b])].
Proof. unfold F. cbn. rewrite id_lr. cbn. now rewrite mkc1. Qed.

(** *** Leftmost reductions of mixed words *)
Lemma red_at p x y s ts : first_red go so (p ++ [x]) = None -> F go so x y = Some ts ->
  first_red go so (p ++ x :: y :: s) = Some (p, ts, s).
Proof.
  intros h hF. induction p as [|a p IH]; cbn [app].
  - now rewrite first_red_cons, hF.
  - cbn [app] in h. destruct (p ++ [x]) as [|b t] eqn:E1; [destruct p; discriminate|].
    destruct (p ++ x :: y :: s) as [|b' t'] eqn:E2; [destruct p; discriminate|].
    assert (b' = b) by (destruct p; cbn in E1, E2; congruence). subst b'.
    rewrite first_red_cons in h. rewrite first_red_cons. destruct (F go so a b); [discriminate|].
    destruct (first_red go so (b :: t)) as [[[? ?] ?]|]; [discriminate|]. now rewrite (IH eq_refl).
Qed.
Lemma irr_e1_r p b : first_red o1 so p = None -> first_red go so (e1 p ++ [inr b]) = None.
Proof.
  intros h. induction p as [|x [|y p] IH]; cbn [map app].
  - reflexivity.
  - now rewrite first_red_cons, F_lr.
  - rewrite first_red_cons in h. destruct (F o1 so x y) as [ts|] eqn:E; [discriminate|].
    rewrite first_red_cons, (F_map o1 go inl so emb1), E. cbn [option_map].
    cbn [map app] in IH. rewrite IH; auto. destruct (first_red o1 so (y :: p)) as [[[? ?] ?]|]; [discriminate|auto].
Qed.
Lemma irr_prefix {G} (o : gen_ops G) p s : first_red o so (p ++ s) = None -> first_red o so p = None.
Proof.
  induction p as [|x [|y p] IH]; intros h; auto. cbn [app] in h, IH. rewrite first_red_cons in *. destruct (F o so x y); [discriminate|].
  rewrite IH; auto. destruct (first_red o so (y :: p ++ s)) as [[[? ?] ?]|]; [discriminate|auto].
Qed.
Lemma V_step k p x y s ts : first_red go so (p ++ [x]) = None -> F go so x y = Some ts ->
  V k (p ++ x :: y :: s) = ev (fun u => V k (p ++ u ++ s)) ts.
Proof. intros h hF. apply (V_red go so D RM). now apply red_at. Qed.
(** an irreducible word of the first algebra and one generator of the second *)
Lemma pass_right k b u : forall p, first_red o1 so (p ++ u) = None ->
  V k (e1 p ++ inr b :: e1 u) = V k (e1 (p ++ u) ++ [inr b]).
Proof.
  induction u as [|a u IH]; intros p h.
  - now rewrite app_nil_r.
  - cbn [map]. rewrite (V_step k (e1 p) (inr b) (inl a) (e1 u) _ (irr_e1_r _ _ (irr_prefix o1 _ _ h)) (F_rl a b)).
    cbn [AssocProofs.ev app]. replace (p ++ a :: u) with ((p ++ [a]) ++ u) in * by (rewrite <- app_assoc; reflexivity).
    rewrite <- (IH (p ++ [a]) h), map_app, <- app_assoc. cbn [map app]. ring.
Qed.
Lemma pass_left k a p : forall u, first_red o2 so (p ++ u) = None ->
  V k (e2 p ++ inl a :: e2 u) = V k (inl a :: e2 (p ++ u)).
Proof.
  induction p as [|b p IH] using rev_ind; intros u h; auto.
  replace ((p ++ [b]) ++ u) with (p ++ b :: u) in * by (rewrite <- app_assoc; reflexivity).
  rewrite map_app, <- app_assoc. cbn [map app].
  assert (I : first_red go so (e2 p ++ [inr b]) = None).
  { change [inr b] with (e2 [b]). rewrite <- map_app, (first_red_map o2 go inr so emb2), (irr_prefix o2 (p ++ [b]) u); auto.
    now rewrite <- app_assoc. }
  rewrite (V_step k (e2 p) (inr b) (inl a) (e2 u) _ I (F_rl a b)). cbn [AssocProofs.ev app].
  pose proof (IH (b :: u) h) as K. cbn [map] in K. rewrite K. ring.
Qed.
(** the words of one algebra are normalized on the spot *)
Lemma first_red_app {G} (o : gen_ops G) w t p ts s : first_red o so w = Some (p, ts, s) -> first_red o so (w ++ t) = Some (p, ts, s ++ t).
Proof.
  revert p. induction w as [|x [|y w] IH]; intros p h; try discriminate. cbn [app] in *. rewrite first_red_cons in *.
  destruct (F o so x y).
  - inversion h; subst. reflexivity.
  - destruct (first_red o so (y :: w)) as [[[p' ts'] s']|]; [|discriminate]. inversion h; subst. now rewrite (IH p' eq_refl).
Qed.
Lemma norm_left k b u : V k (e1 u ++ [inr b]) = ev (fun v => V k (e1 v ++ [inr b])) (NL o1 so u).
Proof.
  induction u as [u IH] using (induction_ltof1 _ (M o1)). unfold ltof in IH.
  destruct (first_red o1 so u) as [[[p ts] s]|] eqn:E.
  - pose proof (first_red_map o1 go inl so emb1 u) as K. rewrite E in K. cbn [rmap option_map fst snd] in K.
    apply (first_red_app go _ [inr b]) in K. rewrite (V_red go so D RM k _ _ _ _ K), (NL_red o1 so R1 _ _ _ _ E), (ev_bind so D).
    rewrite (ev_fmap inl so). apply ev_ext. intros c v i. rewrite <- IH.
    + rewrite !map_app, <- !app_assoc. reflexivity.
    + destruct (first_red_some _ _ _ _ _ _ E) as [x [y [-> h2]]]. exact (M_step o1 so R1 p x y s ts c v h2 i).
  - rewrite (NL_irr o1 so _ E). cbn [AssocProofs.ev]. ring.
Qed.
Lemma norm_right k a u : V k (inl a :: e2 u) = ev (fun v => V k (inl a :: e2 v)) (NL o2 so u).
Proof.
  induction u as [u IH] using (induction_ltof1 _ (M o2)). unfold ltof in IH.
  destruct (first_red o2 so u) as [[[p ts] s]|] eqn:E.
  - pose proof (first_red_map o2 go inr so emb2 u) as K. rewrite E in K. cbn [rmap option_map fst snd] in K.
    assert (K' : first_red go so (inl a :: e2 u) = Some (inl a :: e2 p, fmap inr ts, e2 s)).
    { destruct u as [|b u]; [discriminate|]. cbn [map] in *. rewrite first_red_cons, F_lr, K. reflexivity. }
    rewrite (V_red go so D RM k _ _ _ _ K'), (NL_red o2 so R2 _ _ _ _ E), (ev_bind so D).
    rewrite (ev_fmap inr so). apply ev_ext. intros c v i. rewrite <- IH.
    + rewrite !map_app. reflexivity.
    + destruct (first_red_some _ _ _ _ _ _ E) as [x [y [-> h2]]]. exact (M_step o2 so R2 p x y s ts c v h2 i).
  - rewrite (NL_irr o2 so _ E). cbn [AssocProofs.ev]. ring.
Qed.
Lemma NL_irreducible {G} (o : gen_ops G) (R : regular_algebra o so) w : forall c u, In (c, u) (NL o so w) -> first_red o so u = None.
Proof.
  induction w as [w IH] using (induction_ltof1 _ (M o)). unfold ltof in IH. intros c u i.
  destruct (first_red o so w) as [[[p ts] s]|] eqn:E.
  - rewrite (NL_red o so R _ _ _ _ E) in i. unfold bindf in i. apply in_flat_map in i. destruct i as [[c1 u1] [i1 i2]].
    cbn [fst snd] in i2. unfold scale in i2. apply in_map_iff in i2. destruct i2 as [[c2 u2] [e i2]]. inversion e; subst.
    cbn [snd]. destruct (first_red_some _ _ _ _ _ _ E) as [x [y [-> h2]]]. eapply IH; [|exact i2]. exact (M_step o so R p x y s ts c1 u1 h2 i1).
  - rewrite (NL_irr o so _ E) in i. destruct i as [e|[]]. inversion e; subst. auto.
Qed.
Lemma NL_rl phi a b : ev phi (NL go so [inr b; inl a]) = phi [inl a; inr b].
Proof. rewrite (NL_F go so D comm RM _ _ _ phi (F_rl a b)). cbn [AssocProofs.ev]. ring. Qed.

Context (C1 : forall w, Conf o1 so R1 w) (C2 : forall w, Conf o2 so R2 w).
Lemma conf_res {G} (o : gen_ops G) (R : regular_algebra o so) (C : forall w, Conf o so R w) x y z : Res o so R x y z.
Proof.
  intros k. pose proof (absorb o so D R (Datatypes.S (M o [x; y; z])) (fun v _ => C v)) as K.
  pose proof (K [x; y] k [] [z] ltac:(cbn [app]; lia)) as K1. pose proof (K [y; z] k [x] [] ltac:(cbn [app]; lia)) as K2.
  cbn [app] in K1, K2. rewrite <- K1, K2. apply ev_ext. intros. now rewrite app_nil_r.
Qed.
Lemma mix_res x y z : F go so x y <> None -> F go so y z <> None -> Res go so RM x y z.
Proof.
  intros h1 h2. destruct x as [x|x], y as [y|y], z as [z|z]; try (exfalso; apply h1, F_lr); try (exfalso; apply h2, F_lr).
  - apply (Res_map o1 go inl so D R1 RM emb1). now apply conf_res.
  - intros k. rewrite NL_rl. change [inl y; inl z] with (e1 [y; z]). rewrite (NL_map o1 go inl so R1 RM emb1), (ev_fmap inl so).
    cbn [app]. pose proof (V_step k [inl y] (inr x) (inl z) [] _ (irr_e1_r [y] x eq_refl) (F_rl z x)) as K. cbn [app AssocProofs.ev] in K.
    rewrite K. transitivity (V k (e1 [y; z] ++ [inr x])); [cbn [map app]; ring|]. rewrite norm_left. apply ev_ext. intros c u i.
    symmetry. apply (pass_right k x u []). cbn [app]. eapply (NL_irreducible o1 R1); eauto.
  - intros k. rewrite NL_rl. change [inr x; inr y] with (e2 [x; y]). rewrite (NL_map o2 go inr so R2 RM emb2), (ev_fmap inr so).
    pose proof (V_step k [] (inr x) (inl z) [inr y] _ eq_refl (F_rl z x)) as K. cbn [app AssocProofs.ev] in K.
    rewrite K. transitivity (V k (inl z :: e2 [x; y])); [|cbn [map app]; ring]. rewrite norm_right. apply ev_ext. intros c u i.
    rewrite <- (app_nil_r u) at 2. apply (pass_left k z u []). rewrite app_nil_r. eapply (NL_irreducible o2 R2); eauto.
  - apply (Res_map o2 go inr so D R2 RM emb2). now apply conf_res.
Qed.
Lemma mix_conf w : Conf go so RM w.
Proof. apply (confluence go so D comm RM (M go w)); auto. intros x y z _. apply mix_res. Qed.

(** *** Words of different algebras commute *)
Lemma swap1 phi p a b s : Inv go so phi -> phi (p ++ inr b :: inl a :: s) = phi (p ++ inl a :: inr b :: s).
Proof. intros h. rewrite (Inv_red go so D RM phi _ _ _ p s h (F_rl a b)). cbn [AssocProofs.ev app]. ring. Qed.
Lemma move1 phi a n : forall p s, Inv go so phi -> phi (p ++ e2 n ++ inl a :: s) = phi (p ++ inl a :: e2 n ++ s).
Proof.
  induction n as [|b n IH]; intros p s h; auto. cbn [map app].
  replace (p ++ inr b :: e2 n ++ inl a :: s) with ((p ++ [inr b]) ++ e2 n ++ inl a :: s) by (rewrite <- app_assoc; reflexivity).
  rewrite IH; auto. rewrite <- app_assoc. cbn [app]. now apply swap1.
Qed.
Lemma move phi m n : forall p s, Inv go so phi -> phi (p ++ e2 n ++ e1 m ++ s) = phi (p ++ e1 m ++ e2 n ++ s).
Proof.
  induction m as [|a m IH]; intros p s h; auto. cbn [map app]. rewrite move1; auto.
  replace (p ++ inl a :: e2 n ++ e1 m ++ s) with ((p ++ [inl a]) ++ e2 n ++ e1 m ++ s) by (rewrite <- app_assoc; reflexivity).
  rewrite IH; auto. now rewrite <- app_assoc.
Qed.
Lemma move0 phi m n : Inv go so phi -> phi (e2 n ++ e1 m) = phi (e1 m ++ e2 n).
Proof. intros h. pose proof (move phi m n [] [] h) as K. cbn [app] in K. now rewrite !app_nil_r in K. Qed.

Notation E1 := (lift_expr (@inl G1 G2)).
Notation E2 := (lift_expr (@inr G1 G2)).
Lemma commute_lift a b : stored o1 so a -> stored o2 so b -> exists r, e_mul go so (E1 a) (E2 b) = Ok r /\ e_mul go so (E2 b) (E1 a) = Ok r.
Proof.
  intros ha hb. pose proof (stored_lift o1 go inl so emb1 _ ha) as la. pose proof (stored_lift o2 go inr so emb2 _ hb) as lb.
  destruct (e_mul_ok go so RM (E1 a) (E2 b)) as [r Er]. destruct (e_mul_ok go so RM (E2 b) (E1 a)) as [r' Er'].
  exists r. split; auto. rewrite Er'. f_equal. apply (stored_ext go mix_order so D).
  - exact (proj1 (mul_coef go so D RM _ _ r' [] (proj2 lb) (proj2 la) Er')).
  - exact (proj1 (mul_coef go so D RM _ _ r [] (proj2 la) (proj2 lb) Er)).
  - intros k. rewrite (mul_V go so D RM mix_conf _ _ r k (proj2 la) (proj2 lb) Er), (mul_V go so D RM mix_conf _ _ r' k (proj2 lb) (proj2 la) Er').
    unfold AssocProofs.tv. rewrite (ev_swap so D comm). rewrite !fs_lift, !ev_fmap. apply ev_ext. intros c m _. rewrite !ev_fmap. apply ev_ext.
    intros d n _. apply move0. apply (Inv_V go so D RM mix_conf).
Qed.

(** *** The product of two canonical expressions *)
Lemma irr_mixed m n : first_red o1 so m = None -> first_red o2 so n = None -> first_red go so (e1 m ++ e2 n) = None.
Proof.
  intros h1 h2. induction m as [|x [|y m] IH]; cbn [map app].
  - now rewrite (first_red_map o2 go inr so emb2), h2.
  - destruct n as [|b n]; [reflexivity|]. cbn [map app]. rewrite first_red_cons, F_lr. 
    change (inr b :: e2 n) with (e2 (b :: n)). now rewrite (first_red_map o2 go inr so emb2), h2.
  - rewrite first_red_cons in h1. destruct (F o1 so x y) as [ts|] eqn:E; [discriminate|].
    rewrite first_red_cons, (F_map o1 go inl so emb1), E. cbn [option_map].
    cbn [map app] in IH. rewrite IH; auto. destruct (first_red o1 so (y :: m)) as [[[? ?] ?]|]; [discriminate|auto].
Qed.
Lemma split_words (m m' : list G1) (n n' : list G2) : e1 m ++ e2 n = e1 m' ++ e2 n' -> m = m' /\ n = n'.
Proof.
  revert m'. induction m as [|x m IH]; intros [|y m'] e; cbn [map app] in e.
  - split; auto. revert n' e. induction n as [|x n IH]; intros [|y n'] e; cbn [map] in e; try discriminate; auto.
    inversion e; subst. f_equal. auto.
  - destruct n; discriminate.
  - destruct n'; discriminate.
  - inversion e; subst. destruct (IH m') as [ -> -> ]; auto.
Qed.
Lemma del_split (m m' : list G1) (n n' : list G2) : del go so RM (e1 m' ++ e2 n') (e1 m ++ e2 n) = s_mul so (del o1 so R1 m' m) (del o2 so R2 n' n).
Proof.
  unfold del. destruct (wdec go so RM (e1 m ++ e2 n) (e1 m' ++ e2 n')) as [e|ne].
  - apply split_words in e. destruct e as [ -> -> ]. destruct (wdec o1 so R1 m' m'); [|congruence]. destruct (wdec o2 so R2 n' n'); [|congruence]. ring.
  - destruct (wdec o1 so R1 m m') as [ -> |]; [|ring]. destruct (wdec o2 so R2 n n') as [ -> |]; [congruence|ring].
Qed.
Lemma tensor_value a b r k : stored o1 so a -> stored o2 so b ->
  (forall m c, In (m, c) a -> first_red o1 so m = None) -> (forall n d, In (n, d) b -> first_red o2 so n = None) ->
  e_mul go so (E1 a) (E2 b) = Ok r -> coef go so r k = tv (fun m => tv (fun n => del go so RM k (e1 m ++ e2 n)) b) a.
Proof.
  intros ha hb ca cb Er. pose proof (stored_lift o1 go inl so emb1 _ ha) as la. pose proof (stored_lift o2 go inr so emb2 _ hb) as lb.
  rewrite (mul_V go so D RM mix_conf _ _ r k (proj2 la) (proj2 lb) Er), tv_lift.
  assert (X : forall A (e : list (list A * S)) c m, In (c, m) (fs e) -> In (m, c) e).
  { intros A e c m i. unfold fs in i. apply in_map_iff in i. destruct i as [[m' c'] [e0 i]]. inversion e0; subst. exact i. }
  apply ev_ext. intros c m i. rewrite tv_lift. apply ev_ext. intros d n j. apply (V_irr go so D RM). apply irr_mixed; eauto.
Qed.
Lemma tensor a b r m n : stored o1 so a -> stored o2 so b ->
  (forall m c, In (m, c) a -> first_red o1 so m = None) -> (forall n d, In (n, d) b -> first_red o2 so n = None) ->
  e_mul go so (E1 a) (E2 b) = Ok r ->
  coef go so r (e1 m ++ e2 n) = s_mul so (coef o1 so a m) (coef o2 so b n).
Proof.
  intros ha hb ca cb Er. rewrite (tensor_value a b r _ ha hb ca cb Er).
  rewrite <- (fs_coef o1 so D R1 m a ha), <- (fs_coef o2 so D R2 n b hb).
  unfold AssocProofs.tv. transitivity (ev (fun u => s_mul so (ev (del o2 so R2 n) (fs b)) (del o1 so R1 m u)) (fs a)).
  - apply ev_ext. intros c u _. rewrite (comm _ (del o1 so R1 m u)), <- (ev_mul so D comm). apply ev_ext. intros. apply del_split.
  - rewrite (ev_mul so D comm). ring.
Qed.
Lemma tensor_0 a b r k : stored o1 so a -> stored o2 so b ->
  (forall m c, In (m, c) a -> first_red o1 so m = None) -> (forall n d, In (n, d) b -> first_red o2 so n = None) ->
  e_mul go so (E1 a) (E2 b) = Ok r -> (forall m n, k <> e1 m ++ e2 n) -> coef go so r k = s_zero so.
Proof.
  intros ha hb ca cb Er hk. rewrite (tensor_value a b r _ ha hb ca cb Er). unfold AssocProofs.tv.
  rewrite <- (ev_zero so D (fs a)). apply ev_ext. intros c m _. rewrite <- (ev_zero so D (fs b)). apply ev_ext. intros d n _.
  unfold del. destruct (wdec go so RM (e1 m ++ e2 n) k) as [e|]; auto. exfalso. exact (hk m n (eq_sym e)).
Qed.

(** *** Conjugation *)
Context (CL : conj_laws so).
Lemma P_split1 phi x : ev phi (P go so [inl x]) = ev (fun u => phi (e1 u)) (P o1 so [x]).
Proof. exact (P_map o1 go inl so D comm R1 RM emb1 phi [x]). Qed.
Lemma P_split2 phi x : ev phi (P go so [inr x]) = ev (fun u => phi (e2 u)) (P o2 so [x]).
Proof. exact (P_map o2 go inr so D comm R2 RM emb2 phi [x]). Qed.
Lemma mix_rev2 : (forall x y, F o1 so x y <> None -> Rev2 o1 so x y) -> (forall x y, F o2 so x y <> None -> Rev2 o2 so x y) ->
  forall x y, F go so x y <> None -> Rev2 go so x y.
Proof.
  intros H1 H2 [x|x] [y|y] hF.
  - apply (Rev2_map o1 go inl so D comm R1 RM emb1 CL). apply H1. rewrite (F_map o1 go inl so emb1) in hF. destruct (F o1 so x y); [discriminate|auto].
  - exfalso. apply hF, F_lr.
  - intros phi ts h E. rewrite F_rl in E. injection E as <-. rewrite (ev_cl so D comm CL). cbn [AssocProofs.ev rev app].
    rewrite (cl_add _ CL), (cl_mul _ CL), (cl_invol _ CL), (ExprConj.sconj_1 so D CL), (cj_0 so D comm CL).
    change [inl y; inr x] with ([inl y] ++ @cons (G1 + G2) (inr x) []). change [inr x; inl y] with ([inr x] ++ @cons (G1 + G2) (inl y) []).
    rewrite !(P_app go so D comm). rewrite (ev_swap so D comm _ (P go so [inr x])).
    transitivity (ev (fun v => ev (fun u => phi (u ++ v)) (P go so [inr x])) (P go so [inl y])); [|ring].
    rewrite !P_split1. apply ev_ext. intros c u _. rewrite !P_split2. apply ev_ext. intros d v _. symmetry. now apply move0.
  - apply (Rev2_map o2 go inr so D comm R2 RM emb2 CL). apply H2. rewrite (F_map o2 go inr so emb2) in hF. destruct (F o2 so x y); [discriminate|auto].
Qed.
Lemma mix_invol1 : (forall x, Invol1 o1 so x) -> (forall x, Invol1 o2 so x) -> forall x, Invol1 go so x.
Proof.
  intros H1 H2 [x|x]; [apply (Invol1_map o1 go inl so D comm R1 RM emb1 CL)|apply (Invol1_map o2 go inr so D comm R2 RM emb2 CL)]; auto.
Qed.
End Mix.
