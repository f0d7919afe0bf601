(** C64: conjugation in user-defined algebras.  If products are associative and
    conj reverses the products of pairs of generators that are rewritten, it
    reverses all products. *)
From Coq Require Import ZArith Bool Lia List Sorted Wf_nat Ring.
From Verif Require Import ExprModel ExprSpec ExprOrder ExprMap ExprEval ExprLin ExprCanon LinSpec AssocSpec AssocProofs LieProofs.
Import ListNotations.
Open Scope nat_scope.
Open Scope list_scope.

Section ConjUser.
Context {G S : Type} (go : gen_ops G) (so : scalar_ops S).
Context (D : scalar_domain so) (comm : forall x y, s_mul so x y = s_mul so y x) (CL : conj_laws so).
Context (RA : regular_algebra go so).
Let L := sd_laws _ D.
Let Ho : gen_order go := ra_order _ _ RA.
Notation word := (list G).
Notation emap := (list (list G * S)).
Notation fsum := (list (S * word)).
Notation V := (V go so RA).
Notation NL := (NL go so).
Notation F := (F go so).
Notation ev := (ev so).
Notation tv := (tv so).
Notation del := (del go so RA).
Notation gx := (generator_expr so).
Notation cj := (s_conj so).
Add Ring Sring_cu : (Sring so D comm).
Context (HC : forall w, Conf go so RA w).

Lemma HB B : CB go so RA B.
Proof. intros v _. apply HC. Qed.
Lemma AB w k p s : V k (p ++ w ++ s) = ev (fun u => V k (p ++ u ++ s)) (NL w).
Proof. apply (absorb go so D RA (Datatypes.S (M go (p ++ w ++ s)))); auto. Qed.

(** *** Functionals that do not see the rewriting *)
Definition Inv (phi : word -> S) : Prop := forall p w s, phi (p ++ w ++ s) = ev (fun u => phi (p ++ u ++ s)) (NL w).
Lemma Inv_V k : Inv (V k).
Proof. intros p w s. apply AB. Qed.
Lemma Inv_ext phi psi : (forall u, phi u = psi u) -> Inv phi -> Inv psi.
Proof. intros e h p w s. rewrite <- e, h. apply ev_ext. intros; auto. Qed.
Lemma Inv_left phi a : Inv phi -> Inv (fun u => phi (a ++ u)).
Proof.
  intros h p w s. specialize (h (a ++ p) w s). rewrite <- !app_assoc in h. rewrite h. apply ev_ext.
  intros. now rewrite <- app_assoc.
Qed.
Lemma Inv_right phi b : Inv phi -> Inv (fun u => phi (u ++ b)).
Proof.
  intros h p w s. specialize (h p w (s ++ b)). rewrite <- !app_assoc. rewrite h. apply ev_ext.
  intros. now rewrite <- !app_assoc.
Qed.
Lemma Inv_ev (phi : word -> word -> S) l : (forall a, Inv (phi a)) -> Inv (fun u => ev (fun a => phi a u) l).
Proof.
  intros h p w s. rewrite (ev_swap so D comm). apply ev_ext. intros c a _. apply h.
Qed.
Lemma Inv_red phi x y ts p s : Inv phi -> F x y = Some ts ->
  phi (p ++ x :: y :: s) = ev (fun u => phi (p ++ u ++ s)) ts.
Proof.
  intros h hF. change (x :: y :: s) with ([x; y] ++ s). rewrite (h p [x; y] s), (NL2 go so RA x y ts hF), (ev_bind so D).
  apply ev_ext. intros c u _. symmetry. apply h.
Qed.

(** the words of one rewriting step are not rewritten further *)
Lemma F_irr x y ts c u : F x y = Some ts -> In (c, u) ts -> first_red go so u = None.
Proof.
  intros hF i. pose proof (F_shapes go so x y ts c u hF i) as [[-> h]|h].
  2:{ destruct u as [|a [|b u]]; auto. simpl in h; lia. }
  rewrite first_red_cons. destruct (F y x) as [t'|] eqn:E; [|reflexivity]. exfalso.
  unfold AssocProofs.F in hF, E. rewrite h in hF. rewrite (gt_asym go so RA x y h) in E.
  destruct (g_swap go x y) as [c0 f] eqn:Es.
  assert (Z : vn_eqb c0 (VInt 0) = true).
  { apply (ra_detect _ _ RA y x c0 f); auto.
    - rewrite (sto_gt _ _ _ Ho) in h. exact h.
    - destruct (g_simplify go y x); congruence. }
  rewrite Z in hF. injection hF as <-. cbn [app] in i. apply lf_shapes in i. simpl in i. lia.
Qed.
Lemma NL_F x y ts phi : F x y = Some ts -> ev phi (NL [x; y]) = ev phi ts.
Proof.
  intros hF. rewrite (NL2 go so RA x y ts hF), (ev_bind so D). apply ev_ext. intros c u i.
  rewrite (NL_irr go so u) by (eapply F_irr; eauto). cbn [AssocProofs.ev]. ring.
Qed.

(** *** Products of expressions *)
Lemma mul_tv a b e phi : nonzero so a -> nonzero so b -> e_mul go so a b = Ok e -> Inv phi ->
  tv phi e = tv (fun m => tv (fun n => phi (m ++ n)) b) a.
Proof.
  intros ha hb E h. rewrite (mul_value go so D RA a b e phi ha hb E) by (intros; apply HB).
  rewrite (ev_wprod so D). apply ev_ext. intros c m _. apply ev_ext. intros d n _.
  pose proof (h [] (m ++ n) []) as K. cbn [app] in K. rewrite app_nil_r in K. rewrite K. apply ev_ext.
  intros. now rewrite app_nil_r.
Qed.
Lemma mul_V a b e k : nonzero so a -> nonzero so b -> e_mul go so a b = Ok e ->
  coef go so e k = tv (fun m => tv (fun n => V k (m ++ n)) b) a.
Proof.
  intros ha hb E. rewrite (proj2 (mul_coef go so D RA a b e k ha hb E)), (ev_wprod so D).
  apply ev_ext. intros c m _. apply ev_ext. intros d n _. apply (nf_V go so D RA). apply HB.
Qed.

(** *** Formal products of conjugate generators *)
Definition Eg (g : G) : emap := match e_linfun go so (g_conj go g) with Ok e => e | _ => [] end.
Lemma linfun_ok f : representable so f -> exists e, e_linfun go so f = Ok e.
Proof.
  intros [h1 h2]. unfold e_linfun.
  assert (K : forall ts e, (forall g v, In (g, v) ts -> s_make so v <> None) -> exists e', linfun_terms go so ts e = Ok e').
  { induction ts as [|[g v] ts IH]; intros e h; cbn [linfun_terms]; [eauto|].
    destruct (s_make so v) as [x|] eqn:E; [|exfalso; eapply h; [left; reflexivity|exact E]].
    assert (h' : forall g v, In (g, v) ts -> s_make so v <> None) by (intros; eapply h; right; eauto).
    destruct (s_is_zero so x) eqn:Z; [apply IH; auto|]. unfold e_mono. rewrite Z.
    assert (R : normalize go so [g] x [] = Ok [([g], x)]) by reflexivity.
    rewrite R. cbn [rbind]. apply IH; auto. }
  destruct (vn_is_zero (const_term f)); cbn [rbind]; [apply K; auto|].
  destruct (s_make so (const_term f)); [|congruence]. cbn [rbind]. apply K; auto.
Qed.
Lemma Eg_ok g : e_linfun go so (g_conj go g) = Ok (Eg g).
Proof. unfold Eg. destruct (linfun_ok _ (ra_repr_conj _ _ RA g)) as [e ->]. reflexivity. Qed.
Lemma Eg_stored g : stored go so (Eg g).
Proof. eapply (stored_linfun go Ho so D (CN go so RA)); apply Eg_ok. Qed.

Fixpoint P (l : word) : fsum :=
  match l with [] => [(s_one so, [])] | g :: l' => bindf so (fs (Eg g)) (fun v => map (fun q => (fst q, v ++ snd q)) (P l')) end.
Lemma ev_shift phi v l : ev phi (map (fun q : S * word => (fst q, v ++ snd q)) l) = ev (fun u => phi (v ++ u)) l.
Proof. induction l as [|[c u] l IH]; cbn [map AssocProofs.ev fst snd]; auto. now rewrite IH. Qed.
Lemma P_nil phi : ev phi (P []) = phi [].
Proof. cbn. ring. Qed.
Lemma P_cons phi g l : ev phi (P (g :: l)) = tv (fun v => ev (fun w => phi (v ++ w)) (P l)) (Eg g).
Proof. cbn [P]. rewrite (ev_bind so D). apply ev_ext. intros c u _. apply ev_shift. Qed.
Lemma P_app phi l1 l2 : ev phi (P (l1 ++ l2)) = ev (fun u => ev (fun v => phi (u ++ v)) (P l2)) (P l1).
Proof.
  revert phi. induction l1 as [|g l1 IH]; intros phi; [cbn [app]; rewrite P_nil; reflexivity|].
  cbn [app]. rewrite !P_cons. apply ev_ext. intros c v _. rewrite IH. apply ev_ext. intros d w _. apply ev_ext.
  intros. now rewrite app_assoc.
Qed.
Lemma P_one phi g : ev phi (P [g]) = tv phi (Eg g).
Proof. rewrite P_cons. apply ev_ext. intros c u _. rewrite P_nil. now rewrite app_nil_r. Qed.

(** conjugate of a monomial *)
Lemma conj_mono_ok l : forall a, exists e, conj_mono go so l a = Ok e.
Proof.
  induction l as [|g l IH]; intros a; cbn [conj_mono]; [eauto|]. rewrite Eg_ok. cbn [rbind].
  destruct (e_mul_ok go so RA a (Eg g)) as [e ->]. cbn [rbind]. apply IH.
Qed.
Lemma conj_mono_app l1 l2 : forall a, conj_mono go so (l1 ++ l2) a = rbind (conj_mono go so l1 a) (conj_mono go so l2).
Proof.
  induction l1 as [|g l1 IH]; intros a; [reflexivity|]. cbn [app conj_mono]. rewrite Eg_ok. cbn [rbind].
  destruct (e_mul_ok go so RA a (Eg g)) as [e ->]. cbn [rbind]. apply IH.
Qed.
Definition C1 : emap := e_const so (s_one so).
Lemma C1_eq : C1 = [([], s_one so)].
Proof. unfold C1, e_const. now rewrite (proj2 (s_is_zero_false so L _) (one_nz so D)). Qed.
Lemma conj_mono_tv l : forall a e phi, stored go so a -> conj_mono go so l a = Ok e -> Inv phi ->
  tv phi e = tv (fun u => ev (fun w => phi (u ++ w)) (P l)) a.
Proof.
  induction l as [|g l IH]; intros a e phi ha E h; cbn [conj_mono] in E.
  - injection E as <-. apply ev_ext. intros c u _. now rewrite P_nil, app_nil_r.
  - rewrite Eg_ok in E. cbn [rbind] in E. destruct (e_mul_ok go so RA a (Eg g)) as [ag Ea]. rewrite Ea in E. cbn [rbind] in E.
    assert (Sa : stored go so ag) by exact (proj1 (mul_coef go so D RA _ _ _ [] (proj2 ha) (proj2 (Eg_stored g)) Ea)).
    rewrite (IH ag e phi Sa E h). rewrite (mul_tv _ _ _ _ (proj2 ha) (proj2 (Eg_stored g)) Ea).
    + apply ev_ext. intros c u _. rewrite P_cons. apply ev_ext. intros d v _. apply ev_ext. intros.
      now rewrite app_assoc.
    + apply (Inv_ev (fun w u => phi (u ++ w))). intros w. now apply Inv_right.
Qed.
Lemma conj_mono_one m e phi : conj_mono go so (rev m) C1 = Ok e -> Inv phi -> tv phi e = ev phi (P (rev m)).
Proof.
  intros E h. rewrite (conj_mono_tv (rev m) C1 e phi (stored_const go so D _) E h). rewrite C1_eq. unfold AssocProofs.tv.
  cbn [fs map AssocProofs.ev fst snd app]. change (fun w : word => phi w) with phi. ring.
Qed.
Lemma cnf_V m k : cnf go so m k = ev (V k) (P (rev m)).
Proof.
  destruct (conj_mono_ok (rev m) C1) as [e E]. rewrite (cnf_eq go so m e k E).
  destruct m as [|g m].
  - cbn in E. injection E as <-. rewrite P_nil. rewrite (V_irr go so D RA) by reflexivity.
    rewrite <- (tv_del go so D RA) by apply (stored_const go so D). rewrite C1_eq. cbn. ring.
  - cbn [rev] in E |- *. rewrite conj_mono_app in E.
    destruct (conj_mono_ok (rev m) C1) as [d Ed]. rewrite Ed in E. cbn [rbind conj_mono] in E.
    rewrite Eg_ok in E. cbn [rbind] in E. destruct (e_mul_ok go so RA d (Eg g)) as [r Er]. rewrite Er in E. cbn [rbind] in E.
    injection E as <-.
    assert (Sd : stored go so d) by exact (stored_conj_mono go Ho so D (CN go so RA) _ _ _ (stored_const go so D _) Ed).
    rewrite (mul_V _ _ _ k (proj2 Sd) (proj2 (Eg_stored g)) Er).
    rewrite (conj_mono_one m d _ Ed).
    + rewrite P_app. apply ev_ext. intros c u _. now rewrite P_one.
    + apply (Inv_ev (fun w u => V k (u ++ w))). intros w. apply Inv_right, Inv_V.
Qed.

(** *** Conjugate of an expression *)
Definition cl (l : fsum) : fsum := map (fun q => (cj (fst q), snd q)) l.
Lemma cj_0 : cj (s_zero so) = s_zero so.
Proof.
  apply (s_add_cancel so L (cj (s_zero so))). rewrite <- (cl_add _ CL). rewrite !(sl_add_0 _ L). ring.
Qed.
Lemma cj_mul x y : cj (s_mul so x y) = s_mul so (cj x) (cj y).
Proof. rewrite (cl_mul _ CL). apply comm. Qed.
Lemma ev_cl phi l : ev phi (cl l) = cj (ev (fun u => cj (phi u)) l).
Proof.
  induction l as [|[c u] l IH]; cbn [cl map AssocProofs.ev fst snd]; [symmetry; apply cj_0|].
  rewrite (cl_add _ CL), cj_mul, (cl_invol _ CL). f_equal. exact IH.
Qed.
Lemma cl_cl l : cl (cl l) = l.
Proof.
  unfold cl. rewrite map_map. rewrite <- (map_id l) at 2. apply map_ext. intros [c u]. cbn. now rewrite (cl_invol _ CL).
Qed.
Lemma conj_ok e : nonzero so e -> exists r, e_conj go so e = Ok r.
Proof.
  intros he. apply (conj_loop_succ go Ho so D (CN go so RA) CL e he). intros m _. apply conj_mono_ok.
Qed.
Lemma conj_V e r k : nonzero so e -> e_conj go so e = Ok r ->
  stored go so r /\ coef go so r k = ev (fun m => ev (V k) (P (rev m))) (cl (fs e)).
Proof.
  intros he E. destruct (e_conj_nf go Ho so D (CN go so RA) CL e r he E) as [h [_ K]]. split; auto. rewrite K.
  clear E K he. unfold cl, fs. rewrite map_map. induction e as [|[m c] e IH]; cbn [lsum map AssocProofs.ev fst snd]; auto.
  now rewrite IH, cnf_V.
Qed.
Lemma conj_tv e r phi : nonzero so e -> e_conj go so e = Ok r -> Inv phi ->
  tv phi r = ev (fun m => ev phi (P (rev m))) (cl (fs e)).
Proof.
  intros he E h. destruct (e_conj_nf go Ho so D (CN go so RA) CL e r he E) as [hr [_ K]].
  set (Cm := fun m => match conj_mono go so (rev m) C1 with Ok t => t | _ => [] end).
  assert (HCm : forall m, conj_mono go so (rev m) C1 = Ok (Cm m)).
  { intros m. unfold Cm. destruct (conj_mono_ok (rev m) C1) as [t ->]. reflexivity. }
  transitivity (ev phi (bindf so (cl (fs e)) (fun m => fs (Cm m)))).
  - unfold AssocProofs.tv. apply (ev_coefs go so D RA). intros k. change (ev (del k) (fs r)) with (tv (del k) r).
    rewrite (tv_del go so D RA k r (proj1 hr)), K, (ev_bind so D). clear K E he hr h.
    unfold cl, fs. rewrite map_map. induction e as [|[m c] e IH]; cbn [lsum map AssocProofs.ev fst snd]; auto.
    rewrite IH. f_equal. f_equal. rewrite (cnf_eq go so m _ k (HCm m)).
    assert (Sm : stored go so (Cm m)) by exact (stored_conj_mono go Ho so D (CN go so RA) _ _ _ (stored_const go so D _) (HCm m)).
    symmetry. exact (tv_del go so D RA k (Cm m) (proj1 Sm)).
  - rewrite (ev_bind so D). apply ev_ext. intros c m _. apply (conj_mono_one m _ phi (HCm m) h).
Qed.

(** *** conj reverses products *)
Definition Rev2 (x y : G) : Prop := forall phi ts, Inv phi -> F x y = Some ts ->
  ev phi (P [y; x]) = ev (fun u => ev phi (P (rev u))) (cl ts).
Context (HR : forall x y, F x y <> None -> Rev2 x y).

Definition psi (phi : word -> S) (w : word) : S := cj (ev phi (P (rev w))).
Lemma psi_step phi p x y s ts : Inv phi -> F x y = Some ts ->
  psi phi (p ++ x :: y :: s) = ev (fun u => psi phi (p ++ u ++ s)) ts.
Proof.
  intros h hF. unfold psi.
  assert (A : forall l, ev phi (P (rev s ++ l ++ rev p)) =
    ev (fun b => ev (fun c => ev (fun a => phi (a ++ b ++ c)) (P (rev s))) (P (rev p))) (P l)).
  { intros l. rewrite P_app. rewrite (ev_ext so _ (fun u => ev (fun b => ev (fun c => phi (u ++ b ++ c)) (P (rev p))) (P l))).
    2:{ intros c u _. now rewrite P_app. }
    rewrite (ev_swap so D comm). apply ev_ext. intros d b _. apply (ev_swap so D comm). }
  assert (E1 : rev (p ++ x :: y :: s) = rev s ++ [y; x] ++ rev p).
  { rewrite rev_app_distr. cbn [rev]. now rewrite <- !app_assoc. }
  rewrite E1, A. rewrite (HR x y) with (ts := ts); auto; [|congruence| ].
  - rewrite ev_cl, (cl_invol _ CL). apply ev_ext. intros c u _. f_equal. rewrite <- A. f_equal. f_equal.
    rewrite !rev_app_distr. now rewrite <- app_assoc.
  - apply (Inv_ev (fun c b => ev (fun a => phi (a ++ b ++ c)) (P (rev s)))). intros c.
    apply (Inv_ev (fun a b => phi (a ++ b ++ c))). intros a.
    apply (Inv_ext (fun b => (fun v => phi (v ++ c)) (a ++ b))); [intros; now rewrite app_assoc|].
    apply (Inv_left (fun v => phi (v ++ c))). now apply Inv_right.
Qed.
Lemma psi_Inv phi : Inv phi -> Inv (psi phi).
Proof.
  intros h p w s. revert p s. induction w as [w IH] using (induction_ltof1 _ (M go)). unfold ltof in IH. intros p s.
  destruct (first_red go so w) as [[[p' ts] s']|] eqn:E.
  - destruct (first_red_some _ _ _ _ _ _ E) as [x [y [-> e2]]].
    rewrite (NL_red go so RA _ _ _ _ E), (ev_bind so D).
    pose proof (psi_step phi (p ++ p') x y (s' ++ s) ts h e2) as K.
    replace (p ++ (p' ++ x :: y :: s') ++ s) with ((p ++ p') ++ x :: y :: s' ++ s) by (rewrite <- !app_assoc; reflexivity).
    rewrite K. apply ev_ext. intros c u i.
    rewrite <- (IH (p' ++ u ++ s')) by (eapply (M_step go so RA); eauto). f_equal. now rewrite <- !app_assoc.
  - rewrite (NL_irr go so _ E). cbn [AssocProofs.ev]. ring.
Qed.

Theorem reverses a b : stored go so a -> stored go so b -> conj_reverses go so a b.
Proof.
  intros ha hb. destruct (e_mul_ok go so RA a b) as [ab E1].
  destruct (conj_ok a (proj2 ha)) as [ca E2]. destruct (conj_ok b (proj2 hb)) as [cb E3].
  assert (Sab := proj1 (mul_coef go so D RA a b ab [] (proj2 ha) (proj2 hb) E1)).
  destruct (conj_ok ab (proj2 Sab)) as [r E4]. destruct (e_mul_ok go so RA cb ca) as [r' E5].
  assert (Sca := proj1 (conj_V a ca [] (proj2 ha) E2)). assert (Scb := proj1 (conj_V b cb [] (proj2 hb) E3)).
  assert (Sr' := proj1 (mul_coef go so D RA cb ca r' [] (proj2 Scb) (proj2 Sca) E5)).
  exists ab, ca, cb, r. do 4 (split; auto). rewrite E5. f_equal.
  assert (Sr := proj1 (conj_V ab r [] (proj2 Sab) E4)).
  apply (stored_ext go Ho so D r' r Sr' Sr). intros k. symmetry.
  rewrite (proj2 (conj_V ab r k (proj2 Sab) E4)), ev_cl. change (ev (psi (V k)) (fs ab)) with (tv (psi (V k)) ab).
  change (ev (fun u : list G => cj (ev (V k) (P (rev u)))) (fs ab)) with (tv (psi (V k)) ab).
  rewrite (mul_tv a b ab _ (proj2 ha) (proj2 hb) E1 (psi_Inv _ (Inv_V k))).
  transitivity (ev (fun m => ev (fun n => ev (V k) (P (rev n ++ rev m))) (cl (fs b))) (cl (fs a))).
  { rewrite ev_cl. f_equal. apply ev_ext. intros c m _. rewrite ev_cl, (cl_invol _ CL).
    apply ev_ext. intros d n _. unfold psi. now rewrite rev_app_distr. }
  rewrite (mul_V cb ca r' k (proj2 Scb) (proj2 Sca) E5).
  rewrite (conj_tv b cb) by (try exact (proj2 hb); auto; apply (Inv_ev (fun n m => V k (m ++ n))); intros; apply Inv_right, Inv_V).
  rewrite (ev_swap so D comm). apply ev_ext. intros d n _.
  transitivity (ev (fun u => ev (fun m => ev (fun v => V k (u ++ v)) (P (rev m))) (cl (fs a))) (P (rev n))).
  - rewrite <- (ev_swap so D comm). apply ev_ext. intros c m _. apply P_app.
  - apply ev_ext. intros c u _. rewrite (conj_tv a ca); auto; [exact (proj2 ha)|]. apply Inv_left, Inv_V.
Qed.

(** *** conj is an involution *)
Definition Invol1 (g : G) : Prop := forall phi, Inv phi -> ev (fun u => ev phi (P (rev u))) (cl (P [g])) = phi [g].
Context (HI : forall g, Invol1 g).
Lemma psi_P m : forall phi, Inv phi -> cj (ev (psi phi) (P (rev m))) = phi m.
Proof.
  induction m as [|g m IH]; intros phi h.
  - cbn [rev]. rewrite P_nil. unfold psi. rewrite (cl_invol _ CL). cbn [rev]. apply P_nil.
  - cbn [rev]. rewrite P_app.
    rewrite (ev_ext so _ (fun u => cj (ev (fun b => phi ([g] ++ b)) (P (rev u))))).
    + pose proof (IH (fun b => phi ([g] ++ b)) (Inv_left phi [g] h)) as K. unfold psi in K. exact K.
    + intros c u _. unfold psi.
      rewrite (ev_ext so _ (fun v => cj (ev (fun a => ev (fun b => phi (a ++ b)) (P (rev u))) (P (rev v))))).
      2:{ intros d v _. now rewrite rev_app_distr, P_app. }
      pose proof (HI g (fun a => ev (fun b => phi (a ++ b)) (P (rev u)))) as K. cbv beta in K. rewrite <- K.
      * rewrite ev_cl, (cl_invol _ CL). reflexivity.
      * apply (Inv_ev (fun b a => phi (a ++ b))). intros b. now apply Inv_right.
Qed.
Theorem involutive a : stored go so a -> (forall m c, In (m, c) a -> first_red go so m = None) -> conj_involutive go so a.
Proof.
  intros ha hc. destruct (conj_ok a (proj2 ha)) as [ca E1].
  assert (Sca := proj1 (conj_V a ca [] (proj2 ha) E1)). destruct (conj_ok ca (proj2 Sca)) as [r E2].
  exists ca. split; auto. rewrite E2. f_equal. apply (stored_ext go Ho so D); auto; [apply (conj_V ca r [] (proj2 Sca) E2)|].
  intros k. rewrite (proj2 (conj_V ca r k (proj2 Sca) E2)), ev_cl.
  change (ev (fun u : list G => cj (ev (V k) (P (rev u)))) (fs ca)) with (tv (psi (V k)) ca).
  rewrite (conj_tv a ca _ (proj2 ha) E1 (psi_Inv _ (Inv_V k))).
  rewrite ev_cl, (cl_invol _ CL). rewrite <- (tv_del go so D RA k a (proj1 ha)). apply ev_ext. intros c m i.
  rewrite psi_P by apply Inv_V. apply (V_irr go so D RA).
  unfold fs in i. apply in_map_iff in i. destruct i as [[m' c'] [e i]]. cbn [fst snd] in e. injection e as -> ->. eauto.
Qed.

End ConjUser.
