(** C64: conj in user-defined algebras is an anti-automorphism (and an
    involution) as soon as it is one on the generators. *)
From Coq Require Import ZArith QArith Qcanon Bool Lia List Sorted Ring.
From Verif Require Import ExprModel ExprSpec ExprOrder ExprMap ExprEval ExprCanon ExprLin ExprHom ExprInst ExprConj
  LinSpec AssocSpec AssocProofs LieProofs ConjUser UserModel PropAssoc PropVirasoro.
Import ListNotations.
Close Scope Qc_scope.
Close Scope Q_scope.
Open Scope nat_scope.
Open Scope list_scope.

Section Gen.
Context {G S : Type} (go : gen_ops G) (so : scalar_ops S).
Context (D : scalar_domain so) (comm : forall x y, s_mul so x y = s_mul so y x) (CL : conj_laws so).
Context (RA : regular_algebra go so).
Context (HC : forall w, Conf go so RA w).
Let L := sd_laws _ D.
Let Ho : gen_order go := ra_order _ _ RA.
Notation gx := (generator_expr so).
Notation P := (P go so).
Notation Eg := (Eg go so).
Add Ring Sring_pc : (Sring so D comm).

Lemma conj_gx_tv x c phi : e_conj go so (gx x) = Ok c -> Inv go so phi -> tv so phi c = ev so phi (P [x]).
Proof.
  intros E h. rewrite (conj_tv go so D comm CL RA HC _ _ phi (gx_nonzero so D x) E h).
  unfold generator_expr. cbn [fs map cl ev fst snd rev app]. rewrite (sconj_1 so D CL). ring.
Qed.
Lemma rev2_of x y : conj_reverses go so (gx x) (gx y) -> Rev2 go so x y.
Proof.
  intros [ab [ca [cb [r [E1 [E2 [E3 [E4 E5]]]]]]]] phi ts h hF.
  assert (Sab := proj1 (mul_coef go so D RA _ _ ab [] (gx_nonzero so D x) (gx_nonzero so D y) E1)).
  assert (Sca := proj1 (conj_V go so D comm CL RA HC _ ca [] (gx_nonzero so D x) E2)).
  assert (Scb := proj1 (conj_V go so D comm CL RA HC _ cb [] (gx_nonzero so D y) E3)).
  transitivity (tv so phi r).
  - rewrite (mul_tv go so D RA HC cb ca r phi (proj2 Scb) (proj2 Sca) E5 h).
    rewrite (conj_gx_tv y cb _ E3).
    2:{ apply (Inv_ev go so D comm (fun n m => phi (m ++ n))). intros. now apply Inv_right. }
    change [y; x] with ([y] ++ [x]). rewrite (P_app go so D comm). apply ev_ext. intros c u _. symmetry.
    apply (conj_gx_tv x ca _ E2). now apply Inv_left.
  - rewrite (conj_tv go so D comm CL RA HC ab r phi (proj2 Sab) E4 h). rewrite !(ev_cl so D comm CL). f_equal.
    rewrite <- (NL_F go so D comm RA x y ts _ hF). apply (ev_coefs go so D RA). intros k.
    change (ev so (del go so RA k) (fs ab)) with (tv so (del go so RA k) ab).
    rewrite (tv_del go so D RA k ab (proj1 Sab)). apply (nf_pair go so D RA); auto. apply HB; auto.
Qed.

Lemma linfun_words f e : e_linfun go so f = Ok e -> forall m c, In (m, c) e -> length m <= 1.
Proof.
  assert (A : forall d e, (forall m (c : S), In (m, c) e -> length m <= 1) -> (forall m (c : S), In (m, c) d -> length m <= 1) ->
    forall m c, In (m, c) (e_add_assign go so e d) -> length m <= 1).
  { intros d e0 h1 h2 m c i. assert (K : In m (map fst (e_add_assign go so e0 d))) by (apply in_map_iff; exists (m, c); auto).
    apply (add_keys go Ho so) in K. destruct K as [K|K]; apply in_map_iff in K; destruct K as [[m' c'] [<- j]]; eauto. }
  assert (K : forall ts e0 e', (forall m (c : S), In (m, c) e0 -> length m <= 1) ->
    linfun_terms go so ts e0 = Ok e' -> forall m c, In (m, c) e' -> length m <= 1).
  { induction ts as [|[g v] ts IH]; intros e0 e' h E; cbn [linfun_terms] in E.
    - injection E as <-. exact h.
    - destruct (s_make so v) as [x|]; [|discriminate]. destruct (s_is_zero so x) eqn:Z; [eapply IH; eauto|].
      unfold e_mono in E. rewrite Z in E.
      assert (R : normalize go so [g] x [] = Ok [([g], x)]) by reflexivity.
      rewrite R in E. cbn [rbind] in E. eapply IH; [|exact E]. apply A; auto.
      intros m c [e1|[]]. injection e1 as <- <-. simpl; lia. }
  intros E. unfold e_linfun in E. destruct (vn_is_zero (const_term f)); cbn [rbind] in E.
  - eapply K; [|exact E]. intros m c [].
  - destruct (s_make so (const_term f)); [|discriminate]. cbn [rbind] in E. eapply K; [|exact E].
    intros m c [e1|[]]. injection e1 as <- <-. simpl; lia.
Qed.
Lemma conj_gx x : e_conj go so (gx x) = Ok (Eg x).
Proof.
  destruct (conj_ok go so D CL RA (gx x) (gx_nonzero so D x)) as [c E]. rewrite E. f_equal.
  apply (stored_ext go Ho so D).
  - apply (conj_V go so D comm CL RA HC _ c [] (gx_nonzero so D x) E).
  - apply Eg_stored; auto.
  - intros k. rewrite (proj2 (conj_V go so D comm CL RA HC _ c k (gx_nonzero so D x) E)).
    unfold generator_expr. cbn [fs map cl ev fst snd rev app]. rewrite (sconj_1 so D CL), (P_one go so D comm).
    rewrite <- (tv_del go so D RA k (Eg x)) by (apply Eg_stored; auto).
    replace (tv so (V go so RA k) (Eg x)) with (tv so (del go so RA k) (Eg x)); [ring|].
    apply ev_ext. intros d u i. symmetry. apply (V_irr go so D RA).
    assert (length u <= 1).
    { unfold fs in i. apply in_map_iff in i. destruct i as [[u' c'] [e1 i]]. cbn [fst snd] in e1. injection e1 as -> ->.
      eapply linfun_words; [apply (Eg_ok go so RA x)|exact i]. }
    destruct u as [|a [|b u]]; auto. simpl in H; lia.
Qed.
Lemma invol1_of x : conj_involutive go so (gx x) -> Invol1 go so x.
Proof.
  intros [cg [E1 E2]] phi h. rewrite conj_gx in E1. injection E1 as <-.
  rewrite (ev_cl so D comm CL), (P_one go so D comm). transitivity (tv so phi (gx x)).
  - rewrite (conj_tv go so D comm CL RA HC (Eg x) (gx x) phi) by (auto; apply (Eg_stored go so D RA x)).
    now rewrite (ev_cl so D comm CL).
  - unfold generator_expr, tv. cbn [fs map ev fst snd]. ring.
Qed.
Lemma canonical_irr (a : list (list G * S)) m c : canonical go a -> In (m, c) a -> first_red go so m = None.
Proof.
  intros h i. destruct (first_red go so m) as [[[p ts] s]|] eqn:E; auto. exfalso.
  destruct (first_red_some _ _ _ _ _ _ E) as [x [y [-> e2]]]. apply (h p x y s c i).
  unfold F in e2. unfold rewritten. destruct (g_gt go x y); auto. right. destruct (g_simplify go x y); congruence.
Qed.
End Gen.

Lemma F_rewritten {G S} (go : gen_ops G) (so : scalar_ops S) x y : F go so x y <> None -> rewritten go x y.
Proof.
  unfold F, rewritten. destruct (g_gt go x y); auto. destruct (g_simplify go x y); auto. intros _. right. discriminate.
Qed.

(** conj(a*b) == conj(b)*conj(a) for all expressions, if products are associative
    and this holds for the pairs of generators that are exchanged or simplified. *)
Theorem C64_conj_product : forall G S (go : gen_ops G) (so : scalar_ops S),
  scalar_domain so -> (forall x y, s_mul so x y = s_mul so y x) -> conj_laws so -> regular_algebra go so ->
  (forall x y z, associates go so (generator_expr so x) (generator_expr so y) (generator_expr so z)) ->
  (forall x y, rewritten go x y -> conj_reverses go so (generator_expr so x) (generator_expr so y)) ->
  forall a b, stored_expr go so a -> stored_expr go so b -> conj_reverses go so a b.
Proof.
  intros G S go so D comm CL RA HA HR a b ha hb.
  assert (HC := all_conf go so D comm RA HA).
  apply (reverses go so D comm CL RA HC); auto.
  intros x y h. apply (rev2_of go so D comm CL RA HC). apply HR. now apply F_rewritten in h.
Qed.

(** conj(conj(a)) == a for all expressions in canonical form, if moreover this
    holds for the generators. *)
Theorem C64_conj_involutive : forall G S (go : gen_ops G) (so : scalar_ops S),
  scalar_domain so -> (forall x y, s_mul so x y = s_mul so y x) -> conj_laws so -> regular_algebra go so ->
  (forall x y z, associates go so (generator_expr so x) (generator_expr so y) (generator_expr so z)) ->
  (forall x y, rewritten go x y -> conj_reverses go so (generator_expr so x) (generator_expr so y)) ->
  (forall x, conj_involutive go so (generator_expr so x)) ->
  forall a, stored_expr go so a -> canonical go a -> conj_involutive go so a.
Proof.
  intros G S go so D comm CL RA HA HR HI a ha hc.
  assert (HC := all_conf go so D comm RA HA).
  apply (involutive go so D comm CL RA HC); auto.
  - intros x y h. apply (rev2_of go so D comm CL RA HC). apply HR. now apply F_rewritten in h.
  - intros g. apply (invol1_of go so D comm CL RA HC). apply HI.
  - intros m c i. eapply canonical_irr; eauto.
Qed.

(** ** The gamma matrix example *)
Section Gamma.
Context {S : Type} (so : scalar_ops S) (D : scalar_domain so) (comm : forall x y, s_mul so x y = s_mul so y x).
Context (CL : conj_laws so).
Notation go := gamma_ops.
Notation RA := (gamma_regular so D).
Let L := sd_laws _ D.
Add Ring Sring_pg : (Sring so D comm).
Definition gsign (i : Z) : S := if Z.eqb i 0 then s_one so else s_neg so (s_one so).
Lemma gamma_conf w : Conf go so RA w.
Proof. apply (confluence go so D comm RA (M go w)); auto. intros x y z _. apply gamma_res; auto. Qed.
Lemma gamma_P phi i : ev so phi (P go so [i]) = s_mul so (gsign i) (phi [i]).
Proof.
  rewrite (P_one go so D comm).
  pose proof (C62_gamma_conj S so D CL i) as K. rewrite (conj_gx go so D comm CL RA gamma_conf i) in K.
  injection K as K. rewrite K. unfold gsign, generator_expr, e_neg, tv.
  destruct (i =? 0)%Z; cbn [fs map ev fst snd]; ring.
Qed.
Lemma gamma_P2 phi i j : ev so phi (P go so [i; j]) = s_mul so (s_mul so (gsign i) (gsign j)) (phi [i; j]).
Proof.
  change [i; j] with ([i] ++ [j]). rewrite (P_app go so D comm), gamma_P, gamma_P. cbn [app]. ring.
Qed.
Lemma gsign_sq i : s_mul so (gsign i) (gsign i) = s_one so.
Proof. unfold gsign. destruct (i =? 0)%Z; ring. Qed.
Lemma cj_1 : s_conj so (s_one so) = s_one so.
Proof. apply (sconj_1 so D CL). Qed.
Lemma cj_neg x : s_conj so (s_neg so x) = s_neg so (s_conj so x).
Proof.
  apply (s_neg_unique so L). rewrite <- (cl_add _ CL). replace (s_add so x (s_neg so x)) with (s_zero so) by ring.
  apply (cj_0 so D comm CL).
Qed.
Lemma gamma_rev2 x y : F go so x y <> None -> Rev2 go so x y.
Proof.
  intros hF phi ts h E. destruct (Z.lt_trichotomy x y) as [l|[l|l]].
  - rewrite (gF_lt so x y l) in E. discriminate.
  - subst y. rewrite (gF_eq so D x) in E. injection E as <-. rewrite gamma_P2, gsign_sq.
    pose proof (Inv_red go so D RA phi x x _ [] [] h (gF_eq so D x)) as K. cbn [app] in K. rewrite K. cbn [ev cl map fst snd app rev].
    rewrite (P_nil go so D comm). unfold sq. rewrite (zmul_conj so D CL). ring.
  - rewrite (gF_gt so D x y l) in E. injection E as <-. rewrite gamma_P2.
    cbn [ev cl map fst snd app rev]. rewrite gamma_P2.
    pose proof (Inv_red go so D RA phi x y _ [] [] h (gF_gt so D x y l)) as K. cbn [app] in K. rewrite K. cbn [ev app]. unfold m1.
    rewrite cj_neg, cj_1. ring.
Qed.
Lemma gamma_invol1 x : Invol1 go so x.
Proof.
  intros phi h. rewrite (ev_cl so D comm CL), gamma_P. cbn [rev app]. rewrite gamma_P.
  rewrite (cl_mul _ CL), (cl_invol _ CL). replace (s_conj so (gsign x)) with (gsign x).
  - rewrite <- (sl_mul_1_l _ L (phi [x])) at 2. rewrite <- (gsign_sq x). ring.
  - unfold gsign. destruct (x =? 0)%Z; rewrite ?cj_neg, ?cj_1; reflexivity.
Qed.
End Gamma.

Theorem C64_gamma : forall S (so : scalar_ops S),
  scalar_domain so -> (forall x y, s_mul so x y = s_mul so y x) -> conj_laws so ->
  (forall a b, stored_expr gamma_ops so a -> stored_expr gamma_ops so b -> conj_reverses gamma_ops so a b) /\
  (forall a, stored_expr gamma_ops so a -> canonical gamma_ops a -> conj_involutive gamma_ops so a).
Proof.
  intros S so D comm CL. split.
  - intros a b ha hb. apply (reverses gamma_ops so D comm CL (gamma_regular so D) (gamma_conf so D comm)); auto.
    intros x y h. apply gamma_rev2; auto.
  - intros a ha hc. apply (involutive gamma_ops so D comm CL (gamma_regular so D) (gamma_conf so D comm)); auto.
    + intros x y h. apply gamma_rev2; auto.
    + intros g. apply gamma_invol1; auto.
    + intros m c i. eapply canonical_irr; eauto.
Qed.

(** ** The Virasoro algebra (without the simplify_prod() of F24) *)
Section Vir.
Notation go := virasoro_lie_ops.
Notation so := double_scalar_ops.
Notation D := double_domain.
Notation CL := double_conj_laws.
Notation RA := (vir_regular (fun _ _ => None) no_simp).
Let L := sd_laws _ D.
Add Ring Sring_pv : (Sring so D dcomm).
Lemma vir_conf w : Conf go so RA w.
Proof.
  apply (all_conf go so D dcomm RA). intros x y z. apply (proj2 C63_virasoro_enveloping);
    (split; [repeat constructor|apply (gx_nonzero so D)]).
Qed.
Lemma vir_P phi n : ev so phi (P go so [n]) = phi [(- n)%Z].
Proof.
  rewrite (P_one go so D dcomm). replace (Eg go so n) with (generator_expr so (- n)%Z).
  - unfold generator_expr, tv. cbn [fs map ev fst snd]. ring.
  - unfold Eg. replace (e_linfun go so (g_conj go n)) with (Ok [([(- n)%Z], s_one so)]); [reflexivity|].
    unfold e_linfun. cbn [g_conj go virasoro_lie_ops]. unfold virasoro_conj. cbn [const_term terms vn_is_zero Z.eqb rbind linfun_terms].
    reflexivity.
Qed.
Lemma vir_P2 phi m n : ev so phi (P go so [m; n]) = phi [(- m)%Z; (- n)%Z].
Proof. change [m; n] with ([m] ++ [n]). rewrite (P_app go so D dcomm), vir_P, vir_P. reflexivity. Qed.
Lemma vir_rev2 x y : F go so x y <> None -> Rev2 go so x y.
Proof.
  intros hF phi ts h E. destruct (Z.lt_trichotomy x y) as [l|[l|l]].
  - pose proof (vF_lt _ no_simp x y l) as N. change (F go so x y = None) in N. congruence.
  - subst y. unfold F in E. cbn [g_gt go virasoro_lie_ops] in E. rewrite Z.ltb_irrefl in E. discriminate.
  - destruct (vF_gt (fun _ _ => None) x y l) as [l1 [E1 K1]].
    assert (l' : (- x < - y)%Z) by lia. destruct (vF_gt (fun _ _ => None) _ _ l') as [l2 [E2 K2]].
    change (F go so x y = Some ((s_one so, [y; x]) :: l1)) in E1. rewrite E1 in E. injection E as <-.
    rewrite vir_P2. pose proof (Inv_red go so D RA phi _ _ _ [] [] h E2) as K. cbn [app] in K. rewrite K. cbn [ev app cl map fst snd rev].
    rewrite vir_P2. change (s_conj so (s_one so)) with (s_one so).
    f_equal. transitivity (ev so phi l2); [apply ev_ext; intros; now rewrite app_nil_r|]. rewrite K2.
    change (map (fun q : Qc * list Z => (s_conj so (fst q), snd q)) l1) with (cl so l1).
    rewrite (ev_cl so D dcomm CL). change (s_conj so (ev so (fun u => s_conj so (ev so phi (P go so (rev u)))) l1))
      with (ev so (fun u => ev so phi (P go so (rev u))) l1). rewrite K1. unfold B. cbn [rev app].
    rewrite vir_P, (P_nil go so D dcomm).
    replace (- y - - x)%Z with (x - y)%Z by lia. replace (- y + - x)%Z with (- (x + y))%Z by lia.
    replace (central (- y) (- x)) with (central x y); [reflexivity|].
    unfold central. replace (- y + - x =? 0)%Z with (x + y =? 0)%Z
      by (destruct (Z.eqb_spec (x + y) 0), (Z.eqb_spec (- y + - x) 0); lia).
    destruct (Z.eqb_spec (x + y) 0); auto. replace y with (- x)%Z by lia. ring.
Qed.
Lemma vir_invol1 x : Invol1 go so x.
Proof.
  intros phi h. rewrite (ev_cl so D dcomm CL), vir_P. cbn [rev app]. rewrite vir_P, Z.opp_involutive. reflexivity.
Qed.
End Vir.

Theorem C64_virasoro :
  (forall a b, stored_expr virasoro_lie_ops double_scalar_ops a -> stored_expr virasoro_lie_ops double_scalar_ops b ->
     conj_reverses virasoro_lie_ops double_scalar_ops a b) /\
  (forall a, stored_expr virasoro_lie_ops double_scalar_ops a -> canonical virasoro_lie_ops a ->
     conj_involutive virasoro_lie_ops double_scalar_ops a).
Proof.
  split.
  - intros a b ha hb.
    apply (reverses virasoro_lie_ops double_scalar_ops double_domain dcomm double_conj_laws (vir_regular _ no_simp) vir_conf); auto.
    intros x y h. apply vir_rev2; auto.
  - intros a ha hc.
    apply (involutive virasoro_lie_ops double_scalar_ops double_domain dcomm double_conj_laws (vir_regular _ no_simp) vir_conf); auto.
    + intros x y h. apply vir_rev2; auto.
    + intros g. apply vir_invol1; auto.
    + intros m c i. eapply canonical_irr; eauto.
Qed.

(** ** Concrete cases: the hypotheses hold for the gamma matrices *)
Example C64_case : (forall x, conj_involutive gamma_ops cx_scalar_ops (generator_expr cx_scalar_ops x)) /\
  (forall x y, conj_reverses gamma_ops cx_scalar_ops (generator_expr cx_scalar_ops x) (generator_expr cx_scalar_ops y)) /\
  canonical gamma_ops gamma5 /\ stored_expr gamma_ops cx_scalar_ops gamma5.
Proof.
  assert (St : forall x, stored_expr gamma_ops cx_scalar_ops (generator_expr cx_scalar_ops x)).
  { intros x. split; [repeat constructor|apply (gx_nonzero cx_scalar_ops cx_domain)]. }
  destruct (C64_gamma _ _ cx_domain cx_comm cx_conj_laws) as [H1 H2].
  split; [|split; [|split]].
  - intros x. apply H2; auto. intros p a b s c [e|[]]. injection e as e _.
    destruct p as [|? [|? ?]]; discriminate.
  - intros x y. apply H1; auto.
  - intros p a b s c [e|[]]. injection e as e _. unfold rewritten. cbn.
    destruct p as [|? [|? [|? [|? ?]]]]; cbn in e; try discriminate;
      try (exfalso; apply (f_equal (@length Z)) in e; simpl in e; rewrite ?app_length in e; simpl in e; lia); inversion e; subst;
      (intros [h|h]; [vm_compute in h; discriminate|apply h; reflexivity]).
  - split; [repeat constructor|]. intros m c [e|[]]. injection e as <- <-. discriminate.
Qed.

Print Assumptions C64_conj_product.
Print Assumptions C64_conj_involutive.
Print Assumptions C64_gamma.
Print Assumptions C64_virasoro.
