(** Expressions reachable through the public operations: canonical form,
    coefficient-wise behaviour and value. *)
From Coq Require Import ZArith Bool Lia List Sorted Permutation.
From Verif Require Import ExprModel ExprSpec ExprOrder ExprMap ExprEval ExprStd ExprCanon.
Import ListNotations.
Open Scope nat_scope.
Open Scope list_scope.

Section Main.
Context {I : Type} (io : index_ops I) (Hio : index_order io).
Notation go := (std_gen_ops io).

Lemma std_order : gen_order go.
Proof. exact (gen_sto io Hio). Qed.

Lemma std_canon B : spin_consistent B -> alg_canon go (admissible B).
Proof.
  intros HB. constructor.
  - (* detect *)
    intros a b c f Pa Pb Hlt Hs Es. simpl in *.
    destruct a as [d i|d i|m cc i], b as [d' j|d' j|m' cc' j]; simpl in Hs; try congruence.
    + destruct (gen_eqb io (GFermion d i) (GFermion d' j)) eqn:E; [|congruence].
      apply (gen_eqb_eq io Hio) in E. rewrite E in Hlt.
      rewrite (sto_irrefl _ _ _ (gen_sto io Hio)) in Hlt. discriminate.
    + destruct (base_equal io (GSpin m cc i) (GSpin m' cc' j)) eqn:Eb; [|simpl in Hs; congruence].
      destruct (Nat.eqb_spec m 2) as [e|]; [|simpl in Hs; congruence]. subst m.
      apply (base_eq_idx io Hio) in Eb. simpl in Eb. subst j.
      assert (m' = 2).
      { destruct Pa as [c1 i1], Pb as [c2 i2]. eapply (proj1 HB); eauto. }
      subst m'. simpl in Es.
      assert (X : base_equal io (GSpin 2 cc' i) (GSpin 2 cc i) = true) by now apply (base_eq_idx io Hio).
      rewrite X in Es. simpl in Es. now inversion Es.
  - (* swap *)
    intros a b c f Pa Pb Hgt Es. simpl in *.
    destruct a as [d i|d i|m cc i], b as [d' j|d' j|m' cc' j]; simpl in Es;
      try (inversion Es; subst; split; [constructor|split; [constructor|reflexivity]]; fail).
    destruct (base_equal io (GSpin m cc i) (GSpin m' cc' j)) eqn:Eb; simpl in Es;
      [|inversion Es; subst; split; [constructor|split; [constructor|reflexivity]]; fail].
    destruct (Nat.eqb m m'); simpl in Es;
      [|inversion Es; subst; split; [constructor|split; [constructor|reflexivity]]; fail].
    destruct (Nat.eqb m 2); simpl in Es; destruct cc, cc'; inversion Es; subst;
      (split; [repeat constructor; auto|split; [repeat constructor|intros q; simpl in q; try discriminate; reflexivity]]).
  - (* simplify *)
    intros a b f Pa Pb Hgt Es. simpl in *.
    destruct a as [d i|d i|m cc i], b as [d' j|d' j|m' cc' j]; simpl in Es; try discriminate.
    + destruct (gen_eqb io (GFermion d i) (GFermion d' j)); inversion Es; subst. split; constructor.
    + destruct (negb _ || negb _); [discriminate|]. inversion Es; subst.
      destruct cc, cc'; simpl; split; repeat constructor; auto.
  - intros a n f Pa Er. simpl in *. destruct a as [d i|d i|m cc i]; simpl in Er; try discriminate.
    destruct (negb (comp_eqb cc Zcomp) && (m <=? n)); inversion Er. reflexivity.
  - intros a n n' Er Hn. simpl in *. destruct a as [d i|d i|m cc i]; simpl in *; try congruence.
    destruct (comp_eqb cc Zcomp); simpl in *; try congruence.
    destruct (Nat.leb_spec m n); [|congruence]. destruct (Nat.leb_spec m n'); [discriminate|lia].
Qed.

(** *** canonical forms *)
Lemma gle_before g h : gle go g h <-> gen_before_eq io g h.
Proof.
  unfold gle, gen_before_eq. simpl. split.
  - intros E. destruct (gen_before_total io Hio g h) as [K|[K|K]]; auto.
    apply (gen_before_ltb io Hio) in K. congruence.
  - intros [->|K].
    + apply (sto_irrefl _ _ _ (gen_sto io Hio)).
    + apply (gen_before_ltb io Hio) in K. now apply (sto_asym (gen_sto io Hio)).
Qed.

Lemma canon_canonical m : canon go m -> canonical_mono io m.
Proof.
  intros [h1 h2]. split; [|split].
  - assert (Sorted (gen_before_eq io) m).
    { clear h2. induction h1 as [|a l h IH hd]; constructor; auto.
      inversion hd as [|? ? q]; subst; constructor. apply gle_before, q. }
    apply Sorted_StronglySorted; auto.
    intros x y z [->|h3] [->|h4]; unfold gen_before_eq; auto.
    right. eapply (gen_before_trans io Hio); eauto.
  - intros pre g h post -> C.
    assert (K : okpair go g h).
    { clear h2 C. induction pre as [|x pre IH]; simpl in h1.
      - inversion h1 as [|? ? h3 h4]; subst. inversion h4; subst. auto.
      - inversion h1; subst. auto. }
    destruct K as [_ K]. simpl in K. destruct C as [d i|c c' i]; simpl in K.
    + rewrite (proj2 (gen_eqb_eq io Hio _ _) eq_refl) in K. discriminate.
    + assert (X : base_equal io (GSpin 2 c i) (GSpin 2 c' i) = true) by now apply (base_eq_idx io Hio).
      rewrite X in K. discriminate.
  - intros [pre [post [mu [c [i [n [Hc [Hn [Hn2 E]]]]]]]]].
    specialize (h2 pre (GSpin mu c i) n post E Hn2). simpl in h2.
    destruct (comp_eqb c Zcomp) eqn:Ec.
    + apply Hc. destruct c; simpl in Ec; try discriminate; auto.
    + simpl in h2. destruct (Nat.leb_spec mu n); [discriminate|lia].
Qed.

Lemma mono_lt_before m n : mono_lt go m n = true <-> mono_before io m n.
Proof.
  unfold mono_lt, mono_before.
  assert (K : forall m n, length m = length n -> (lex_compare (g_lt go) m n = true <-> lex_before io m n)).
  { clear m n. induction m as [|g m IH]; intros [|h n] E; simpl in *; try lia.
    - split; [discriminate|inversion 1].
    - destruct (gen_ltb io g h) eqn:E1.
      + split; auto. intros _. apply lb_here. now apply (gen_before_ltb io Hio).
      + destruct (gen_ltb io h g) eqn:E2.
        * split; [discriminate|]. inversion 1; subst.
          -- apply (gen_before_ltb io Hio) in H1. congruence.
          -- rewrite (sto_irrefl _ _ _ (gen_sto io Hio)) in E2. discriminate.
        * assert (g = h) by (eapply (sto_eq_of (gen_sto io Hio)); eauto). subst h.
          rewrite IH by lia. split; [apply lb_next|].
          inversion 1; subst; auto. exfalso; eapply (gen_before_irrefl io Hio); eauto. }
  destruct (Nat.eqb_spec (length m) (length n)) as [e|ne]; simpl.
  - rewrite K by auto. split; auto. intros [h|[_ h]]; auto; lia.
  - rewrite Nat.ltb_lt. split; auto. intros [h|[h _]]; auto; lia.
Qed.

Context {S : Type} (so : scalar_ops S).
Notation emap := (list (list (gen I) * S)).

Lemma msorted_before (e : emap) : msorted go e <-> StronglySorted (mono_before io) (map fst e).
Proof.
  unfold msorted. generalize (map fst e). intros l. split.
  - induction 1 as [|a l h IH hd]; constructor; auto.
    rewrite Forall_forall in *. intros x i. apply mono_lt_before, hd, i.
  - induction 1 as [|a l h IH hd]; constructor; auto.
    rewrite Forall_forall in *. intros x i. apply mono_lt_before, hd, i.
Qed.

Lemma inv_canonical B (e : emap) : inv go so (admissible B) e -> canonical_expr io so e.
Proof.
  intros [h1 [h2 h3]]. split.
  - now apply msorted_before.
  - intros m c i. split; [|eapply h2; eauto]. apply canon_canonical. eapply h3; eauto.
Qed.

Lemma canonical_wf (e : emap) : canonical_expr io so e -> msorted go e /\ nonzero so e.
Proof.
  intros [h1 h2]. split; [now apply msorted_before|]. intros m c i. eapply h2; eauto.
Qed.

(** *** Reachable expressions *)
Context (D : scalar_domain so) (CL : conj_laws so).
Let L := sd_laws _ D.

(** [built B e]: [e] is obtained by finitely many public operations from
    scalars and from monomials over the generators [B]. *)
Inductive built (B : list (gen I)) : emap -> Prop :=
| b_scalar : forall x, built B (e_const so x)
| b_mono : forall x m e, incl m B -> e_mono go so x m = Ok e -> built B e
| b_add : forall a b, built B a -> built B b -> built B (e_add go so a b)
| b_sub : forall a b, built B a -> built B b -> built B (e_sub go so a b)
| b_mul : forall a b e, built B a -> built B b -> e_mul go so a b = Ok e -> built B e
| b_neg : forall a, built B a -> built B (e_neg so a)
| b_mul_const : forall a x, built B a -> built B (e_mul_const_post so a x)
| b_const_mul : forall a x, built B a -> built B (e_mul_const_pre so x a)
| b_add_const : forall a x, built B a -> built B (e_add_const go so a x)
| b_add_assign_const : forall a x, built B a -> built B (e_add_assign_const go so a x)
| b_sub_const : forall a x, built B a -> built B (e_sub_const go so a x)
| b_const_sub : forall a x, built B a -> built B (e_const_sub go so x a)
| b_conj : forall a e, built B a -> e_conj go so a = Ok e -> built B e
| b_transform : forall a f, built B a -> built B (e_transform go so f a).

Lemma conj_zero x : s_conj so x = s_zero so <-> x = s_zero so.
Proof.
  assert (Z : s_conj so (s_zero so) = s_zero so).
  { pose proof (cl_add _ CL (s_zero so) (s_zero so)) as E.
    rewrite (sl_add_0 _ L) in E. symmetry.
    apply (s_add_cancel so L (s_conj so (s_zero so))). rewrite <- E. apply (s_add_0_r so L). }
  split; [|intros ->; auto]. intros E. rewrite <- (cl_invol _ CL x), E. auto.
Qed.

Section Inv.
Context (B : list (gen I)) (HB : spin_consistent B).
Notation inv := (inv go so (admissible B)).
Let AC := std_canon B HB.

Lemma adm_incl m : incl m B -> Forall (admissible B) m.
Proof.
  intros h. pose proof (admissible_self B) as K. rewrite Forall_forall in *. auto.
Qed.

Lemma mul_const_inv (f : S -> S) a : (forall x, x <> s_zero so -> f x <> s_zero so) ->
  inv a -> inv (map (fun p => (fst p, f (snd p))) a).
Proof. intros. apply inv_map; auto. Qed.

Lemma add_const_inv a x : inv a -> x <> s_zero so -> inv (add_entry go so ([], x) a).
Proof. intros. apply (inv_ins go std_order so D); auto. apply canon_nil. Qed.

Lemma linfun_terms_inv ts : forall e e', Forall (fun t => admissible B (fst t)) ts -> inv e ->
  linfun_terms go so ts e = Ok e' -> inv e'.
Proof.
  induction ts as [|[g v] ts IH]; simpl; intros e e' h1 hi E.
  - inversion E; subst; auto.
  - inversion h1 as [|? ? a1 a2]; subst. simpl in a1.
    destruct (s_make so v) as [x|]; [|discriminate].
    destruct (s_is_zero so x); [eapply IH; eauto|].
    destruct (e_mono go so x [g]) as [d| |] eqn:Ed; try discriminate. simpl in E.
    eapply IH; [exact a2| |exact E].
    apply (inv_add go std_order so D); auto.
    eapply (e_mono_inv go std_order so D _ AC); [|exact Ed]. auto.
Qed.

Lemma e_linfun_inv f e : closed (admissible B) f -> e_linfun go so f = Ok e -> inv e.
Proof.
  unfold e_linfun, closed. intros h E.
  destruct (vn_is_zero (const_term f)) eqn:Z; simpl in E.
  - eapply linfun_terms_inv; eauto. apply inv_nil.
  - destruct (s_make so (const_term f)) as [x|] eqn:Ex; [|discriminate]. simpl in E.
    eapply linfun_terms_inv; eauto.
    change [([], x)] with (add_entry go so (@nil (gen I), x) []).
    apply add_const_inv; [apply inv_nil|]. eapply (sd_const _ D); eauto.
Qed.

Lemma conj_closed g : admissible B g -> closed (admissible B) (g_conj go g).
Proof.
  intros h. unfold closed. simpl. constructor; auto. simpl.
  destruct g as [d i|d i|m c i]; simpl in *; auto.
Qed.

Lemma conj_mono_inv m : forall a e, Forall (admissible B) m -> inv a ->
  conj_mono go so m a = Ok e -> inv e.
Proof.
  induction m as [|g m IH]; intros a e h1 hi E.
  - simpl in E. inversion E; subst; auto.
  - inversion h1 as [|? ? a1 a2]; subst.
    cbn [conj_mono] in E.
    destruct (e_linfun go so (g_conj go g)) as [ef| |] eqn:Ef; try discriminate. cbn [rbind] in E.
    destruct (e_mul go so a ef) as [a'| |] eqn:Em; try discriminate. cbn [rbind] in E.
    eapply IH; [exact a2| |exact E].
    eapply (e_mul_inv go std_order so D _ AC); [exact hi| |exact Em].
    eapply e_linfun_inv; [|exact Ef]. now apply conj_closed.
Qed.

Lemma conj_loop_inv : forall e mc out r, inv mc -> inv out ->
  (forall m c, In (m, c) e -> Forall (admissible B) m) ->
  conj_loop go so e mc out = Ok r -> inv r.
Proof.
  induction e as [|[m x] e IH]; intros mc out r hm ho he E.
  - simpl in E. inversion E; subst; auto.
  - cbn [conj_loop] in E.
    match type of E with rbind ?r _ = _ => destruct r as [ct| |] eqn:Ec end; try discriminate.
    cbn [rbind] in E.
    assert (inv ct).
    { destruct (s_is_zero so (s_conj so x)); [inversion Ec; subst; auto|].
      eapply conj_mono_inv; [|apply (e_const_inv go std_order so D)|exact Ec].
      apply Forall_rev. eapply he; left; eauto. }
    eapply IH; [| | |exact E]; auto.
    + apply (inv_add go std_order so D); auto.
    + intros; eapply he; right; eauto.
Qed.

Lemma e_conj_inv a e : inv a -> e_conj go so a = Ok e -> inv e.
Proof.
  intros h. apply conj_loop_inv; auto using inv_nil. intros; eapply h; eauto.
Qed.

(** transform of a sorted map appends *)
Lemma transform_app {S'} (so' : scalar_ops S') (f : list (gen I) -> S -> S') : forall e r,
  msorted go e -> (forall m c m' c', In (m, c) r -> In (m', c') e -> mono_lt go m m' = true) ->
  fold_left (fun r p => let v := f (fst p) (snd p) in
                        if s_is_zero so' v then r else fst (map_emplace go (fst p) v r)) e r
  = r ++ filter (fun p => negb (s_is_zero so' (snd p)))
                (map (fun p => (fst p, f (fst p) (snd p))) e).
Proof.
  induction e as [|[m x] e IH]; simpl; intros r hs hr.
  - now rewrite app_nil_r.
  - apply (msorted_inv go) in hs. destruct hs as [hs1 hs2].
    destruct (s_is_zero so' (f m x)) eqn:Z; simpl.
    + apply IH; eauto.
    + rewrite put_end by eauto. rewrite IH; auto.
      * now rewrite <- app_assoc.
      * intros m1 c1 m2 c2 i1 i2. apply in_app_iff in i1. destruct i1 as [i1|[i1|[]]]; eauto.
        inversion i1; subst. eauto.
Qed.

Lemma transform_eq {S'} (so' : scalar_ops S') (f : list (gen I) -> S -> S') e : msorted go e ->
  e_transform go so' f e = filter (fun p => negb (s_is_zero so' (snd p)))
                (map (fun p => (fst p, f (fst p) (snd p))) e).
Proof. intros h. unfold e_transform. rewrite transform_app; auto; intros ? ? ? ? []. Qed.

Lemma transform_inv (f : list (gen I) -> S -> S) e : inv e -> inv (e_transform go so f e).
Proof.
  intros h. rewrite transform_eq by apply h.
  assert (HI : forall m c, In (m, c) (filter (fun p => negb (s_is_zero so (snd p)))
     (map (fun p => (fst p, f (fst p) (snd p))) e)) -> (exists c0, In (m, c0) e) /\ c <> s_zero so).
  { intros m c i. apply filter_In in i. destruct i as [i z]. apply in_map_iff in i.
    destruct i as [[m' c'] [E i]]. injection E as E1 E2. simpl in *. subst m'. split; eauto.
    apply (s_is_zero_false so L). now destruct (s_is_zero so c). }
  apply (inv_keys go so _ e h).
  - destruct h as [h1 _]. clear HI. induction e as [|[m x] e IH]; simpl; [constructor|].
    apply (msorted_inv go) in h1. destruct h1 as [h1 h2].
    destruct (negb (s_is_zero so (f m x))); auto. simpl. apply msorted_cons; auto.
    intros m' c' i. apply filter_In in i. destruct i as [i _]. apply in_map_iff in i.
    destruct i as [[m1 c1] [E i]]. injection E as E1 E2. simpl in E1. subst m1. eauto.
  - intros m c i. eapply HI; eauto.
  - intros m c i. destruct (HI m c i) as [[c0 j] _]. apply in_map_iff. exists (m, c0); auto.
Qed.

Lemma built_inv e : built B e -> inv e.
Proof.
  pose proof (inv_nil go so (admissible B)) as Hnil.
  induction 1 as [x|x m e Hm E|a b _ IHa _ IHb|a b _ IHa _ IHb|a b e _ IHa _ IHb E|a _ IHa
     |a x _ IHa|a x _ IHa|a x _ IHa|a x _ IHa|a x _ IHa|a x _ IHa|a e _ IHa E|a f _ IHa].
  - apply (e_const_inv go std_order so D).
  - eapply (e_mono_inv go std_order so D _ AC); [apply adm_incl; eauto|exact E].
  - apply (inv_add go std_order so D); auto.
  - apply (inv_sub go std_order so D); auto.
  - eapply (e_mul_inv go std_order so D _ AC); [| |exact E]; auto.
  - apply (inv_neg go so D); auto.
  - unfold e_mul_const_post. destruct (s_is_zero so x) eqn:Z; auto.
    apply (mul_const_inv (fun y => s_mul so y x)); auto.
    intros y hy. apply (mul_nz so D); auto. now apply (s_is_zero_false so L).
  - unfold e_mul_const_pre. destruct (s_is_zero so x) eqn:Z; auto.
    apply (mul_const_inv (fun y => s_mul so x y)); auto.
    intros y hy. apply (mul_nz so D); auto. now apply (s_is_zero_false so L).
  - rewrite add_const_ins. destruct (s_is_zero so x) eqn:Z; auto.
    apply add_const_inv; auto. now apply (s_is_zero_false so L).
  - rewrite (add_assign_const_ins go so L), add_const_ins. destruct (s_is_zero so x) eqn:Z; auto.
    apply add_const_inv; auto. now apply (s_is_zero_false so L).
  - rewrite (sub_const_ins go so L). destruct (s_is_zero so x) eqn:Z; auto.
    apply add_const_inv; auto. intros E. apply (proj1 (s_neg_zero_iff so L _)) in E.
    apply (s_is_zero_false so L) in Z. contradiction.
  - unfold e_const_sub. rewrite add_const_ins.
    assert (K : inv (map (fun p => (fst p, s_sub so (s_zero so) (snd p))) a)).
    { apply (mul_const_inv (fun y => s_sub so (s_zero so) y)); auto.
      intros y hy E. rewrite (s_sub_0_l so L) in E. apply (proj1 (s_neg_zero_iff so L _)) in E. auto. }
    destruct (s_is_zero so x) eqn:Z; auto.
    apply add_const_inv; auto. now apply (s_is_zero_false so L).
  - eapply e_conj_inv; eauto.
  - apply transform_inv; auto.
Qed.
End Inv.

End Main.
