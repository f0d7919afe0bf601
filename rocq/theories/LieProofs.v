(** Lie algebras: the products are associative iff the Jacobi identity holds
    for the generators. *)
From Coq Require Import ZArith Bool Lia List Sorted Wf_nat Ring.
From Verif Require Import ExprModel ExprSpec ExprOrder ExprMap ExprEval ExprLin LinSpec AssocSpec AssocProofs.
Import ListNotations.
Open Scope nat_scope.
Open Scope list_scope.

Section Lie.
Context {G S : Type} (go : gen_ops G) (so : scalar_ops S).
Context (D : scalar_domain so) (comm : forall x y, s_mul so x y = s_mul so y x).
Context (RA : regular_algebra go so).
Let L := sd_laws _ D.
Let Ho : gen_order go := ra_order _ _ RA.
Notation word := (list G).
Notation emap := (list (list G * S)).
Notation V := (V go so RA).
Notation NL := (NL go so).
Notation F := (F go so).
Notation ev := (ev so).
Notation gx := (generator_expr so).

Lemma Sring : ring_theory (s_zero so) (s_one so) (s_add so) (s_mul so) (s_sub so) (s_neg so) eq.
Proof.
  constructor; intros.
  - apply (sl_add_0 _ L).
  - apply (sl_add_comm _ L).
  - apply (sl_add_assoc _ L).
  - apply (sl_mul_1_l _ L).
  - apply comm.
  - apply (sl_mul_assoc _ L).
  - apply (sl_dist_r _ L).
  - apply (sl_sub _ L).
  - apply (sl_neg _ L).
Qed.
Add Ring Sring_ : Sring.

(** short words *)
Lemma conf2 w : length w <= 2 -> Conf go so RA w.
Proof.
  intros h k pre x y post ts -> hF. rewrite app_length in h. cbn [length] in h.
  destruct pre; [|simpl in h; lia]. destruct post; [|simpl in h; lia]. cbn [app] in *.
  apply (V_red go so D RA k [x; y] [] ts []). cbn [first_red]. now rewrite hF.
Qed.
Lemma M_length u w : M go u <= M go w -> length u <= length w.
Proof.
  intros h. destruct (le_lt_dec (length u) (length w)) as [|l]; auto.
  pose proof (M_shorter go w u l). lia.
Qed.
Lemma CB2 w : length w <= 2 -> CB go so RA (M go w).
Proof. intros h v hv. apply conf2. apply M_length in hv. lia. Qed.
Lemma nf2 w k : length w <= 2 -> nf go so w k = V k w.
Proof. intros h. apply (nf_V go so D RA). now apply CB2. Qed.

(** *** Coefficients of commutators *)
Lemma stored_sub a b : stored go so a -> stored go so b -> stored go so (e_sub go so a b).
Proof.
  intros ha hb. unfold e_sub. rewrite (sub_assign_add go so L).
  apply (stored_add go Ho so D a (neg_map so b) ha). split; [apply neg_map_sorted, hb|apply (neg_nonzero so L), hb].
Qed.
Lemma comm_exists a b : exists e, commutator go so a b e.
Proof.
  destruct (e_mul_ok go so RA a b) as [ab E1]. destruct (e_mul_ok go so RA b a) as [ba E2].
  exists (e_sub go so ab ba), ab, ba. auto.
Qed.
Lemma comm_coef a b e k : nonzero so a -> nonzero so b -> commutator go so a b e ->
  stored go so e /\ coef go so e k =
    s_sub so (ev (fun m => ev (fun n => nf go so (m ++ n) k) (fs b)) (fs a))
             (ev (fun m => ev (fun n => nf go so (n ++ m) k) (fs b)) (fs a)).
Proof.
  intros ha hb [ab [ba [E1 [E2 ->]]]].
  destruct (mul_coef go so D RA a b ab k ha hb E1) as [s1 k1].
  destruct (mul_coef go so D RA b a ba k hb ha E2) as [s2 k2].
  split; [now apply stored_sub|].
  unfold e_sub. rewrite (coef_sub_assign go Ho so L) by (apply s1 || apply s2).
  rewrite k1, k2, !(ev_wprod so D). f_equal. apply (ev_swap so D comm).
Qed.
Lemma gx_comm_coef x y e k : commutator go so (gx x) (gx y) e ->
  stored go so e /\ coef go so e k = s_sub so (V k [x; y]) (V k [y; x]).
Proof.
  intros E. destruct (comm_coef _ _ _ k (gx_nonzero so D x) (gx_nonzero so D y) E) as [s K]. split; auto.
  rewrite K, !fs_gx. cbn [AssocProofs.ev app]. rewrite !nf2 by (simpl; lia). ring.
Qed.
Lemma ev_sub phi psi (l : list (S * word)) : ev (fun u => s_sub so (phi u) (psi u)) l = s_sub so (ev phi l) (ev psi l).
Proof. induction l as [|[c u] l IH]; cbn [AssocProofs.ev]; [ring|]. rewrite IH. ring. Qed.
(** [e, z] when [e] is made of constants and single generators *)
Lemma comm_gx_coef e z p k : nonzero so e -> commutator go so e (gx z) p ->
  stored go so p /\ coef go so p k =
    ev (fun u => s_sub so (nf go so (u ++ [z]) k) (nf go so (z :: u) k)) (fs e).
Proof.
  intros h E. destruct (comm_coef _ _ _ k h (gx_nonzero so D z) E) as [s K]. split; auto.
  rewrite K, !fs_gx, ev_sub. cbn [AssocProofs.ev app].
  f_equal; apply ev_ext; intros c u _; ring.
Qed.

(** *** Associativity implies the Jacobi identity *)
Lemma jacobi_of_conf x y z : (forall w, Conf go so RA w) -> jacobi_identity go so (gx x) (gx y) (gx z).
Proof.
  intros HC.
  assert (HN : forall w k, nf go so w k = V k w) by (intros; apply (nf_V go so D RA); intros v _; apply HC).
  assert (AB : forall w k p s, ev (fun u => V k (p ++ u ++ s)) (NL w) = V k (p ++ w ++ s)).
  { intros w k p s. symmetry. apply (absorb go so D RA (Datatypes.S (M go (p ++ w ++ s)))); auto. }
  destruct (comm_exists (gx x) (gx y)) as [xy E1]. destruct (comm_exists (gx y) (gx z)) as [yz E2].
  destruct (comm_exists (gx z) (gx x)) as [zx E3].
  assert (KK : forall a b e c k p, commutator go so (gx a) (gx b) e -> commutator go so e (gx c) p ->
    stored go so p /\ coef go so p k =
      s_sub so (s_sub so (V k [a; b; c]) (V k [c; a; b])) (s_sub so (V k [b; a; c]) (V k [c; b; a]))).
  { intros a b e c k p Ea Ep.
    assert (Se : stored go so e) by apply (gx_comm_coef a b e k Ea).
    destruct (comm_gx_coef e c p k (proj2 Se) Ep) as [Sp K]. split; auto. rewrite K.
    assert (EV : forall phi, ev phi (fs e) = s_sub so (ev phi (NL [a; b])) (ev phi (NL [b; a]))).
    { intros phi. transitivity (ev phi (NL [a; b] ++ scale so (s_neg so (s_one so)) (NL [b; a]))).
      - apply (ev_coefs go so D RA). intros k'. change (ev (del go so RA k') (fs e)) with (tv so (del go so RA k') e).
        rewrite (tv_del go so D RA k' e (proj1 Se)). rewrite (proj2 (gx_comm_coef a b e k' Ea)).
        rewrite (ev_app so D), (ev_scale so D). unfold AssocProofs.V. ring.
      - rewrite (ev_app so D), (ev_scale so D). ring. }
    rewrite EV, !ev_sub. f_equal; f_equal.
    - transitivity (ev (fun u => V k ([] ++ u ++ [c])) (NL [a; b])); [apply ev_ext; intros; apply HN|rewrite AB; reflexivity].
    - transitivity (ev (fun u => V k ([c] ++ u ++ [])) (NL [a; b])); [apply ev_ext; intros; rewrite HN, app_nil_r; reflexivity|rewrite AB; reflexivity].
    - transitivity (ev (fun u => V k ([] ++ u ++ [c])) (NL [b; a])); [apply ev_ext; intros; apply HN|rewrite AB; reflexivity].
    - transitivity (ev (fun u => V k ([c] ++ u ++ [])) (NL [b; a])); [apply ev_ext; intros; rewrite HN, app_nil_r; reflexivity|rewrite AB; reflexivity]. }
  destruct (comm_exists xy (gx z)) as [p P1]. destruct (comm_exists yz (gx x)) as [q P2].
  destruct (comm_exists zx (gx y)) as [r P3].
  exists xy, yz, zx, p, q, r. split; [exact E1|]. split; [exact E2|]. split; [exact E3|]. split; [exact P1|]. split; [exact P2|]. split; [exact P3|].
  assert (S1 := proj1 (KK _ _ _ _ [] _ E1 P1)). assert (S2 := proj1 (KK _ _ _ _ [] _ E2 P2)).
  assert (S3 := proj1 (KK _ _ _ _ [] _ E3 P3)).
  assert (S12 := stored_add go Ho so D _ _ S1 S2).
  apply (stored_ext go Ho so D); [now apply (stored_add go Ho so D)|apply stored_nil|]. intros k.
  unfold e_add at 1. rewrite (coef_add_assign go Ho so L) by (apply S12 || apply S3).
  unfold e_add. rewrite (coef_add_assign go Ho so L) by (apply S1 || apply S2).
  rewrite (proj2 (KK _ _ _ _ k _ E1 P1)), (proj2 (KK _ _ _ _ k _ E2 P2)), (proj2 (KK _ _ _ _ k _ E3 P3)).
  rewrite coef_nil. ring.
Qed.

(** *** The Jacobi identity implies associativity *)
Context (LT : lie_type go).

(** the linear function in x y = y x + f, for x > y *)
Definition lf (x y : G) : list (S * word) := lf_sum so (snd (g_swap go x y)).
Lemma F_gt x y : g_gt go x y = true -> F x y = Some ((s_one so, [y; x]) :: lf x y).
Proof.
  intros h. unfold AssocProofs.F, lf. rewrite h. destruct (g_swap go x y) as [c f] eqn:E.
  rewrite (lt_swap _ LT _ _ _ _ h E). cbn [vn_eqb Z.eqb app snd]. unfold mkc at 1.
  rewrite (sl_make_int _ L), (zmul_1 so L). reflexivity.
Qed.
Lemma F_ngt x y : g_gt go x y = false -> F x y = None.
Proof. intros h. unfold AssocProofs.F. now rewrite h, (lt_simplify _ LT _ _ h). Qed.
Lemma gt_ngt x y : g_gt go x y = true -> g_gt go y x = false.
Proof. apply (gt_asym go so RA). Qed.
Lemma gt_tr x y z : g_gt go x y = true -> g_gt go y z = true -> g_gt go x z = true.
Proof.
  rewrite !(sto_gt _ _ _ Ho). intros h1 h2. eapply (sto_trans _ _ _ Ho); eauto.
Qed.
Lemma lf_short x y c u : In (c, u) (lf x y) -> length u <= 1.
Proof. apply lf_shapes. Qed.

(** one exchange inside a word, as the leftmost step *)
Lemma V_step k p x y s : first_red go so (p ++ x :: y :: s) = Some (p, (s_one so, [y; x]) :: lf x y, s) ->
  V k (p ++ x :: y :: s) = s_add so (V k (p ++ y :: x :: s)) (ev (fun u => V k (p ++ u ++ s)) (lf x y)).
Proof.
  intros h. rewrite (V_red go so D RA k _ _ _ _ h). cbn [AssocProofs.ev app]. ring.
Qed.
Lemma NL_gt x y : g_gt go x y = true -> forall phi, ev phi (NL [x; y]) =
  s_add so (phi [y; x]) (ev phi (lf x y)).
Proof.
  intros h phi. rewrite (NL2 go so RA x y _ (F_gt x y h)), (ev_bind so D). cbn [AssocProofs.ev].
  rewrite (NL_irr go so [y; x]) by (cbn [first_red]; now rewrite (F_ngt y x (gt_ngt _ _ h))). cbn [AssocProofs.ev].
  replace (ev (fun u => ev phi (NL u)) (lf x y)) with (ev phi (lf x y)); [ring|].
  apply ev_ext. intros c u i. apply lf_short in i.
  rewrite (NL_irr go so u); [cbn [AssocProofs.ev]; ring|]. destruct u as [|a [|b u]]; auto. simpl in i; lia.
Qed.

(** library commutators of generators *)
Lemma comm_value x y e : g_gt go x y = true ->
  (commutator go so (gx x) (gx y) e -> forall phi, ev phi (fs e) = ev phi (lf x y)) /\
  (commutator go so (gx y) (gx x) e -> forall phi, ev phi (fs e) = s_neg so (ev phi (lf x y))).
Proof.
  intros h.
  assert (K : forall k, V k [x; y] = s_add so (V k [y; x]) (ev (del go so RA k) (lf x y))).
  { intros k. unfold AssocProofs.V. rewrite (NL_gt x y h). f_equal.
    rewrite (NL_irr go so [y; x]) by (cbn [first_red]; now rewrite (F_ngt y x (gt_ngt _ _ h))). cbn [AssocProofs.ev]. ring. }
  split; intros E phi.
  - apply (ev_coefs go so D RA). intros k. change (ev (del go so RA k) (fs e)) with (tv so (del go so RA k) e).
    destruct (gx_comm_coef x y e k E) as [s q]. rewrite (tv_del go so D RA k e (proj1 s)), q, K. ring.
  - transitivity (ev phi (scale so (s_neg so (s_one so)) (lf x y))); [|rewrite (ev_scale so D); ring].
    apply (ev_coefs go so D RA). intros k. change (ev (del go so RA k) (fs e)) with (tv so (del go so RA k) e).
    destruct (gx_comm_coef y x e k E) as [s q]. rewrite (tv_del go so D RA k e (proj1 s)), q, K, (ev_scale so D). ring.
Qed.
Lemma comm_short x y e : g_gt go x y = true ->
  commutator go so (gx x) (gx y) e \/ commutator go so (gx y) (gx x) e ->
  forall c u, In (c, u) (fs e) -> length u <= 1.
Proof.
  intros h E c u i.
  assert (Se : stored go so e) by (destruct E as [E|E]; eapply (gx_comm_coef _ _ _ [] E)).
  assert (N : coef go so e u <> s_zero so).
  { unfold fs in i. apply in_map_iff in i. destruct i as [[u' c'] [e1 i]]. cbn [fst snd] in e1. injection e1 as -> ->.
    unfold coef. rewrite (proj2 (find_In go Ho u c e (proj1 Se)) i). exact (proj2 Se _ _ i). }
  rewrite <- (tv_del go so D RA u e (proj1 Se)) in N. unfold tv in N.
  assert (N2 : ev (del go so RA u) (lf x y) <> s_zero so).
  { intros Z. apply N. destruct E as [E|E].
    - rewrite (proj1 (comm_value x y e h) E). exact Z.
    - rewrite (proj2 (comm_value x y e h) E), Z. ring. }
  destruct (ev_del_In go so D RA u _ N2) as [d j]. exact (lf_short _ _ _ _ j).
Qed.

Lemma res_of_jacobi x y z : g_gt go x y = true -> g_gt go y z = true ->
  jacobi_identity go so (gx x) (gx y) (gx z) -> Res go so RA x y z.
Proof.
  intros h1 h2 [xy [yz [zx [p [q [r [E1 [E2 [E3 [P1 [P2 [P3 J]]]]]]]]]]]] k.
  pose proof (gt_tr _ _ _ h1 h2) as h3.
  rewrite (NL_gt x y h1), (NL_gt y z h2). cbn [app].
  pose proof (F_ngt _ _ (gt_ngt _ _ h1)) as N1. pose proof (F_ngt _ _ (gt_ngt _ _ h2)) as N2.
  pose proof (F_ngt _ _ (gt_ngt _ _ h3)) as N3.
  pose proof (F_gt _ _ h1) as G1. pose proof (F_gt _ _ h2) as G2. pose proof (F_gt _ _ h3) as G3.
  (* y x z -> y z x -> z y x *)
  pose proof (V_step k [y] x z []) as A1. cbn [app] in A1. rewrite !first_red_cons, N1, G3 in A1. specialize (A1 eq_refl).
  pose proof (V_step k [] y z [x]) as A2. cbn [app] in A2. rewrite !first_red_cons, G2 in A2. specialize (A2 eq_refl).
  (* x z y -> z x y -> z y x *)
  pose proof (V_step k [] x z [y]) as B1. cbn [app] in B1. rewrite !first_red_cons, G3 in B1. specialize (B1 eq_refl).
  pose proof (V_step k [z] x y []) as B2. cbn [app] in B2. rewrite !first_red_cons, N3, G1 in B2. specialize (B2 eq_refl).
  rewrite A1, A2, B1, B2. clear A1 A2 B1 B2.
  assert (Q : forall a b e c m, g_gt go a b = true -> commutator go so (gx a) (gx b) e \/ commutator go so (gx b) (gx a) e ->
    commutator go so e (gx c) m -> stored go so m /\
    coef go so m k = ev (fun u => s_sub so (V k (u ++ [c])) (V k (c :: u))) (fs e)).
  { intros a b e c m h E Em.
    assert (Se : stored go so e) by (destruct E as [E|E]; eapply (gx_comm_coef _ _ _ [] E)).
    destruct (comm_gx_coef e c m k (proj2 Se) Em) as [Sm K]. split; auto. rewrite K. apply ev_ext. intros d u i.
    pose proof (comm_short a b e h E d u i). rewrite !nf2; auto; [simpl; lia|rewrite app_length; simpl; lia]. }
  destruct (Q x y xy z p h1 (or_introl E1) P1) as [S1 K1].
  destruct (Q y z yz x q h2 (or_introl E2) P2) as [S2 K2].
  destruct (Q x z zx y r h3 (or_intror E3) P3) as [S3 K3].
  rewrite (proj1 (comm_value x y xy h1) E1), ev_sub in K1.
  rewrite (proj1 (comm_value y z yz h2) E2), ev_sub in K2.
  rewrite (proj2 (comm_value x z zx h3) E3), ev_sub in K3.
  assert (S12 := stored_add go Ho so D _ _ S1 S2).
  assert (K : s_add so (s_add so (coef go so p k) (coef go so q k)) (coef go so r k) = s_zero so).
  { rewrite <- (coef_nil go so k). pose proof (f_equal (fun e => coef go so e k) J) as Z. cbv beta in Z.
    unfold e_add at 1 in Z. rewrite (coef_add_assign go Ho so L) in Z by (apply S12 || apply S3).
    unfold e_add in Z. rewrite (coef_add_assign go Ho so L) in Z by (apply S1 || apply S2). exact Z. }
  rewrite K1, K2, K3 in K.
  assert (AA : forall l : list (S * word), ev (fun u => V k (y :: u ++ [])) l = ev (fun u => V k (y :: u)) l)
    by (intros l; apply ev_ext; intros; now rewrite app_nil_r).
  assert (BB : forall l : list (S * word), ev (fun u => V k (z :: u ++ [])) l = ev (fun u => V k (z :: u)) l)
    by (intros l; apply ev_ext; intros; now rewrite app_nil_r).
  cbn [app]. rewrite AA, BB.
  match goal with |- ?l = ?r => assert (X : s_sub so l r = s_zero so) end.
  { etransitivity; [|exact K]. ring. }
  match goal with |- ?l = ?r => transitivity (s_add so (s_sub so l r) r) end; [ring|]. rewrite X. ring.
Qed.

Lemma assoc_of_jacobi : (forall x y z, jacobi_identity go so (gx x) (gx y) (gx z)) ->
  forall a b c : emap, nonzero so a -> nonzero so b -> nonzero so c -> associates go so a b c.
Proof.
  intros HJ. apply (assoc_res go so D comm RA). intros x y z h1 h2. apply res_of_jacobi; auto.
  - destruct (g_gt go x y) eqn:E; auto. rewrite (F_ngt x y E) in h1. congruence.
  - destruct (g_gt go y z) eqn:E; auto. rewrite (F_ngt y z E) in h2. congruence.
Qed.
End Lie.
