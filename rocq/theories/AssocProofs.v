(** C61: if the products of three generators are associative, all products are.
    Proof: normalization is a terminating rewriting system on words; all its
    reductions agree (diamond lemma), so the normal form of a word does not
    depend on the order of rewriting. *)
From Coq Require Import ZArith Bool Lia List Sorted Wf_nat.
From Verif Require Import ExprModel ExprSpec ExprOrder ExprMap ExprEval ExprCanon ExprThrow ExprLin LinSpec AssocSpec.
Import ListNotations.
Open Scope nat_scope.
Open Scope list_scope.

Section Assoc.
Context {G S : Type} (go : gen_ops G) (so : scalar_ops S).
Context (D : scalar_domain so) (comm : forall x y, s_mul so x y = s_mul so y x).
Context (RA : regular_algebra go so).
Let L := sd_laws _ D.
Let Ho : gen_order go := ra_order _ _ RA.
Notation word := (list G).
Declare Scope as_scope.
Notation "0" := (s_zero so) : as_scope.
Notation "1" := (s_one so) : as_scope.
Infix "+" := (s_add so) : as_scope.
Infix "*" := (s_mul so) : as_scope.
Delimit Scope as_scope with l.

(** *** Formal sums *)
Notation fsum := (list (S * word)).
Fixpoint ev (phi : word -> S) (l : fsum) : S :=
  match l with [] => s_zero so | (c, u) :: l' => (c * phi u + ev phi l')%l end.
Definition scale (c : S) (l : fsum) : fsum := map (fun p => (s_mul so c (fst p), snd p)) l.
Definition bindf (l : fsum) (F : word -> fsum) : fsum := flat_map (fun p => scale (fst p) (F (snd p))) l.

Lemma ev_app phi a b : ev phi (a ++ b) = (ev phi a + ev phi b)%l.
Proof.
  induction a as [|[c u] a IH]; simpl; [now rewrite (sl_add_0 _ L)|]. now rewrite IH, (sl_add_assoc _ L).
Qed.
Lemma ev_scale phi c l : ev phi (scale c l) = (c * ev phi l)%l.
Proof.
  induction l as [|[d u] l IH]; simpl; [now rewrite (s_mul_0_r so L)|].
  now rewrite IH, (sl_dist_l _ L), (sl_mul_assoc _ L).
Qed.
Lemma ev_bind phi l F : ev phi (bindf l F) = ev (fun u => ev phi (F u)) l.
Proof.
  induction l as [|[c u] l IH]; simpl; auto. now rewrite ev_app, ev_scale, <- IH.
Qed.
Lemma ev_ext phi psi l : (forall c u, In (c, u) l -> phi u = psi u) -> ev phi l = ev psi l.
Proof.
  induction l as [|[c u] l IH]; simpl; intros h; auto. rewrite (h c u) by auto. rewrite IH; auto.
  intros; eapply h; eauto.
Qed.
Lemma ev_add phi psi l : ev (fun u => phi u + psi u)%l l = (ev phi l + ev psi l)%l.
Proof.
  induction l as [|[c u] l IH]; simpl; [now rewrite (sl_add_0 _ L)|].
  rewrite IH, (sl_dist_l _ L). rewrite <- !(sl_add_assoc _ L). f_equal. rewrite !(sl_add_assoc _ L). f_equal. apply (sl_add_comm _ L).
Qed.
Lemma ev_mul phi x l : ev (fun u => x * phi u)%l l = (x * ev phi l)%l.
Proof.
  induction l as [|[c u] l IH]; simpl; [now rewrite (s_mul_0_r so L)|].
  rewrite IH, (sl_dist_l _ L), !(sl_mul_assoc _ L). now rewrite (comm c x).
Qed.
Lemma ev_zero l : ev (fun _ => s_zero so) l = s_zero so.
Proof. induction l as [|[c u] l IH]; simpl; auto. now rewrite IH, (s_mul_0_r so L), (sl_add_0 _ L). Qed.
(** exchange of two sums *)
Lemma ev_swap (phi : word -> word -> S) l l' :
  ev (fun u => ev (fun v => phi u v) l') l = ev (fun v => ev (fun u => phi u v) l) l'.
Proof.
  induction l as [|[c u] l IH]; simpl.
  - now rewrite ev_zero.
  - rewrite IH, <- ev_mul, <- ev_add. reflexivity.
Qed.

(** coefficients determine the value *)
Definition wdec : forall u v : word, {u = v} + {u <> v} := mono_dec go Ho.
Definition del (k u : word) : S := if wdec u k then s_one so else s_zero so.
Lemma ev_del_remove phi k (l : fsum) :
  ev phi l = (ev (del k) l * phi k + ev phi (filter (fun p => if wdec (snd p) k then false else true) l))%l.
Proof.
  induction l as [|[c u] l IH]; simpl.
  - now rewrite (s_mul_0_l so L), (sl_add_0 _ L).
  - rewrite IH. unfold del at 2. destruct (wdec u k) as [->|n]; simpl.
    + rewrite (sl_mul_1_r _ L), (sl_dist_r _ L). now rewrite !(sl_add_assoc _ L).
    + rewrite (s_mul_0_r so L), (sl_add_0 _ L). rewrite !(sl_add_assoc _ L). f_equal. apply (sl_add_comm _ L).
Qed.
Lemma ev_del_filter k k' (l : fsum) : k' <> k ->
  ev (del k') (filter (fun p => if wdec (snd p) k then false else true) l) = ev (del k') l.
Proof.
  intros n. induction l as [|[c u] l IH]; simpl; auto.
  destruct (wdec u k) as [->|]; simpl; rewrite IH; auto.
  unfold del at 2. destruct (wdec k k') as [->|]; [congruence|]. now rewrite (s_mul_0_r so L), (sl_add_0 _ L).
Qed.
Lemma ev_del_filter_same k (l : fsum) :
  ev (del k) (filter (fun p => if wdec (snd p) k then false else true) l) = s_zero so.
Proof.
  induction l as [|[c u] l IH]; simpl; auto.
  destruct (wdec u k) as [->|n]; simpl; auto. rewrite IH. unfold del. destruct (wdec u k); [contradiction|].
  now rewrite (s_mul_0_r so L), (sl_add_0 _ L).
Qed.
Lemma filter_len {A} (f : A -> bool) l : length (filter f l) <= length l.
Proof. induction l; simpl; auto. destruct (f a); simpl; lia. Qed.
Lemma ev_zero_coefs phi : forall n (l : fsum), length l <= n -> (forall k, ev (del k) l = s_zero so) ->
  ev phi l = s_zero so.
Proof.
  induction n as [|n IH]; intros l hl h.
  - destruct l; simpl in *; auto. lia.
  - destruct l as [|[c u] l]; auto.
    rewrite (ev_del_remove phi u), h, (s_mul_0_l so L), (sl_add_0 _ L). apply IH.
    + simpl. destruct (wdec u u); [|congruence]. pose proof (filter_len (fun p : S * word => if wdec (snd p) u then false else true) l).
      simpl in hl. lia.
    + intros k. destruct (wdec k u) as [->|n1].
      * apply ev_del_filter_same.
      * rewrite ev_del_filter; auto.
Qed.
Lemma ev_coefs phi (l l' : fsum) : (forall k, ev (del k) l = ev (del k) l') -> ev phi l = ev phi l'.
Proof.
  intros h. assert (K : ev phi (l ++ scale (s_neg so (s_one so)) l') = s_zero so).
  { eapply ev_zero_coefs; [reflexivity|]. intros k. rewrite ev_app, ev_scale, (h k).
    rewrite (s_mul_neg_l so L), (sl_mul_1_l _ L). apply (sl_neg _ L). }
  rewrite ev_app, ev_scale, (s_mul_neg_l so L), (sl_mul_1_l _ L) in K.
  apply (s_neg_unique so L) in K. rewrite <- (s_neg_neg so L (ev phi l)), <- K.
  apply (s_neg_neg so L).
Qed.

(** *** One rewriting step *)
Definition mkc (v : var_number) : S := match s_make so v with Some x => x | None => s_zero so end.
Definition lf_sum (f : linfun G) : fsum :=
  (if vn_is_zero (const_term f) then [] else [(mkc (const_term f), [])]) ++
  map (fun p => (mkc (snd p), [fst p])) (terms f).
Definition F (x y : G) : option fsum :=
  if g_gt go x y then
    let (c, f) := g_swap go x y in
    Some ((if vn_eqb c (VInt 0) then [] else [(mkc c, [y; x])]) ++ lf_sum f)
  else match g_simplify go x y with Some f => Some (lf_sum f) | None => None end.

(** *** Measure *)
Fixpoint cnt (x : G) (w : word) : nat :=
  match w with [] => 0 | y :: w' => (if g_gt go x y then 1 else 0) + cnt x w' end.
Fixpoint invs (w : word) : nat := match w with [] => 0 | x :: w' => cnt x w' + invs w' end.
Definition M (w : word) : nat := length w * length w * length w + invs w.

Lemma cnt_app x a b : cnt x (a ++ b) = cnt x a + cnt x b.
Proof. induction a; simpl; lia. Qed.
Lemma cnt_le x w : cnt x w <= length w.
Proof. induction w as [|y w IH]; simpl; auto. destruct (g_gt go x y); lia. Qed.
Lemma invs_le w : invs w <= length w * length w.
Proof. induction w as [|x w IH]; simpl; auto. pose proof (cnt_le x w). nia. Qed.
Lemma M_shorter u w : length u < length w -> M u < M w.
Proof.
  unfold M. intros h. pose proof (invs_le u).
  assert (length u * length u * length u + length u * length u < length w * length w * length w); [|lia].
  assert (length u * length u * length u + length u * length u = length u * length u * (length u + 1)) as -> by lia.
  assert (H1 : length u * length u * (length u + 1) <= length u * length u * length w) by (apply Nat.mul_le_mono_l; lia).
  assert (H2 : length u * length u < length w * length w) by nia.
  assert (H3 : length u * length u * length w < length w * length w * length w) by (apply Nat.mul_lt_mono_pos_r; lia).
  lia.
Qed.
Lemma gt_asym x y : g_gt go x y = true -> g_gt go y x = false.
Proof.
  intros h. rewrite (sto_gt _ _ _ Ho) in *. now apply (sto_asym Ho).
Qed.
Lemma invs_swap pre x y post : g_gt go x y = true ->
  invs (pre ++ y :: x :: post) < invs (pre ++ x :: y :: post).
Proof.
  intros h. pose proof (gt_asym _ _ h) as h'.
  induction pre as [|a pre IH]; cbn [app invs].
  - cbn [cnt]. rewrite h, h'. lia.
  - rewrite !cnt_app. cbn [cnt]. destruct (g_gt go a x), (g_gt go a y); lia.
Qed.
(** the words a pair is replaced with *)
Definition shapes (x y : G) (u : word) : Prop := (u = [y; x] /\ g_gt go x y = true) \/ length u <= 1.
Lemma lf_shapes f c u : In (c, u) (lf_sum f) -> length u <= 1.
Proof.
  unfold lf_sum. intros i. apply in_app_or in i. destruct i as [i|i].
  - destruct (vn_is_zero (const_term f)); [destruct i|]. destruct i as [e|[]]. injection e as <- <-. simpl; lia.
  - apply in_map_iff in i. destruct i as [p [e _]]. injection e as <- <-. simpl; lia.
Qed.
Lemma F_shapes x y ts c u : F x y = Some ts -> In (c, u) ts -> shapes x y u.
Proof.
  unfold F. destruct (g_gt go x y) eqn:E.
  - destruct (g_swap go x y) as [cc f]. intros e. injection e as <-. intros i. apply in_app_or in i. destruct i as [i|i].
    + destruct (vn_eqb cc (VInt 0)); [destruct i|]. destruct i as [e|[]]. injection e as <- <-. left; auto.
    + right. eapply lf_shapes; eauto.
  - destruct (g_simplify go x y) as [f|]; [|discriminate]. intros e. injection e as <-. intros i. right. eapply lf_shapes; eauto.
Qed.
Lemma M_step pre x y post ts c u : F x y = Some ts -> In (c, u) ts ->
  M (pre ++ u ++ post) < M (pre ++ x :: y :: post).
Proof.
  intros h i. destruct (F_shapes _ _ _ _ _ h i) as [[-> g]|g].
  - unfold M. rewrite !app_length. cbn [app length]. pose proof (invs_swap pre x y post g). lia.
  - apply M_shorter. rewrite !app_length. simpl. lia.
Qed.

(** *** Leftmost reduction *)
Fixpoint first_red (w : word) : option (word * fsum * word) :=
  match w with
  | [] => None
  | x :: t =>
      match t with
      | [] => None
      | y :: s =>
          match F x y with
          | Some ts => Some ([], ts, s)
          | None => match first_red t with Some (p, ts, s') => Some (x :: p, ts, s') | None => None end
          end
      end
  end.
Lemma first_red_cons x y s : first_red (x :: y :: s) =
  match F x y with
  | Some ts => Some ([], ts, s)
  | None => match first_red (y :: s) with Some (p, ts, s') => Some (x :: p, ts, s') | None => None end
  end.
Proof. reflexivity. Qed.
Lemma first_red_some w p ts s : first_red w = Some (p, ts, s) ->
  exists x y, w = p ++ x :: y :: s /\ F x y = Some ts.
Proof.
  revert p. induction w as [|x [|y t] IH]; intros p; try discriminate.
  rewrite first_red_cons. destruct (F x y) as [ts'|] eqn:E.
  - intros e. injection e as <- <- <-. exists x, y. auto.
  - destruct (first_red (y :: t)) as [[[p' ts'] s']|] eqn:E1; [|discriminate].
    intros e. injection e as <- <- <-. destruct (IH p' eq_refl) as [a [b [e1 e2]]]. exists a, b. split; auto.
    simpl. now rewrite e1.
Qed.
Lemma first_red_none w pre x y post : first_red w = None -> w = pre ++ x :: y :: post -> F x y = None.
Proof.
  revert w. induction pre as [|a pre IH]; intros w h ->.
  - cbn [app] in h. rewrite first_red_cons in h. destruct (F x y); [discriminate|reflexivity].
  - apply (IH (pre ++ x :: y :: post)); auto.
    destruct (pre ++ x :: y :: post) as [|b t] eqn:E; [destruct pre; discriminate|].
    cbn [app] in h. rewrite E, first_red_cons in h. destruct (F a b); [discriminate|].
    destruct (first_red (b :: t)) as [[[p' ts'] s']|]; [discriminate|reflexivity].
Qed.
(** no redex to the left *)
Lemma first_red_left w p ts s pre x y post tt : first_red w = Some (p, ts, s) ->
  w = pre ++ x :: y :: post -> F x y = Some tt -> length p <= length pre.
Proof.
  revert w p. induction pre as [|a pre IH]; intros w p h -> hF.
  - cbn [app] in h. rewrite first_red_cons, hF in h. injection h as <- <- <-. simpl; lia.
  - destruct (pre ++ x :: y :: post) as [|b t] eqn:E; [destruct pre; discriminate|].
    cbn [app] in h. rewrite E, first_red_cons in h. destruct (F a b).
    + injection h as <- <- <-. simpl; lia.
    + destruct (first_red (b :: t)) as [[[p' ts'] s']|] eqn:E1; [|discriminate].
      injection h as <- <- <-. pose proof (IH _ _ E1 eq_refl hF). simpl. lia.
Qed.

Fixpoint nlf (fuel : nat) (w : word) : fsum :=
  match fuel with
  | O => []
  | Datatypes.S f =>
      match first_red w with
      | None => [(s_one so, w)]
      | Some (p, ts, s) => bindf ts (fun u => nlf f (p ++ u ++ s))
      end
  end.
Definition NL (w : word) : fsum := nlf (Datatypes.S (M w)) w.

Lemma bindf_ext l F1 F2 : (forall c u, In (c, u) l -> F1 u = F2 u) -> bindf l F1 = bindf l F2.
Proof.
  induction l as [|[c u] l IH]; simpl; intros h; auto. rewrite (h c u) by auto. rewrite IH; auto.
  intros; eapply h; eauto.
Qed.
Lemma nlf_fuel : forall f w g, M w < f -> M w < g -> nlf f w = nlf g w.
Proof.
  induction f as [|f IH]; intros w g h1 h2; [lia|]. destruct g as [|g]; [lia|]. cbn [nlf].
  destruct (first_red w) as [[[p ts] s]|] eqn:E; auto.
  destruct (first_red_some _ _ _ _ E) as [x [y [-> e2]]].
  apply bindf_ext. intros c u i. pose proof (M_step p x y s ts c u e2 i). apply IH; lia.
Qed.
Lemma NL_red w p ts s : first_red w = Some (p, ts, s) -> NL w = bindf ts (fun u => NL (p ++ u ++ s)).
Proof.
  intros E. unfold NL at 1. cbn [nlf]. rewrite E.
  destruct (first_red_some _ _ _ _ E) as [x [y [-> e2]]].
  apply bindf_ext. intros c u i. pose proof (M_step p x y s ts c u e2 i). apply nlf_fuel; lia.
Qed.
Lemma NL_irr w : first_red w = None -> NL w = [(s_one so, w)].
Proof. intros E. unfold NL. cbn [nlf]. now rewrite E. Qed.

Definition V (k w : word) : S := ev (del k) (NL w).
Lemma V_red k w p ts s : first_red w = Some (p, ts, s) -> V k w = ev (fun u => V k (p ++ u ++ s)) ts.
Proof. intros E. unfold V. now rewrite (NL_red _ _ _ _ E), ev_bind. Qed.
Lemma V_irr k w : first_red w = None -> V k w = del k w.
Proof. intros E. unfold V. rewrite (NL_irr _ E). simpl. now rewrite (sl_mul_1_l _ L), (s_add_0_r so L). Qed.

(** *** All reductions agree *)
Definition Conf (w : word) : Prop := forall k pre x y post ts, w = pre ++ x :: y :: post ->
  F x y = Some ts -> V k w = ev (fun u => V k (pre ++ u ++ post)) ts.

(** all words in a normal form are below the word *)
Lemma NL_below : forall w c u, In (c, u) (NL w) -> forall p s, M (p ++ u ++ s) <= M (p ++ w ++ s).
Proof.
  intros w. induction w as [w IH] using (induction_ltof1 _ M). unfold ltof in IH. intros c u i p s.
  destruct (first_red w) as [[[p' ts] s']|] eqn:E.
  - rewrite (NL_red _ _ _ _ E) in i. unfold bindf in i. apply in_flat_map in i. destruct i as [[c1 u1] [i1 i2]].
    destruct (first_red_some _ _ _ _ E) as [x [y [-> e2]]]. cbn [snd fst] in i2.
    unfold scale in i2. apply in_map_iff in i2. destruct i2 as [[c2 u2] [e i3]]. cbn [fst snd] in e. injection e as <- <-.
    pose proof (IH _ (M_step p' x y s' ts c1 u1 e2 i1) _ _ i3 p s) as K.
    pose proof (M_step (p ++ p') x y (s' ++ s) ts c1 u1 e2 i1) as K2.
    repeat rewrite <- app_assoc in *. cbn [app] in *. repeat rewrite <- app_assoc in K. lia.
  - rewrite (NL_irr _ E) in i. destruct i as [e|[]]. injection e as <- <-. auto.
Qed.

Lemma absorb B : (forall v, M v < B -> Conf v) -> forall w k p s, M (p ++ w ++ s) < B ->
  V k (p ++ w ++ s) = ev (fun u => V k (p ++ u ++ s)) (NL w).
Proof.
  intros HC w. induction w as [w IH] using (induction_ltof1 _ M). unfold ltof in IH. intros k p s hB.
  destruct (first_red w) as [[[p' ts] s']|] eqn:E.
  - destruct (first_red_some _ _ _ _ E) as [x [y [-> e2]]].
    rewrite (NL_red _ _ _ _ E), ev_bind.
    rewrite (HC _ hB k (p ++ p') x y (s' ++ s) ts); auto.
    2:{ repeat rewrite <- app_assoc. reflexivity. }
    apply ev_ext. intros c u i.
    pose proof (M_step (p ++ p') x y (s' ++ s) ts c u e2 i) as K2.
    rewrite <- (IH (p' ++ u ++ s')).
    + repeat rewrite <- app_assoc. reflexivity.
    + exact (M_step p' x y s' ts c u e2 i).
    + repeat rewrite <- app_assoc in *. cbn [app] in *. lia.
  - rewrite (NL_irr _ E). simpl. now rewrite (sl_mul_1_l _ L), (s_add_0_r so L).
Qed.

(** the overlaps resolve *)
Definition Res (x y z : G) : Prop := forall k,
  ev (fun u => V k (u ++ [z])) (NL [x; y]) = ev (fun u => V k (x :: u)) (NL [y; z]).

Lemma NL2 x y ts : F x y = Some ts -> NL [x; y] = bindf ts NL.
Proof.
  intros h. rewrite (NL_red [x; y] [] ts []) by (cbn [first_red]; now rewrite h).
  apply bindf_ext. intros c u i. simpl. now rewrite app_nil_r.
Qed.

Lemma list_split3 {A} (pre pre0 : list A) x y x0 y0 post post0 :
  pre0 ++ x0 :: y0 :: post0 = pre ++ x :: y :: post -> length pre0 <= length pre ->
  (pre0 = pre /\ x0 = x /\ y0 = y /\ post0 = post) \/
  (pre = pre0 ++ [x0] /\ x = y0 /\ post0 = y :: post) \/
  (exists q, pre = pre0 ++ x0 :: y0 :: q /\ post0 = q ++ x :: y :: post).
Proof.
  revert pre. induction pre0 as [|a pre0 IH]; intros pre E h.
  - destruct pre as [|b [|c pre]]; simpl in E.
    + injection E as -> -> ->. auto.
    + injection E as -> -> ->. right; left. auto.
    + injection E as -> -> ->. right; right. exists pre. auto.
  - destruct pre as [|b pre]; simpl in h; [lia|]. simpl in E. injection E as -> E.
    destruct (IH pre E) as [[-> [-> [-> ->]]]|[[-> [-> ->]]|[q [-> ->]]]]; [lia|auto|right; left; auto|].
    right; right. exists q. auto.
Qed.

Lemma confluence B : (forall x y z, M [x; y; z] <= B -> F x y <> None -> F y z <> None -> Res x y z) ->
  forall w, M w <= B -> Conf w.
Proof.
  intros HR w. induction w as [w IH] using (induction_ltof1 _ M). unfold ltof in IH.
  intros hB k pre x y post ts E hF.
  assert (IHC : forall v, M v < M w -> Conf v) by (intros v hv; apply IH; lia).
  destruct (first_red w) as [[[p0 ts0] s0]|] eqn:E0.
  2:{ rewrite (first_red_none _ _ _ _ _ E0 E) in hF. discriminate. }
  pose proof (first_red_left _ _ _ _ _ _ _ _ _ E0 E hF) as hl.
  destruct (first_red_some _ _ _ _ E0) as [x0 [y0 [E1 hF0]]].
  rewrite (V_red k _ _ _ _ E0).
  assert (E2 := E). rewrite E1 in E2.
  destruct (list_split3 _ _ _ _ _ _ _ _ E2 hl) as [[-> [-> [-> ->]]]|[[-> [-> ->]]|[q [-> ->]]]].
  - rewrite hF in hF0. injection hF0 as ->. reflexivity.
  - (* overlap: w = p0 x0 y0 y post *)
    assert (MW : M [x0; y0; y] <= M w).
    { rewrite E1. unfold M. rewrite !app_length. cbn [length].
      assert (invs [x0; y0; y] <= invs (p0 ++ x0 :: y0 :: y :: post)).
      { clear. induction p0 as [|a p IHp]; [|cbn [app]; change (invs (a :: p ++ x0 :: y0 :: y :: post)) with
            (cnt a (p ++ x0 :: y0 :: y :: post) + invs (p ++ x0 :: y0 :: y :: post)); lia].
        cbn [app invs cnt]. destruct (g_gt go x0 y0), (g_gt go x0 y), (g_gt go y0 y); lia. }
      assert (3 * 3 * 3 <= (length p0 + Datatypes.S (Datatypes.S (Datatypes.S (length post)))) *
        (length p0 + Datatypes.S (Datatypes.S (Datatypes.S (length post)))) * (length p0 + Datatypes.S (Datatypes.S (Datatypes.S (length post))))).
      { apply Nat.mul_le_mono; [apply Nat.mul_le_mono|]; lia. }
      lia. }
    pose proof (HR x0 y0 y ltac:(lia) ltac:(congruence) ltac:(congruence)) as R.
    assert (A1 : ev (fun u => V k (p0 ++ u ++ y :: post)) ts0 =
                 ev (fun u => V k (p0 ++ u ++ post)) (bindf ts0 (fun u => bindf (NL u) (fun v => NL (v ++ [y]))))).
    { rewrite ev_bind. apply ev_ext. intros c u i.
      pose proof (M_step p0 x0 y0 (y :: post) ts0 c u hF0 i) as K. rewrite <- E1 in K.
      rewrite (absorb (M w) IHC u k p0 (y :: post) K). rewrite ev_bind. apply ev_ext. intros c' v j.
      pose proof (NL_below u c' v j p0 (y :: post)) as K2.
      replace (p0 ++ v ++ y :: post) with (p0 ++ (v ++ [y]) ++ post) by (rewrite <- (app_assoc v); reflexivity).
      apply (absorb (M w) IHC).
      rewrite <- (app_assoc v). cbn [app]. lia. }
    assert (A2 : ev (fun u => V k ((p0 ++ [x0]) ++ u ++ post)) ts =
                 ev (fun u => V k (p0 ++ u ++ post)) (bindf ts (fun u => bindf (NL u) (fun v => NL (x0 :: v))))).
    { rewrite ev_bind. apply ev_ext. intros c u i.
      pose proof (M_step (p0 ++ [x0]) y0 y post ts c u hF i) as K. rewrite <- E in K.
      rewrite (absorb (M w) IHC u k (p0 ++ [x0]) post K). rewrite ev_bind. apply ev_ext. intros c' v j.
      pose proof (NL_below u c' v j (p0 ++ [x0]) post) as K2.
      replace ((p0 ++ [x0]) ++ v ++ post) with (p0 ++ (x0 :: v) ++ post) in * by (rewrite <- (app_assoc p0); reflexivity).
      apply (absorb (M w) IHC). lia. }
    rewrite A1, A2. apply ev_coefs. intros k'. rewrite !ev_bind.
    specialize (R k'). rewrite (NL2 _ _ _ hF0), (NL2 _ _ _ hF), !ev_bind in R.
    unfold V in R. transitivity (ev (fun u => ev (fun u0 => ev (del k') (NL (u0 ++ [y]))) (NL u)) ts0).
    { apply ev_ext. intros c u i. apply ev_bind. }
    rewrite R. apply ev_ext. intros c u i. symmetry. apply ev_bind.
  - (* disjoint: w = p0 x0 y0 q x y post *)
    transitivity (ev (fun u => ev (fun v => V k (p0 ++ u ++ q ++ v ++ post)) ts) ts0).
    + apply ev_ext. intros c u i.
      pose proof (M_step p0 x0 y0 (q ++ x :: y :: post) ts0 c u hF0 i) as K. rewrite <- E1 in K.
      rewrite (IHC _ K k (p0 ++ u ++ q) x y post ts); auto.
      * apply ev_ext. intros c' v j. repeat rewrite <- app_assoc. reflexivity.
      * repeat rewrite <- app_assoc. reflexivity.
    + rewrite ev_swap. apply ev_ext. intros c u i.
      pose proof (M_step (p0 ++ x0 :: y0 :: q) x y post ts c u hF i) as K. rewrite <- E in K.
      rewrite (IHC _ K k p0 x0 y0 (q ++ u ++ post) ts0); auto.
      repeat (rewrite <- app_assoc; cbn [app]). reflexivity.
Qed.

(** *** The code computes these normal forms *)
Notation emap := (list (list G * S)).
Definition fs (e : emap) : fsum := map (fun p => (snd p, fst p)) e.
Definition tv (phi : word -> S) (e : emap) : S := ev phi (fs e).
Definition CB (B : nat) : Prop := forall v, M v <= B -> Conf v.

Lemma CB_le B B' : B' <= B -> CB B -> CB B'.
Proof. intros h c v hv. apply c. lia. Qed.

Lemma tv_ins phi k c (e : emap) : tv phi (add_entry go so (k, c) e) = (c * phi k + tv phi e)%l.
Proof.
  unfold tv, fs. induction e as [|[x v] e IH].
  - rewrite (ins_nil go so). reflexivity.
  - rewrite (ins_cons go so). destruct (mono_lt go x k) eqn:E1; [|destruct (mono_lt go k x) eqn:E2].
    + simpl. rewrite IH. rewrite !(sl_add_assoc _ L). f_equal. apply (sl_add_comm _ L).
    + reflexivity.
    + assert (x = k) by (eapply (sto_eq_of (mono_sto go Ho)); eauto). subst x.
      destruct (s_is_zero so (s_add so v c)) eqn:Z.
      * apply (sl_is_zero _ L) in Z. cbn [map ev fst snd].
        rewrite (sl_add_assoc _ L), <- (sl_dist_r _ L), (sl_add_comm _ L c v).
        replace (s_add so v c) with (s_zero so) by (symmetry; exact Z).
        now rewrite (s_mul_0_l so L), (sl_add_0 _ L).
      * cbn [map ev fst snd]. rewrite (sl_add_assoc _ L), <- (sl_dist_r _ L). f_equal. f_equal. apply (sl_add_comm _ L).
Qed.
Lemma tv_store phi m c (t : emap) : tv phi (store_monomial go so m c t) = (c * phi m + tv phi t)%l.
Proof. rewrite store_is_ins. apply tv_ins. Qed.

Notation recT := (word -> S -> emap -> res emap).
Definition rec_v (B : nat) (r : recT) : Prop :=
  forall m c t t', M m < B -> r m c t = Ok t' -> forall k, tv (V k) t' = (c * V k m + tv (V k) t)%l.

Lemma process_terms_v B r pre post coeff ts : rec_v B r ->
  (forall g v, In (g, v) ts -> M (pre ++ g :: post) < B) ->
  forall t t', process_terms so r pre post coeff ts t = Ok t' -> forall k,
  tv (V k) t' = (coeff * ev (fun u => V k (pre ++ u ++ post)) (map (fun p => (mkc (snd p), [fst p])) ts) + tv (V k) t)%l.
Proof.
  intros Hr. induction ts as [|[g v] ts IH]; cbn [process_terms map ev fst snd]; intros hB t t' E k.
  - injection E as <-. now rewrite (s_mul_0_r so L), (sl_add_0 _ L).
  - unfold mkc at 1. destruct (s_make so v) as [x|]; [|discriminate].
    destruct (r (pre ++ g :: post) (s_mul so coeff x) t) as [t1| |] eqn:E1; try discriminate.
    cbn [rbind] in E. rewrite (IH (fun g' v' i => hB g' v' (or_intror i)) _ _ E k).
    rewrite (Hr _ _ _ _ (hB g v (or_introl eq_refl)) E1 k).
    rewrite (sl_dist_l _ L), <- (sl_mul_assoc _ L). cbn [app].
    rewrite !(sl_add_assoc _ L). f_equal. apply (sl_add_comm _ L).
Qed.
Lemma process_f_v B r pre post coeff f : rec_v B r ->
  (forall c u, In (c, u) (lf_sum f) -> M (pre ++ u ++ post) < B) ->
  forall t t', process_f so r pre post coeff f t = Ok t' -> forall k,
  tv (V k) t' = (coeff * ev (fun u => V k (pre ++ u ++ post)) (lf_sum f) + tv (V k) t)%l.
Proof.
  intros Hr hB t t'. unfold process_f.
  assert (hT : forall g v, In (g, v) (terms f) -> M (pre ++ g :: post) < B).
  { intros g v i. apply (hB (mkc v) [g]). unfold lf_sum. apply in_or_app. right.
    apply in_map_iff. exists (g, v). auto. }
  unfold lf_sum in *. destruct (vn_is_zero (const_term f)).
  - cbn [rbind app]. intros E k. exact (process_terms_v B r pre post coeff _ Hr hT _ _ E k).
  - unfold mkc at 1. assert (hc : M (pre ++ [] ++ post) < B).
    { apply (hB (mkc (const_term f)) []). left. reflexivity. }
    destruct (s_make so (const_term f)) as [x|]; [|discriminate].
    destruct (r (pre ++ post) (s_mul so coeff x) t) as [t1| |] eqn:E1; try discriminate.
    cbn [rbind]. intros E k.
    rewrite (process_terms_v B r pre post coeff _ Hr hT _ _ E k).
    rewrite (Hr _ _ _ _ hc E1 k). cbn [app ev].
    rewrite (sl_dist_l _ L), <- (sl_mul_assoc _ L).
    rewrite !(sl_add_assoc _ L). f_equal. apply (sl_add_comm _ L).
Qed.

Definition loop_v (m : word) (c : S) (t : emap) (q : @loop_res G S) : Prop :=
  match q with
  | LDone m' c' _ t' => M m' <= M m /\ forall k, (c' * V k m' + tv (V k) t' = c * V k m + tv (V k) t)%l
  | LReturn t' => forall k, (tv (V k) t' = c * V k m + tv (V k) t)%l
  | _ => True
  end.
Lemma mk_of c x : s_make so c = Some x -> mkc c = x.
Proof. unfold mkc. now intros ->. Qed.

Lemma sort_pass_v B r : CB B -> rec_v B r -> forall k n m c sw t, 1 <= n -> M m <= B ->
  loop_v m c t (sort_pass go so r k n m c sw t).
Proof.
  intros HC Hr. induction k as [|k IH]; intros n m c sw t Hn Hm; cbn [sort_pass].
  - split; auto.
  - destruct (nth_error m (n - 1)) as [a|] eqn:Ea; simpl; auto.
    destruct (nth_error m n) as [b|] eqn:Eb; simpl; auto.
    pose proof (split_at m n a b Hn Ea Eb) as Em.
    set (pre := firstn (n - 1) m) in *. set (post := skipn (n + 1) m) in *.
    assert (Vm : forall ts, F a b = Some ts -> forall k, V k m = ev (fun u => V k (pre ++ u ++ post)) ts).
    { intros ts hF k0. exact (HC m Hm k0 pre a b post ts Em hF). }
    assert (Mm : forall ts c' u, F a b = Some ts -> In (c', u) ts -> M (pre ++ u ++ post) < M m).
    { intros ts c' u hF i. rewrite Em at 1. exact (M_step pre a b post ts c' u hF i). }
    unfold F in Vm, Mm. destruct (g_gt go a b) eqn:Eg.
    + destruct (g_swap go a b) as [cc f] eqn:Es.
      specialize (Vm _ eq_refl). assert (Mm' := fun c' u => Mm _ c' u eq_refl). clear Mm.
      destruct (process_f so r pre post c f t) as [t1| |] eqn:Ep; simpl; auto.
      assert (hB : forall c' u, In (c', u) (lf_sum f) -> M (pre ++ u ++ post) < B).
      { intros c' u i. eapply Nat.lt_le_trans; [apply (Mm' c' u); apply in_or_app; auto|auto]. }
      pose proof (process_f_v B r pre post c f Hr hB t t1 Ep) as Ev.
      destruct (vn_eqb cc (VInt 0)) eqn:Ec; simpl.
      * intros k0. rewrite Ev, Vm. cbn [app]. reflexivity.
      * destruct (s_make so cc) as [x|] eqn:Ex; simpl; auto.
        assert (Ms : M (swap_at n a b m) <= M m).
        { unfold swap_at. fold pre post. apply Nat.lt_le_incl. apply (Mm' (mkc cc) [b; a]). now left. }
        specialize (IH (n + 1)%nat (swap_at n a b m) (s_mul so c x) true t1 ltac:(lia) ltac:(lia)).
        assert (K : forall k0, (s_mul so c x * V k0 (swap_at n a b m) + tv (V k0) t1 = c * V k0 m + tv (V k0) t)%l).
        { intros k0. rewrite Ev, Vm. cbn [app ev]. rewrite (mk_of _ _ Ex).
          unfold swap_at. fold pre post. rewrite (sl_dist_l _ L), <- !(sl_mul_assoc _ L), (sl_add_assoc _ L). reflexivity. }
        destruct (sort_pass go so r k (n + 1) (swap_at n a b m) (s_mul so c x) true t1) as [m' c' sw' t'|t'| |];
          simpl in IH |- *; auto.
        -- destruct IH as [I1 I2]. split; [lia|]. intros k0. rewrite I2. apply K.
        -- intros k0. rewrite IH. apply K.
    + destruct (g_simplify go a b) as [f|] eqn:Es.
      * specialize (Vm _ eq_refl). assert (Mm' := fun c' u => Mm _ c' u eq_refl). clear Mm.
        destruct (process_f so r pre post c f t) as [t1| |] eqn:Ep; simpl; auto.
        assert (hB : forall c' u, In (c', u) (lf_sum f) -> M (pre ++ u ++ post) < B).
        { intros c' u i. eapply Nat.lt_le_trans; [apply (Mm' c' u i)|auto]. }
        intros k0. rewrite (process_f_v B r pre post c f Hr hB t t1 Ep), Vm. reflexivity.
      * apply IH; auto. lia.
Qed.
Lemma sort_loop_v B r : CB B -> rec_v B r -> forall n_max m c t, M m <= B ->
  loop_v m c t (sort_loop go so r n_max m c t).
Proof.
  intros HC Hr. induction n_max as [|n IH]; intros m c t Hm.
  - simpl. split; auto.
  - change (sort_loop go so r (Datatypes.S n) m c t) with
      (match sort_pass go so r (Datatypes.S n) 1 m c false t with
       | LDone m' coeff' true target' => sort_loop go so r n m' coeff' target'
       | r => r end).
    pose proof (sort_pass_v B r HC Hr (Datatypes.S n) 1 m c false t ltac:(lia) Hm) as K.
    destruct (sort_pass go so r (Datatypes.S n) 1 m c false t) as [m' c' [|] t'|t'| |]; auto.
    simpl in K. destruct K as [K1 K2]. specialize (IH m' c' t' ltac:(lia)).
    destruct (sort_loop go so r n m' c' t') as [m2 c2 sw2 t2|t2| |]; simpl in *; auto.
    + destruct IH as [I1 I2]. split; [lia|]. intros k. now rewrite I2.
    + intros k. now rewrite IH.
Qed.

Lemma reduce_scan_store nr rr : forall k it pw m c t, it + k = length m -> 1 <= k ->
  reduce_scan go so nr rr k it pw m c t = Ok (store_monomial go so m c t).
Proof.
  induction k as [|k IH]; intros it pw m c t h1 h2; [lia|]. cbn [reduce_scan].
  destruct (Nat.eqb_spec (it + 1) (length m)); auto.
  destruct (nth_error m it) as [a|] eqn:Ea; [|apply nth_error_None in Ea; lia].
  destruct (nth_error m (it + 1)) as [b|] eqn:Eb; [|apply nth_error_None in Eb; lia].
  cbv zeta. rewrite (ra_reduce _ _ RA). destruct (g_eq go b a); [destruct (2 <? pw + 1)|]; apply IH; lia.
Qed.
Lemma reduce_store fuel m c t : reduce_powers_and_store go so (Datatypes.S fuel) m c t = Ok (store_monomial go so m c t).
Proof.
  rewrite reduce_S. destruct m as [|g m]; auto. apply reduce_scan_store; simpl; lia.
Qed.
Lemma reduce_store' fuel m c t t' : reduce_powers_and_store go so fuel m c t = Ok t' -> t' = store_monomial go so m c t.
Proof. destruct fuel; [discriminate|]. rewrite reduce_store. congruence. Qed.

Lemma normalize_v : forall fuel m c t t', CB (M m) -> normalize_and_store go so fuel m c t = Ok t' ->
  forall k, tv (V k) t' = (c * V k m + tv (V k) t)%l.
Proof.
  induction fuel as [|fuel IH]; intros m c t t' HC E k; [discriminate|].
  rewrite normalize_S in E. destruct (2 <=? length m).
  - assert (Hr : rec_v (M m) (normalize_and_store go so fuel)).
    { intros m1 c1 t1 t1' h E1 k1. apply IH; auto. eapply CB_le; [|exact HC]. lia. }
    pose proof (sort_loop_v (M m) _ HC Hr (length m - 1) m c t (le_n _)) as K.
    destruct (sort_loop go so (normalize_and_store go so fuel) (length m - 1) m c t) as [m' c' sw t1|t1| |]; try discriminate.
    + destruct K as [_ K]. specialize (K k). destruct (s_is_zero so c') eqn:Z.
      * injection E as <-. apply (sl_is_zero _ L) in Z. rewrite <- K. subst c'.
        now rewrite (s_mul_0_l so L), (sl_add_0 _ L).
      * apply reduce_store' in E. subst t'. rewrite tv_store. exact K.
    + injection E as <-. apply K.
  - apply reduce_store' in E. subst t'. apply tv_store.
Qed.

(** canonical monomials are irreducible *)
Lemma AC : alg_canon go (fun _ => True).
Proof.
  constructor.
  - intros a b c f _ _. apply (ra_detect _ _ RA).
  - intros a b c f _ _ Eg E. destruct (nc_swap _ (ra_constants _ _ RA) _ _ _ _ Eg E) as [h1 h2].
    split; [|split; auto].
    + apply Forall_forall. auto.
    + apply Forall_forall. intros [g v] i. exact (h1 g v i).
  - intros a b f _ _ Eg E. split.
    + apply Forall_forall. auto.
    + apply Forall_forall. intros [g v] i. exact (nc_simplify _ (ra_constants _ _ RA) _ _ _ Eg E g v i).
  - intros a n f _ E. rewrite (ra_reduce _ _ RA) in E. discriminate.
  - intros a n n' h. rewrite (ra_reduce _ _ RA) in h. congruence.
Qed.
Lemma AM : alg_make go so (fun _ => True).
Proof.
  assert (K : forall f, representable so f -> lf_mk so (fun _ : G => True) f).
  { intros f [h1 h2]. split; auto. apply Forall_forall. intros [g v] i. split; auto. exact (h2 g v i). }
  constructor.
  - intros a b c f _ _ E. destruct (ra_repr_swap _ _ RA _ _ _ _ E). split; auto.
  - intros a b f _ _ E. apply K. exact (ra_repr_simplify _ _ RA _ _ _ E).
  - intros a n f _ E. rewrite (ra_reduce _ _ RA) in E. discriminate.
  - intros a _. apply K. apply (ra_repr_conj _ _ RA).
Qed.
Lemma all_True {A} (l : list A) : Forall (fun _ => True) l.
Proof. apply Forall_forall. auto. Qed.
Lemma sorted_irr m : Sorted (okpair go) m -> first_red m = None.
Proof.
  induction m as [|x [|y m] IH]; intros h; auto. rewrite first_red_cons.
  inversion h as [|? ? h1 h2]; subst. inversion h2 as [|? ? h3]; subst. destruct h3 as [h4 h5].
  unfold F. rewrite (proj2 (ngt_le go Ho x y) h4), h5. now rewrite (IH h1).
Qed.
Lemma tv_del k (e : emap) : msorted go e -> tv (del k) e = coef go so e k.
Proof.
  unfold tv, fs. induction e as [|[m c] e IH]; intros h; [now rewrite coef_nil|].
  cbn [map ev fst snd]. destruct (msorted_inv go _ _ _ h) as [h1 h2].
  unfold del at 1. destruct (wdec m k) as [->|n].
  - rewrite (coef_cons_eq go Ho), (IH h1), (sl_mul_1_r _ L).
    rewrite (coef_lt_all go Ho); auto. apply (s_add_0_r so L).
  - rewrite (coef_cons_ne go Ho) by auto. rewrite (s_mul_0_r so L), (sl_add_0 _ L). auto.
Qed.
Lemma CN : constants_nonzero go.
Proof.
  destruct (ra_constants _ _ RA) as [h1 h2]. constructor.
  - intros a b c f Eg E. destruct (h1 a b c f Eg E). split; auto.
  - intros a b f Eg E. exact (h2 a b f Eg E).
Qed.
Lemma nf_V w k : CB (M w) -> nf go so w k = V k w.
Proof.
  intros HC. destruct (normalize_total go so (fun _ => True) AM w (s_one so) [] (all_True w)) as [u E].
  rewrite (nf_eq go so w u k E).
  destruct (normalize_inv go Ho so D (fun _ => True) AC w (s_one so) [] u (all_True w) (one_nz so D)
     (inv_nil go so (fun _ => True)) E) as [i1 [i2 i3]].
  rewrite <- (tv_del k u i1). pose proof (normalize_v _ _ _ _ _ HC E k) as K.
  unfold tv at 2 in K. cbn [fs map ev] in K. rewrite (sl_mul_1_l _ L), (s_add_0_r so L) in K. rewrite <- K.
  unfold tv. apply ev_ext. intros c m i. symmetry. apply V_irr, sorted_irr.
  unfold fs in i. apply in_map_iff in i. destruct i as [[m' c'] [e i]]. cbn [fst snd] in e. injection e as -> ->.
  apply (i3 _ _ i).
Qed.

(** *** Products *)
Lemma prod_ev (a b : emap) k : prod_coef go so a b k =
  ev (fun m => ev (fun n => nf go so (m ++ n) k) (fs b)) (fs a).
Proof.
  unfold prod_coef, fs. induction a as [|[m c] a IH]; cbn [lsum map ev fst snd]; auto. rewrite IH. f_equal.
  clear IH. induction b as [|[n d] b IH]; cbn [lsum map ev fst snd].
  - now rewrite (s_mul_0_r so L).
  - now rewrite IH, (sl_dist_l _ L), (sl_mul_assoc _ L).
Qed.
(** the value of a product *)
Definition wprod (a b : emap) : fsum :=
  bindf (fs a) (fun m => map (fun q => (fst q, m ++ snd q)) (fs b)).
Lemma ev_wprod phi a b : ev phi (wprod a b) = ev (fun m => ev (fun n => phi (m ++ n)) (fs b)) (fs a).
Proof.
  unfold wprod. rewrite ev_bind. apply ev_ext. intros c m _. unfold fs.
  induction b as [|[n d] b IH]; cbn [map ev fst snd]; auto. now rewrite IH.
Qed.
Lemma mul_coef a b e k : nonzero so a -> nonzero so b -> e_mul go so a b = Ok e ->
  stored go so e /\ coef go so e k = ev (fun w => nf go so w k) (wprod a b).
Proof.
  intros ha hb E. destruct (e_mul_nf go Ho so D CN a b e ha hb E) as [h K]. split; auto.
  now rewrite K, prod_ev, ev_wprod.
Qed.
Lemma mul_value a b e phi : nonzero so a -> nonzero so b -> e_mul go so a b = Ok e ->
  (forall c w, In (c, w) (wprod a b) -> CB (M w)) ->
  tv phi e = ev (fun w => ev phi (NL w)) (wprod a b).
Proof.
  intros ha hb E HC. unfold tv. rewrite <- ev_bind. apply ev_coefs. intros k.
  destruct (mul_coef a b e k ha hb E) as [h K]. change (ev (del k) (fs e)) with (tv (del k) e).
  rewrite (tv_del k e (proj1 h)), K, ev_bind. apply ev_ext. intros c w i. apply nf_V. eauto.
Qed.
Lemma e_mul_ok a b : exists e, e_mul go so a b = Ok e.
Proof.
  apply (e_mul_total go so (fun _ => True) AM); intros m c i; apply all_True.
Qed.

(** generators *)
Notation gx := (generator_expr so).
Lemma gx_nonzero (x : G) : nonzero so (gx x).
Proof. intros m c [e|[]]. injection e as <- <-. apply (one_nz so D). Qed.
Lemma fs_gx (x : G) : fs (gx x) = [(s_one so, [x])].
Proof. reflexivity. Qed.

Lemma NL_below_strict x y ts c u : F x y = Some ts -> In (c, u) (NL [x; y]) ->
  forall p s, M (p ++ u ++ s) < M (p ++ [x; y] ++ s).
Proof.
  intros h i p s. rewrite (NL2 _ _ _ h) in i. unfold bindf in i. apply in_flat_map in i.
  destruct i as [[c1 u1] [i1 i2]]. cbn [fst snd] in i2. unfold scale in i2. apply in_map_iff in i2.
  destruct i2 as [[c2 u2] [e i2]]. cbn [fst snd] in e. injection e as <- <-.
  pose proof (NL_below _ _ _ i2 p s). pose proof (M_step p x y s ts c1 u1 h i1). cbn [app] in *. lia.
Qed.
(** a word with a non-zero coefficient occurs *)
Lemma ev_del_In k (l : fsum) : ev (del k) l <> s_zero so -> exists c, In (c, k) l.
Proof.
  induction l as [|[c u] l IH]; simpl; intros h; [congruence|].
  unfold del at 1 in h. destruct (wdec u k) as [->|n]; [exists c; auto|].
  rewrite (s_mul_0_r so L), (sl_add_0 _ L) in h. destruct (IH h) as [d i]. exists d. auto.
Qed.
Lemma nf_pair x y k : CB (M [x; y]) -> forall e, e_mul go so (gx x) (gx y) = Ok e -> coef go so e k = V k [x; y].
Proof.
  intros HC e E. destruct (mul_coef _ _ _ k (gx_nonzero x) (gx_nonzero y) E) as [_ K]. rewrite K, ev_wprod, !fs_gx.
  cbn [ev app]. rewrite !(sl_mul_1_l _ L), !(s_add_0_r so L). now apply nf_V.
Qed.
Lemma pair_words x y e ts : CB (M [x; y]) -> F x y = Some ts -> e_mul go so (gx x) (gx y) = Ok e ->
  forall c u, In (c, u) (fs e) -> forall p s, M (p ++ u ++ s) < M (p ++ [x; y] ++ s).
Proof.
  intros HC hF E c u i. destruct (mul_coef _ _ _ u (gx_nonzero x) (gx_nonzero y) E) as [h _].
  assert (Hc : coef go so e u <> s_zero so).
  { unfold fs in i. apply in_map_iff in i. destruct i as [[u' c'] [e1 i]]. cbn [fst snd] in e1. injection e1 as -> ->.
    unfold coef. rewrite (proj2 (find_In go Ho u c e (proj1 h)) i). exact (proj2 h _ _ i). }
  rewrite (nf_pair x y u HC e E) in Hc. unfold V in Hc. destruct (ev_del_In _ _ Hc) as [d j].
  exact (NL_below_strict x y ts d u hF j).
Qed.
Lemma CB_lt B B' : (forall v, M v < B -> Conf v) -> B' < B -> CB B'.
Proof. intros h l v hv. apply h. lia. Qed.

Lemma res_of_assoc x y z : (forall v, M v < M [x; y; z] -> Conf v) ->
  F x y <> None -> F y z <> None -> associates go so (gx x) (gx y) (gx z) -> Res x y z.
Proof.
  intros HC hxy hyz [xy [yz [r [E1 [E2 [E3 E4]]]]]] k.
  destruct (F x y) as [t1|] eqn:F1; [|congruence]. destruct (F y z) as [t2|] eqn:F2; [|congruence].
  assert (C1 : CB (M [x; y])) by (eapply CB_lt; [exact HC|apply M_shorter; simpl; lia]).
  assert (C2 : CB (M [y; z])) by (eapply CB_lt; [exact HC|apply M_shorter; simpl; lia]).
  destruct (mul_coef _ _ _ k (gx_nonzero x) (gx_nonzero y) E1) as [S1 _].
  destruct (mul_coef _ _ _ k (gx_nonzero y) (gx_nonzero z) E2) as [S2 _].
  destruct (mul_coef _ _ _ k (proj2 S1) (gx_nonzero z) E3) as [_ K3].
  destruct (mul_coef _ _ _ k (gx_nonzero x) (proj2 S2) E4) as [_ K4].
  assert (A : ev (fun u => V k (u ++ [z])) (NL [x; y]) = coef go so r k).
  { rewrite K3, ev_wprod, fs_gx.
    transitivity (ev (fun u => V k (u ++ [z])) (fs xy)).
    - symmetry. apply ev_coefs. intros k'. change (ev (del k') (fs xy)) with (tv (del k') xy).
      rewrite (tv_del k' xy (proj1 S1)). apply (nf_pair x y k' C1 xy E1).
    - apply ev_ext. intros c u i. cbn [ev]. rewrite (sl_mul_1_l _ L), (s_add_0_r so L).
      symmetry. apply nf_V. eapply CB_lt; [exact HC|].
      exact (pair_words x y xy t1 C1 F1 E1 c u i [] [z]). }
  rewrite A, K4, ev_wprod, fs_gx. cbn [ev]. rewrite (sl_mul_1_l _ L), (s_add_0_r so L).
  transitivity (ev (fun u => V k (x :: u)) (fs yz)).
  - apply ev_ext. intros c u i. cbn [app]. apply nf_V. eapply CB_lt; [exact HC|].
    pose proof (pair_words y z yz t2 C2 F2 E2 c u i [x] []) as K. rewrite !app_nil_r in K. exact K.
  - apply ev_coefs. intros k'. change (ev (del k') (fs yz)) with (tv (del k') yz).
    rewrite (tv_del k' yz (proj1 S2)). apply (nf_pair y z k' C2 yz E2).
Qed.

Lemma all_conf : (forall x y z, associates go so (gx x) (gx y) (gx z)) -> forall w, Conf w.
Proof.
  intros HA.
  assert (K : forall n x y z, M [x; y; z] < n -> F x y <> None -> F y z <> None -> Res x y z).
  { induction n as [|n IH]; intros x y z h1 h2 h3; [lia|]. apply res_of_assoc; auto.
    intros v hv. destruct (M [x; y; z]) as [|m] eqn:Em; [lia|].
    apply (confluence m); [|lia]. intros x' y' z' h. apply IH. lia. }
  intros w. apply (confluence (M w)); auto. intros x y z h. apply (K (Datatypes.S (M w))). lia.
Qed.

Theorem assoc_conf : (forall w, Conf w) ->
  forall a b c : emap, nonzero so a -> nonzero so b -> nonzero so c -> associates go so a b c.
Proof.
  intros HC a b c ha hb hc.
  destruct (e_mul_ok a b) as [ab E1]. destruct (e_mul_ok b c) as [bc E2].
  destruct (e_mul_ok ab c) as [r E3]. destruct (e_mul_ok a bc) as [r' E4].
  assert (S1 := proj1 (mul_coef a b ab [] ha hb E1)). assert (S2 := proj1 (mul_coef b c bc [] hb hc E2)).
  assert (S3 := proj1 (mul_coef ab c r [] (proj2 S1) hc E3)). assert (S4 := proj1 (mul_coef a bc r' [] ha (proj2 S2) E4)).
  assert (HB : forall B, CB B) by (intros B v _; apply HC).
  assert (AB : forall w k p s, ev (fun u => V k (p ++ u ++ s)) (NL w) = V k (p ++ w ++ s)).
  { intros w k p s. symmetry. apply (absorb (Datatypes.S (M (p ++ w ++ s)))); auto. }
  assert (r = r') as <-.
  { apply (stored_ext go Ho so D r r' S3 S4). intros k.
    rewrite (proj2 (mul_coef ab c r k (proj2 S1) hc E3)), (proj2 (mul_coef a bc r' k ha (proj2 S2) E4)).
    rewrite !ev_wprod.
    transitivity (ev (fun m => ev (fun n => ev (fun q => V k (m ++ n ++ q)) (fs c)) (fs b)) (fs a)).
    - transitivity (tv (fun m => ev (fun q => V k (m ++ q)) (fs c)) ab).
      { unfold tv. apply ev_ext. intros c1 m _. apply ev_ext. intros c2 q _. now apply nf_V. }
      rewrite (mul_value a b ab _ ha hb E1) by auto. rewrite ev_wprod. apply ev_ext. intros c1 m _.
      apply ev_ext. intros c2 n _. rewrite ev_swap. apply ev_ext. intros c3 q _.
      pose proof (AB (m ++ n) k [] q) as K. cbn [app] in K. rewrite K. now rewrite app_assoc.
    - symmetry. apply ev_ext. intros c1 m _.
      transitivity (tv (fun n => V k (m ++ n)) bc).
      { unfold tv. apply ev_ext. intros c2 n _. now apply nf_V. }
      rewrite (mul_value b c bc _ hb hc E2) by auto. rewrite ev_wprod. apply ev_ext. intros c2 n _.
      apply ev_ext. intros c3 q _. pose proof (AB (n ++ q) k m []) as K. rewrite app_nil_r in K. rewrite <- K.
      apply ev_ext. intros c4 u _. now rewrite app_nil_r. }
  exists ab, bc, r. auto.
Qed.
Theorem assoc_all : (forall x y z, associates go so (gx x) (gx y) (gx z)) ->
  forall a b c : emap, nonzero so a -> nonzero so b -> nonzero so c -> associates go so a b c.
Proof. intros HA. apply assoc_conf. now apply all_conf. Qed.
Theorem assoc_res : (forall x y z, F x y <> None -> F y z <> None -> Res x y z) ->
  forall a b c : emap, nonzero so a -> nonzero so b -> nonzero so c -> associates go so a b c.
Proof. intros HR. apply assoc_conf. intros w. apply (confluence (M w)); auto. Qed.

End Assoc.
