(** A faithful representation for uniqueness of normal forms (C10): operators
    on the Fock space of finitely many fermionic, bosonic and spin-1/2 sites.
    Operators are given by their rows: [f y] lists the (coefficient, column)
    pairs of row [y]. *)
From Coq Require Import ZArith Bool Lia List Setoid Morphisms Ncring Ncring_tac.
From Verif Require Import ExprModel ExprSpec ExprOrder ExprMap ExprEval ExprStd FockSpec.
Import ListNotations.
Open Scope nat_scope.
Open Scope list_scope.

(** *** Scalars as a ring *)
Section ScalarRing.
Context {S : Type} (so : scalar_ops S) (L : scalar_laws so).
Definition scalar_ring : ring_ops S :=
  mk_ring S eq (s_zero so) (s_one so) (s_add so) (s_mul so) (s_neg so).
Lemma scalar_is_ring : is_ring scalar_ring.
Proof.
  constructor; simpl; try (now repeat intro; subst); try apply L; try typeclasses eauto.
Qed.
End ScalarRing.

Section Rows.
Context {S : Type} (so : scalar_ops S) (L : scalar_laws so) (Y : Type).
Local Instance sopsI : @Ring_ops S (s_zero so) (s_one so) (s_add so) (s_mul so) (rsub (scalar_ring so)) (s_neg so) (@eq S)
  := nc_ops (scalar_ring so).
Local Instance sringI : @Ring _ _ _ _ _ _ _ _ sopsI := nc_ring (scalar_ring so) (scalar_is_ring so L).
Notation "x +s y" := (s_add so x y) (at level 50, left associativity).
Notation "x *s y" := (s_mul so x y) (at level 40, left associativity).
Ltac sr := non_commutative_ring.

Definition rows : Type := Y -> list (S * Y).
Fixpoint rsum (psi : Y -> S) (l : list (S * Y)) : S :=
  match l with [] => s_zero so | p :: l' => fst p *s psi (snd p) +s rsum psi l' end.
Definition act (f : rows) (psi : Y -> S) (y : Y) : S := rsum psi (f y).

Definition rows_ring : ring_ops rows :=
  mk_ring rows (fun f g => forall psi y, act f psi y = act g psi y)
    (fun _ => [])
    (fun y => [(s_one so, y)])
    (fun f g y => f y ++ g y)
    (fun f g y => flat_map (fun p => map (fun q => (fst p *s fst q, snd q)) (g (snd p))) (f y))
    (fun f y => map (fun p => (s_neg so (fst p), snd p)) (f y)).

Lemma rsum_app psi a b : rsum psi (a ++ b) = rsum psi a +s rsum psi b.
Proof. induction a as [|p a IH]; simpl; [sr|]. rewrite IH. sr. Qed.
Lemma rsum_ext psi psi' l : (forall y, psi y = psi' y) -> rsum psi l = rsum psi' l.
Proof. intros h. induction l as [|p l IH]; simpl; auto. now rewrite IH, h. Qed.
Lemma rsum_add psi psi' l : rsum (fun y => psi y +s psi' y) l = rsum psi l +s rsum psi' l.
Proof. induction l as [|p l IH]; simpl; [sr|]. rewrite IH. sr. Qed.
Lemma rsum_scale x g psi : rsum psi (map (fun q => (x *s fst q, snd q)) g) = x *s rsum psi g.
Proof. induction g as [|p l IH]; simpl; [sr|]. rewrite IH. sr. Qed.

Lemma act_0 psi y : act (r0 rows_ring) psi y = s_zero so.
Proof. reflexivity. Qed.
Lemma act_1 psi y : act (r1 rows_ring) psi y = psi y.
Proof. unfold act; simpl. sr. Qed.
Lemma act_add f g psi y : act (radd rows_ring f g) psi y = act f psi y +s act g psi y.
Proof. unfold act; simpl. apply rsum_app. Qed.
Lemma act_opp f psi y : act (ropp rows_ring f) psi y = s_neg so (act f psi y).
Proof.
  unfold act; simpl. induction (f y) as [|p l IH]; simpl; [sr|]. rewrite IH. sr.
Qed.
Lemma act_mul f g psi y : act (rmul rows_ring f g) psi y = act f (act g psi) y.
Proof.
  unfold act; simpl. induction (f y) as [|p l IH]; simpl; [reflexivity|].
  rewrite rsum_app, IH, rsum_scale. reflexivity.
Qed.
Lemma act_ext f psi psi' y : (forall z, psi z = psi' z) -> act f psi y = act f psi' y.
Proof. apply rsum_ext. Qed.
Lemma act_plus f psi psi' y : act f (fun z => psi z +s psi' z) y = act f psi y +s act f psi' y.
Proof. apply rsum_add. Qed.

Lemma rows_is_ring : is_ring rows_ring.
Proof.
  constructor.
  - constructor; simpl.
    + intros f psi y. reflexivity.
    + intros f g h psi y. now rewrite h.
    + intros f g k h h' psi y. now rewrite h, h'.
  - intros f f' h g g' h' psi y. rewrite !(act_add). now rewrite (h psi y), (h' psi y).
  - intros f f' h g g' h' psi y. rewrite !(act_mul), (h _ y). apply act_ext. exact (h' psi).
  - intros f f' h psi y. rewrite !(act_opp). now rewrite (h psi y).
  - intros f g psi y. rewrite !act_add. sr.
  - intros f g h psi y. rewrite !act_add. sr.
  - intros f psi y. rewrite !act_add, act_0. sr.
  - intros f psi y. rewrite !act_add, act_opp, act_0. sr.
  - intros f g h psi y. rewrite !act_mul. apply act_ext. intros z. now rewrite act_mul.
  - intros f psi y. rewrite !act_mul, act_1. reflexivity.
  - intros f psi y. rewrite !act_mul. apply act_ext. intros z. apply act_1.
  - intros f g h psi y. rewrite act_add, !act_mul, <- act_plus. apply act_ext. intros z. apply act_add.
  - intros f g h psi y. rewrite act_add, !act_mul, act_add. reflexivity.
Qed.

Definition rows_inj (x : S) : rows := fun y => [(x, y)].
Lemma act_inj x psi y : act (rows_inj x) psi y = x *s psi y.
Proof. unfold act; simpl. sr. Qed.

(** central scalars *)
Definition central (c : S) : Prop := forall x, c *s x = x *s c.
Lemma central_0 : central (s_zero so).
Proof. intros x. sr. Qed.
Lemma central_1 : central (s_one so).
Proof. intros x. sr. Qed.
Lemma central_neg c : central c -> central (s_neg so c).
Proof. intros h x. transitivity (s_neg so (c *s x)); [sr|]. rewrite h. sr. Qed.
Lemma central_add c d : central c -> central d -> central (c +s d).
Proof. intros h h' x. transitivity (c *s x +s d *s x); [sr|]. rewrite h, h'. sr. Qed.
Lemma central_mul c d : central c -> central d -> central (c *s d).
Proof.
  intros h h' x. transitivity (c *s (d *s x)); [sr|]. rewrite h'.
  transitivity ((c *s x) *s d); [sr|]. rewrite h. sr.
Qed.
Lemma central_nmul n : central (nmul so n (s_one so)).
Proof. induction n; simpl; auto using central_0, central_1, central_add. Qed.
Lemma central_half h : h +s h = s_one so -> central h.
Proof.
  intros E x.
  transitivity (h *s x *s (h +s h)); [rewrite E; sr|].
  transitivity ((h +s h) *s x *s h); [sr|]. rewrite E. sr.
Qed.

(** monomial operators: at most one entry per row *)
Definition opt_row (o : option (S * Y)) : list (S * Y) :=
  match o with Some p => [p] | None => [] end.
Definition oact (o : option (S * Y)) (psi : Y -> S) : S :=
  match o with Some (c, x) => c *s psi x | None => s_zero so end.
Lemma act_opt (b : Y -> option (S * Y)) psi y : act (fun z => opt_row (b z)) psi y = oact (b y) psi.
Proof. unfold act, oact. destruct (b y) as [[c x]|]; simpl; sr. Qed.
End Rows.

(** *** Sites and states *)
Definition is_sf {I} (b : site I) : bool := match b with SF _ => true | _ => false end.
Definition is_f {I} (g : gen I) : bool := is_sf (site_of g).

(** one digit per site: fermions and spins use the boolean (occupied / up),
    bosons the number *)
Definition digit : Type := (bool * nat)%type.
Fixpoint St {I} (B : list (site I)) : Type :=
  match B with [] => unit | _ :: B' => (digit * St B')%type end.

Section Fock.
Context {I S : Type} (io : index_ops I) (Hio : index_order io).
Context (so : scalar_ops S) (L : scalar_laws so) (h : S).
Local Instance sopsJ : @Ring_ops S (s_zero so) (s_one so) (s_add so) (s_mul so) (rsub (scalar_ring so)) (s_neg so) (@eq S)
  := nc_ops (scalar_ring so).
Local Instance sringJ : @Ring _ _ _ _ _ _ _ _ sopsJ := nc_ring (scalar_ring so) (scalar_is_ring so L).
Notation "x +s y" := (s_add so x y) (at level 50, left associativity).
Notation "x *s y" := (s_mul so x y) (at level 40, left associativity).
Ltac sr := non_commutative_ring.

Definition site_eqb (a b : site I) : bool :=
  match a, b with
  | SF i, SF j => i_eq io i j
  | SB i, SB j => i_eq io i j
  | SH i, SH j => i_eq io i j
  | _, _ => false
  end.
Lemma site_eqb_eq a b : site_eqb a b = true <-> a = b.
Proof.
  destruct a, b; simpl; rewrite ?(sto_eq _ _ _ Hio); split; congruence.
Qed.
Lemma site_eqb_neq a b : site_eqb a b = false <-> a <> b.
Proof.
  rewrite <- not_true_iff_false, site_eqb_eq. reflexivity.
Qed.
Lemma site_eqb_refl a : site_eqb a a = true.
Proof. now apply site_eqb_eq. Qed.

(** row [d] of a generator on its own site *)
Definition local (g : gen I) (d : digit) : option (S * digit) :=
  let (o, k) := d in
  match g with
  | GFermion true _ | GSpin _ Plus _ => if o then Some (s_one so, (false, k)) else None
  | GFermion false _ | GSpin _ Minus _ => if o then None else Some (s_one so, (true, k))
  | GSpin _ Zcomp _ => Some (if o then h else s_neg so h, d)
  | GBoson true _ => match k with O => None | Datatypes.S k' => Some (s_one so, (o, k')) end
  | GBoson false _ => Some (nmul so (k + 1) (s_one so), (o, k + 1))
  end.

Definition sgn (b : bool) (x : S) : S := if b then s_neg so x else x.

Fixpoint back (B : list (site I)) (g : gen I) : St B -> option (S * St B) :=
  match B with
  | [] => fun _ => None
  | b :: B' => fun y =>
      let (d, ys) := y in
      if site_eqb b (site_of g) then
        match local g d with Some (c, d') => Some (c, (d', ys)) | None => None end
      else
        match back B' g ys with
        | Some (c, ys') => Some (sgn (is_sf b && is_f g && fst d) c, (d, ys'))
        | None => None
        end
  end.

Definition frho (B : list (site I)) (g : gen I) : rows (S := S) (St B) := fun y => opt_row (St B) (back B g y).
(** action of a generator on a vector *)
Definition fact (B : list (site I)) (g : gen I) (psi : St B -> S) (y : St B) : S :=
  oact so (St B) (back B g y) psi.
Definition lact (g : gen I) (psi : digit -> S) (d : digit) : S := oact so digit (local g d) psi.

Lemma act_frho B g psi y : act so (St B) (frho B g) psi y = fact B g psi y.
Proof. apply (act_opt so L). Qed.

Lemma sgn_mul b x y : sgn b x *s y = sgn b (x *s y).
Proof. destruct b; simpl; auto. apply (s_mul_neg_l so L). Qed.
Lemma sgn_0 b : sgn b (s_zero so) = s_zero so.
Proof. destruct b; simpl; auto. apply (s_neg_zero so L). Qed.

Lemma fact_head b B g psi d ys : site_of g = b ->
  fact (b :: B) g psi (d, ys) = lact g (fun d' => psi (d', ys)) d.
Proof.
  intros <-. unfold fact, lact, oact. simpl. rewrite site_eqb_refl.
  destruct (local g d) as [[c d']|]; reflexivity.
Qed.
Lemma fact_tail b B g psi d ys : site_of g <> b ->
  fact (b :: B) g psi (d, ys) =
  sgn (is_sf b && is_f g && fst d) (fact B g (fun ys' => psi (d, ys')) ys).
Proof.
  intros n. unfold fact, oact. simpl.
  replace (site_eqb b (site_of g)) with false by (symmetry; apply site_eqb_neq; congruence).
  destruct (back B g ys) as [[c ys']|]; [apply sgn_mul|now rewrite sgn_0].
Qed.
Lemma fact_ext B g psi psi' y : (forall z, psi z = psi' z) -> fact B g psi y = fact B g psi' y.
Proof. intros e. unfold fact, oact. destruct (back B g y) as [[c x]|]; auto. now rewrite e. Qed.
Lemma lact_ext g psi psi' y : (forall z, psi z = psi' z) -> lact g psi y = lact g psi' y.
Proof. intros e. unfold lact, oact. destruct (local g y) as [[c x]|]; auto. now rewrite e. Qed.
Lemma fact_sgn B g b psi y : fact B g (fun z => sgn b (psi z)) y = sgn b (fact B g psi y).
Proof.
  unfold fact, oact. destruct (back B g y) as [[c x]|]; [|now rewrite sgn_0].
  destruct b; simpl; auto. apply (s_mul_neg_r so L).
Qed.
Lemma lact_sgn g b psi y : lact g (fun z => sgn b (psi z)) y = sgn b (lact g psi y).
Proof.
  unfold lact, oact. destruct (local g y) as [[c x]|]; [|now rewrite sgn_0].
  destruct b; simpl; auto. apply (s_mul_neg_r so L).
Qed.
Lemma sgn_sgn a b x : sgn a (sgn b x) = sgn (xorb a b) x.
Proof. destruct a, b; simpl; auto. apply (s_neg_neg so L). Qed.
Lemma sgn_add b x y : sgn b (x +s y) = sgn b x +s sgn b y.
Proof. destruct b; simpl; auto. apply (s_neg_add so L). Qed.
Lemma sgn_neg b x : sgn b (s_neg so x) = s_neg so (sgn b x).
Proof. destruct b; simpl; auto. Qed.
Lemma sgn_invol b x : sgn b (sgn b x) = x.
Proof. rewrite sgn_sgn, xorb_nilpotent. reflexivity. Qed.

(** two generators acting on the rest of the lattice *)
Lemma fact_tail2 b B g g' psi d ys : site_of g <> b -> site_of g' <> b ->
  fact (b :: B) g (fact (b :: B) g' psi) (d, ys) =
  sgn (xorb (is_sf b && is_f g && fst d) (is_sf b && is_f g' && fst d))
    (fact B g (fact B g' (fun ys' => psi (d, ys'))) ys).
Proof.
  intros n n'. rewrite fact_tail by auto.
  rewrite (fact_ext B g _ (fun ys' => sgn (is_sf b && is_f g' && fst d) (fact B g' (fun z => psi (d, z)) ys'))).
  2:{ intros z. now apply fact_tail. }
  now rewrite fact_sgn, sgn_sgn.
Qed.
Lemma fact_head2 b B g g' psi d ys : site_of g = b -> site_of g' = b ->
  fact (b :: B) g (fact (b :: B) g' psi) (d, ys) =
  lact g (lact g' (fun d' => psi (d', ys))) d.
Proof.
  intros n n'. rewrite fact_head by auto. apply lact_ext. intros z. now apply fact_head.
Qed.

Definition anti (g g' : gen I) : bool := is_f g && is_f g'.

(** fermionic generators flip the occupation of their site, the others keep
    its parity sign irrelevant *)
Lemma local_flip g d c d' : is_f g = true -> local g d = Some (c, d') -> fst d' = negb (fst d).
Proof.
  destruct g as [[] i|dg i|m cc i], d as [[] k]; try discriminate; intros _ E; inversion E; reflexivity.
Qed.

(** central coefficients *)
Lemma local_central g d c d' : (forall m i c, g = GSpin m c i -> h +s h = s_one so) ->
  local g d = Some (c, d') -> central so c.
Proof.
  intros Hh. destruct d as [o k].
  destruct g as [[] i|[] i|m [] i]; simpl; intros E.
  - destruct o; inversion E; subst; apply (central_1 so L).
  - destruct o; inversion E; subst; apply (central_1 so L).
  - destruct k; inversion E; subst; apply (central_1 so L).
  - injection E as <- _. apply (central_nmul so L).
  - destruct o; inversion E; subst; apply (central_1 so L).
  - destruct o; inversion E; subst; apply (central_1 so L).
  - pose proof (central_half so L _ (Hh _ _ _ eq_refl)) as C.
    destruct o; inversion E; subst; auto using central_neg.
Qed.
Lemma back_central B g : (forall m i c, g = GSpin m c i -> h +s h = s_one so) ->
  forall y c x, back B g y = Some (c, x) -> central so c.
Proof.
  intros Hh. induction B as [|b B IH]; intros y c x; simpl; [discriminate|].
  destruct y as [d ys]. destruct (site_eqb b (site_of g)).
  - destruct (local g d) as [[c0 d']|] eqn:E; [|discriminate]. intros K. injection K as <- _.
    eapply local_central; eauto.
  - destruct (back B g ys) as [[c0 ys']|] eqn:E; [|discriminate]. intros K. injection K as <- _.
    apply IH in E. unfold sgn. destruct (is_sf b && is_f g && fst d); auto using central_neg.
Qed.

(** head and tail (anti)commute *)
Lemma fact_cross b B g g' psi d ys : site_of g = b -> site_of g' <> b ->
  (forall m i c, g = GSpin m c i -> h +s h = s_one so) ->
  fact (b :: B) g (fact (b :: B) g' psi) (d, ys) =
  sgn (anti g g') (fact (b :: B) g' (fact (b :: B) g psi) (d, ys)).
Proof.
  intros n n' Hh. rewrite fact_head by auto. rewrite (fact_tail b B g') by auto.
  rewrite (fact_ext B g' _ (fun z => lact g (fun d' => psi (d', z)) d)).
  2:{ intros z. now apply fact_head. }
  rewrite (lact_ext g _ (fun d' => sgn (is_sf b && is_f g' && fst d') (fact B g' (fun z => psi (d', z)) ys))).
  2:{ intros z. now apply fact_tail. }
  assert (F : is_sf b = is_f g) by (unfold is_f; now rewrite n). rewrite F. unfold anti.
  unfold lact at 1 2, fact, oact.
  destruct (local g d) as [[c d']|] eqn:E.
  - destruct (back B g' ys) as [[c' ys']|] eqn:E'.
    + pose proof (local_central _ _ _ _ Hh E) as C.
      assert (A : c *s (c' *s psi (d', ys')) = c' *s (c *s psi (d', ys'))).
      { transitivity ((c *s c') *s psi (d', ys')); [sr|]. rewrite C. sr. }
      destruct (is_f g) eqn:G1; simpl.
      * rewrite (local_flip _ _ _ _ G1 E). destruct (is_f g'); simpl; auto.
        destruct (fst d); simpl; rewrite ?(s_mul_neg_r so L), A; auto. now rewrite (s_neg_neg so L).
      * exact A.
    + rewrite !sgn_0, (s_mul_0_r so L). reflexivity.
  - destruct (back B g' ys) as [[c' ys']|]; rewrite ?(s_mul_0_r so L), !sgn_0; reflexivity.
Qed.

(** generators on different sites (anti)commute *)
Lemma fact_comm B g g' : site_of g <> site_of g' ->
  (forall m i c, g = GSpin m c i -> h +s h = s_one so) ->
  (forall m i c, g' = GSpin m c i -> h +s h = s_one so) ->
  forall psi y, fact B g (fact B g' psi) y = sgn (anti g g') (fact B g' (fact B g psi) y).
Proof.
  intros n Hg Hg'. induction B as [|b B IH]; intros psi y.
  - unfold fact, oact; simpl. now rewrite sgn_0.
  - destruct y as [d ys].
    destruct (site_eqb b (site_of g)) eqn:E; [|destruct (site_eqb b (site_of g')) eqn:E'].
    + apply site_eqb_eq in E. apply fact_cross; congruence || auto.
    + apply site_eqb_neq in E. apply site_eqb_eq in E'.
      rewrite (fact_cross b B g' g) by (congruence || auto).
      replace (anti g' g) with (anti g g') by (unfold anti; apply andb_comm).
      now rewrite sgn_invol.
    + apply site_eqb_neq in E, E'. rewrite !fact_tail2 by congruence.
      rewrite IH, !sgn_sgn. f_equal. rewrite xorb_comm. f_equal. apply xorb_comm.
Qed.

(** polynomial relations on one site lift from the site to the lattice *)
Fixpoint fmono (B : list (site I)) (m : list (gen I)) (psi : St B -> S) : St B -> S :=
  match m with [] => psi | g :: m' => fact B g (fmono B m' psi) end.
Fixpoint lmono (m : list (gen I)) (psi : digit -> S) : digit -> S :=
  match m with [] => psi | g :: m' => lact g (lmono m' psi) end.

Lemma fmono_ext B m : forall psi psi', (forall z, psi z = psi' z) -> forall y, fmono B m psi y = fmono B m psi' y.
Proof. induction m as [|g m IH]; simpl; intros psi psi' e y; auto. apply fact_ext. auto. Qed.

Lemma fmono_head b B m : Forall (fun g => site_of g = b) m -> forall psi d ys,
  fmono (b :: B) m psi (d, ys) = lmono m (fun d' => psi (d', ys)) d.
Proof.
  induction 1 as [|g m hg hm IH]; simpl; intros psi d ys; auto.
  rewrite fact_head by auto. apply lact_ext. intros z. apply IH.
Qed.
Definition npar (m : list (gen I)) : bool := fold_right (fun g a => xorb (is_f g) a) false m.
Lemma fmono_tail b B m : Forall (fun g => site_of g <> b) m -> forall psi d ys,
  fmono (b :: B) m psi (d, ys) =
  sgn (is_sf b && fst d && npar m) (fmono B m (fun ys' => psi (d, ys')) ys).
Proof.
  induction 1 as [|g m hg hm IH]; simpl; intros psi d ys.
  - now rewrite andb_false_r.
  - rewrite fact_tail by auto.
    erewrite (fact_ext B g); [|intros z; apply IH]. rewrite fact_sgn, sgn_sgn. f_equal.
    destruct (is_sf b), (is_f g), (fst d), (npar m); reflexivity.
Qed.

(** a relation [sum c_k m_k = 0] between operators of one site *)
Fixpoint fpoly (B : list (site I)) (p : list (list (gen I) * S)) (psi : St B -> S) (y : St B) : S :=
  match p with
  | [] => s_zero so
  | (m, c) :: p' => c *s fmono B m psi y +s fpoly B p' psi y
  end.
Fixpoint lpoly (p : list (list (gen I) * S)) (psi : digit -> S) (d : digit) : S :=
  match p with
  | [] => s_zero so
  | (m, c) :: p' => c *s lmono m psi d +s lpoly p' psi d
  end.

Lemma site_relation s p q par : Forall (fun t => Forall (fun g => site_of g = s) (fst t) /\ (is_sf s = true -> npar (fst t) = par)) (p ++ q) ->
  (forall psi d, lpoly p psi d = lpoly q psi d) ->
  forall B, In s B -> forall psi y, fpoly B p psi y = fpoly B q psi y.
Proof.
  intros HF HL. induction B as [|b B IH]; intros HB; [contradiction|].
  intros psi [d ys].
  destruct (site_eqb b s) eqn:E.
  - apply site_eqb_eq in E. subst b.
    assert (K : forall r, Forall (fun t => Forall (fun g => site_of g = s) (fst t) /\ (is_sf s = true -> npar (fst t) = par)) r ->
      fpoly (s :: B) r psi (d, ys) = lpoly r (fun d' => psi (d', ys)) d).
    { induction 1 as [|[m c] r [hm _] hr IHr]; cbn [fpoly lpoly fst]; auto.
      rewrite IHr, fmono_head by auto. reflexivity. }
    apply Forall_app in HF. destruct HF. rewrite !K by auto. apply HL.
  - apply site_eqb_neq in E. destruct HB as [HB|HB]; [congruence|].
    assert (K : forall r, Forall (fun t => Forall (fun g => site_of g = s) (fst t) /\ (is_sf s = true -> npar (fst t) = par)) r ->
      fpoly (b :: B) r psi (d, ys) = sgn (is_sf b && is_sf s && fst d && par) (fpoly B r (fun ys' => psi (d, ys')) ys)).
    { induction 1 as [|[m c] r [hm hp] hr IHr]; cbn [fpoly fst].
      - now rewrite sgn_0.
      - cbn [fst] in *. rewrite IHr, fmono_tail by (eapply Forall_impl; [|exact hm]; simpl; congruence).
        rewrite sgn_add. f_equal.
        assert (Q : is_sf b && fst d && npar m = is_sf b && is_sf s && fst d && par).
        { destruct (is_sf s) eqn:Es.
          - rewrite hp by auto. now rewrite andb_true_r.
          - replace (npar m) with false; [now rewrite !andb_false_r|].
            clear - hm Es. induction hm as [|g m hg hm IH]; simpl; auto.
            rewrite <- IH. unfold is_f. now rewrite hg, Es. }
        rewrite Q. destruct (is_sf b && is_sf s && fst d && par); simpl; auto. apply (s_mul_neg_r so L). }
    apply Forall_app in HF. destruct HF. rewrite !K by auto. now rewrite IH.
Qed.

(** *** The relations hold *)
Section Relations.
Context (B : list (site I)) (Hh : forall i, In (SH i) B -> h +s h = s_one so).
Notation R := (rows_ring so (St B)).
Notation inj := (rows_inj (S := S) (St B)).
Notation rho := (frho B).

Lemma Hhg g : on_sites B g -> forall m i c, g = GSpin m c i -> h +s h = s_one so.
Proof. intros [i1 _] m i c ->. simpl in i1. eauto. Qed.

Lemma act_rho g psi y : act so (St B) (rho g) psi y = fact B g psi y.
Proof. apply act_frho. Qed.

Lemma act_2 g g' psi y : act so (St B) (rmul R (rho g) (rho g')) psi y = fact B g (fact B g' psi) y.
Proof.
  rewrite (act_mul so L), act_rho. apply fact_ext. intros z. apply act_rho.
Qed.

Lemma fpoly_1 psi y m : fpoly B [(m, s_one so)] psi y = fmono B m psi y.
Proof. cbn [fpoly]. sr. Qed.

Lemma half_unique x : x +s x = s_one so -> h +s h = s_one so -> x = h.
Proof.
  intros E E'. transitivity (x *s (h +s h)); [rewrite E'; sr|].
  transitivity ((x +s x) *s h); [sr|]. rewrite E. sr.
Qed.

Ltac digits := intros psi0 [[] k]; unfold lpoly, lmono, lact, oact, local; cbn [fst snd].
Ltac sites := repeat constructor; simpl; auto; discriminate.

Lemma fock_comm g g' : on_sites B g -> on_sites B g' -> site_of g <> site_of g' ->
  is_f g && is_f g' = false ->
  req R (rmul R (rho g) (rho g')) (rmul R (rho g') (rho g)).
Proof.
  intros k k' n e psi y. rewrite !act_2, fact_comm by (auto; now apply Hhg). unfold anti. now rewrite e.
Qed.

Lemma fock_relations : relations_on (on_sites B) so R inj rho.
Proof.
  constructor.
  - intros d i [K _] psi y. rewrite act_2, (act_0 so).
    pose proof (site_relation (SF i) [([GFermion d i; GFermion d i], s_one so)] [] false) as Q.
    transitivity (fpoly B [([GFermion d i; GFermion d i], s_one so)] psi y); [symmetry; apply fpoly_1|].
    apply Q; auto.
    + sites.
    + destruct d; digits; sr.
  - intros d d' i j K K' n psi y. rewrite (act_opp so L), !act_2, fact_comm by ((simpl; congruence) || (now apply Hhg)).
    reflexivity.
  - intros i [K _] _ psi y. rewrite (act_add so L), !act_2, (act_1 so L).
    pose proof (site_relation (SF i) [([GFermion false i; GFermion true i], s_one so); ([GFermion true i; GFermion false i], s_one so)]
      [([], s_one so)] false) as Q.
    transitivity (fpoly B [([], s_one so)] psi y); [|apply fpoly_1]. rewrite <- Q; auto.
    + cbn [fpoly fmono]. sr.
    + sites.
    + digits; sr.
  - intros d i j K K'. destruct (site_eqb (SB i) (SB j)) eqn:E.
    + apply site_eqb_eq in E. injection E as ->. intros psi y. reflexivity.
    + apply site_eqb_neq in E. apply fock_comm; auto.
  - intros i j K K' n. apply fock_comm; auto. simpl. congruence.
  - intros i [K _] _ psi y. rewrite (act_add so L), !act_2, (act_1 so L).
    pose proof (site_relation (SB i) [([GBoson false i; GBoson true i], s_one so)]
      [([], s_one so); ([GBoson true i; GBoson false i], s_one so)] false) as Q.
    transitivity (fpoly B [([GBoson false i; GBoson true i], s_one so)] psi y); [symmetry; apply fpoly_1|].
    rewrite Q; auto.
    + cbn [fpoly fmono]. sr.
    + sites.
    + intros psi0 [o [|k]]; unfold lpoly, lmono, lact, oact, local; cbn [fst snd nmul Nat.add]; [sr|].
      rewrite Nat.add_1_r. cbn [nmul]. sr.
  - intros m m' c c' i j K K' n. apply fock_comm; auto. simpl. destruct K as [_ K], K' as [_ K'].
    simpl in K, K'. congruence.
  - intros m i K psi y. pose proof (Hhg _ K m i _ eq_refl) as E. destruct K as [K _].
    rewrite !(act_add so L), !act_2, !act_rho.
    pose proof (site_relation (SH i) [([GSpin m Plus i; GSpin m Minus i], s_one so)]
      [([GSpin m Minus i; GSpin m Plus i], s_one so); ([GSpin m Zcomp i], s_one so); ([GSpin m Zcomp i], s_one so)] false) as Q.
    transitivity (fpoly B [([GSpin m Plus i; GSpin m Minus i], s_one so)] psi y); [symmetry; apply fpoly_1|].
    rewrite Q; auto.
    + cbn [fpoly fmono]. sr.
    + sites.
    + digits.
      * transitivity ((h +s h) *s psi0 (true, k)); [rewrite E; sr|sr].
      * transitivity ((s_one so +s s_neg so (h +s h)) *s psi0 (false, k)); [rewrite E; sr|sr].
  - intros m i K psi y. pose proof (Hhg _ K m i _ eq_refl) as E. destruct K as [K _].
    rewrite !(act_add so L), !act_2, !act_rho.
    pose proof (site_relation (SH i) [([GSpin m Zcomp i; GSpin m Plus i], s_one so)]
      [([GSpin m Plus i; GSpin m Zcomp i], s_one so); ([GSpin m Plus i], s_one so)] false) as Q.
    transitivity (fpoly B [([GSpin m Zcomp i; GSpin m Plus i], s_one so)] psi y); [symmetry; apply fpoly_1|].
    rewrite Q; auto.
    + cbn [fpoly fmono]. sr.
    + sites.
    + digits; [|sr].
      transitivity ((s_neg so h +s (h +s h)) *s psi0 (false, k)); [sr|rewrite E; sr].
  - intros m i K psi y. pose proof (Hhg _ K m i _ eq_refl) as E. destruct K as [K _].
    rewrite !(act_add so L), (act_opp so L), !act_2, !act_rho.
    pose proof (site_relation (SH i) [([GSpin m Zcomp i; GSpin m Minus i], s_one so)]
      [([GSpin m Minus i; GSpin m Zcomp i], s_one so); ([GSpin m Minus i], s_neg so (s_one so))] false) as Q.
    transitivity (fpoly B [([GSpin m Zcomp i; GSpin m Minus i], s_one so)] psi y); [symmetry; apply fpoly_1|].
    rewrite Q; auto.
    + cbn [fpoly fmono]. sr.
    + sites.
    + digits; [sr|].
      transitivity ((h +s s_neg so (h +s h)) *s psi0 (true, k)); [sr|rewrite E; sr].
  - intros m i c [K Km] nc hm psi y. simpl in Km. subst m. rewrite (act_0 so). cbn [rpow].
    rewrite (act_mul so L), act_rho.
    erewrite fact_ext; [|intros z; rewrite (act_mul so L), act_rho; apply fact_ext; intros z'; apply (act_1 so L)].
    pose proof (site_relation (SH i) [([GSpin 2 c i; GSpin 2 c i], s_one so)] [] false) as Q.
    transitivity (fpoly B [([GSpin 2 c i; GSpin 2 c i], s_one so)] psi y); [symmetry; apply fpoly_1|].
    apply Q; auto.
    + sites.
    + destruct c; try congruence; digits; sr.
  - intros i h' K E'. pose proof (Hhg _ K 2 i _ eq_refl) as E. rewrite (half_unique _ E' E). destruct K as [K _].
    intros psi y. rewrite !(act_add so L), !act_2, !act_rho, (act_inj so L).
    pose proof (site_relation (SH i) [([GSpin 2 Plus i; GSpin 2 Minus i], s_one so)]
      [([], h); ([GSpin 2 Zcomp i], s_one so)] false) as Q.
    transitivity (fpoly B [([GSpin 2 Plus i; GSpin 2 Minus i], s_one so)] psi y); [symmetry; apply fpoly_1|].
    rewrite Q; auto.
    + cbn [fpoly fmono]. sr.
    + sites.
    + digits; [|sr].
      transitivity ((h +s h) *s psi0 (true, k)); [rewrite E; sr|sr].
  - intros i h' K E'. pose proof (Hhg _ K 2 i _ eq_refl) as E. rewrite (half_unique _ E' E). destruct K as [K _].
    intros psi y. rewrite act_2, (act_opp so L), (act_mul so L), (act_inj so L), !act_rho.
    pose proof (site_relation (SH i) [([GSpin 2 Plus i; GSpin 2 Zcomp i], s_one so)]
      [([GSpin 2 Plus i], s_neg so h)] false) as Q.
    transitivity (fpoly B [([GSpin 2 Plus i; GSpin 2 Zcomp i], s_one so)] psi y); [symmetry; apply fpoly_1|].
    rewrite Q; auto.
    + cbn [fpoly fmono]. sr.
    + sites.
    + digits; sr.
  - intros i h' K E'. pose proof (Hhg _ K 2 i _ eq_refl) as E. rewrite (half_unique _ E' E). destruct K as [K _].
    intros psi y. rewrite act_2, !(act_mul so L), (act_inj so L), !act_rho.
    pose proof (site_relation (SH i) [([GSpin 2 Minus i; GSpin 2 Zcomp i], s_one so)]
      [([GSpin 2 Minus i], h)] false) as Q.
    transitivity (fpoly B [([GSpin 2 Minus i; GSpin 2 Zcomp i], s_one so)] psi y); [symmetry; apply fpoly_1|].
    rewrite Q; auto.
    + cbn [fpoly fmono]. sr.
    + sites.
    + digits; sr.
  - intros i h' K E'. pose proof (Hhg _ K 2 i _ eq_refl) as E. rewrite (half_unique _ E' E). destruct K as [K _].
    intros psi y. rewrite !act_2, (act_inj so L).
    pose proof (site_relation (SH i) [([GSpin 2 Zcomp i; GSpin 2 Zcomp i], s_one so)]
      [([], h *s h)] false) as Q.
    transitivity (fpoly B [([GSpin 2 Zcomp i; GSpin 2 Zcomp i], s_one so)] psi y); [symmetry; apply fpoly_1|].
    rewrite Q; auto.
    + cbn [fpoly fmono]. sr.
    + sites.
    + digits; sr.
  - intros. apply fock_comm; auto. simpl. discriminate.
  - intros. apply fock_comm; auto. simpl. discriminate.
  - intros. apply fock_comm; auto. simpl. discriminate.
Qed.


Lemma back_site C g : forall y c x, back C g y = Some (c, x) -> In (site_of g) C.
Proof.
  induction C as [|b C IH]; intros y c x; simpl; [discriminate|]. destruct y as [d ys].
  destruct (site_eqb b (site_of g)) eqn:E; [intros _; left; now apply site_eqb_eq|].
  destruct (back C g ys) as [[c0 x0]|] eqn:E'; [|discriminate]. intros _. right. eauto.
Qed.
Lemma fock_scalars : scalar_image so R inj rho.
Proof.
  constructor.
  - intros psi y. rewrite (act_inj so L), (act_0 so). apply (s_mul_0_l so L).
  - intros psi y. rewrite (act_inj so L), (act_1 so L). apply (sl_mul_1_l _ L).
  - intros x x' psi y. rewrite (act_add so L), !(act_inj so L). apply (sl_dist_r _ L).
  - intros x x' psi y. rewrite (act_mul so L), !(act_inj so L). symmetry. apply (sl_mul_assoc _ L).
  - intros x g psi y. rewrite !(act_mul so L), (act_inj so L), !act_rho.
    erewrite fact_ext; [|intros z; apply (act_inj so L)].
    unfold fact, oact. destruct (back B g y) as [[c z]|] eqn:E; [|now rewrite (s_mul_0_r so L)].
    assert (C : central so c).
    { eapply back_central; [|exact E]. intros m i c0 ->. apply back_site in E. simpl in E. eauto. }
    transitivity ((c *s x) *s psi z); [sr|]. rewrite C. sr.
Qed.

Lemma act_eval_mono m psi y : act so (St B) (eval_mono R rho m) psi y = fmono B m psi y.
Proof.
  revert psi y. induction m as [|g m IH]; intros psi y; cbn [eval_mono fmono].
  - apply (act_1 so L).
  - rewrite (act_mul so L), act_rho. apply fact_ext. intros z. apply IH.
Qed.
Lemma act_eval_expr e psi y : act so (St B) (eval_expr R inj rho e) psi y = fpoly B e psi y.
Proof.
  induction e as [|[m c] e IH]; cbn [eval_expr fpoly]; [apply (act_0 so)|].
  rewrite (act_add so L), (act_mul so L), (act_inj so L), act_eval_mono, IH. reflexivity.
Qed.
End Relations.

End Fock.
