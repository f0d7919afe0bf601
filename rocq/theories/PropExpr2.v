(** * Properties C11, C14-C18, C58: more about polynomial expressions.
    Vocabulary: ExprSpec.v. *)
From Coq Require Import String ZArith Bool Lia QArith Qcanon List Sorted Setoid Morphisms.
From Verif Require Import ExprModel ExprSpec ExprOrder ExprMap ExprEval ExprStd ExprCanon ExprMain
  ExprHom ExprMerge ExprThrow ExprInst.
Import ListNotations.
Close Scope Qc_scope.
Close Scope Q_scope.
Close Scope string_scope.
Open Scope nat_scope.
Open Scope list_scope.

(** ** C14: transform *)
Theorem C14_transform : forall I (io : index_ops I) S (so : scalar_ops S) S' (so' : scalar_ops S')
  (f : list (gen I) -> S -> S') e,
  index_order io -> scalar_laws so -> scalar_laws so' -> canonical_expr io so e ->
  let r := e_transform (std_gen_ops io) so' f e in
  canonical_expr io so' r /\
  (forall m x, In (m, x) r <-> exists c, In (m, c) e /\ x = f m c /\ x <> s_zero so').
Proof.
  intros I io S so S' so' f e Hio L L' He r.
  destruct (canonical_wf io Hio so e He) as [e1 e2].
  assert (E : r = filter (fun p => negb (s_is_zero so' (snd p))) (map (fun p => (fst p, f (fst p) (snd p))) e))
    by (now apply transform_eq).
  assert (M : forall m x, In (m, x) r <-> exists c, In (m, c) e /\ x = f m c /\ x <> s_zero so').
  { intros m x. rewrite E, filter_In, in_map_iff. simpl. split.
    - intros [[[m' c] [E1 i]] z]. injection E1 as -> <-. exists c. split; auto. split; auto.
      apply (s_is_zero_false so' L'). simpl in z. now destruct (s_is_zero so' (f m c)).
    - intros [c [i [-> z]]]. split; [exists (m, c); auto|].
      apply (s_is_zero_false so' L') in z. now rewrite z. }
  split; auto. destruct He as [h1 h2]. split.
  - rewrite E. clear - h1. induction e as [|[m c] e IH]; [constructor|]. simpl in *.
    inversion h1 as [|? ? a1 a2]; subst. destruct (negb (s_is_zero so' (f m c))); auto.
    simpl. constructor; auto. rewrite Forall_forall in *. intros k ik. apply a2.
    apply in_map_iff in ik. destruct ik as [[m' x] [<- i]]. apply filter_In in i. destruct i as [i _].
    apply in_map_iff in i. destruct i as [[m1 c1] [E i]]. injection E as <- _. apply in_map_iff.
    exists (m1, c1); auto.
  - intros m x i. apply M in i. destruct i as [c [i [_ z]]]. split; auto. now apply (h2 m c).
Qed.
Print Assumptions C14_transform.

Definition go := std_gen_ops int_index_ops.
Example C14_example :
  e_transform go int_scalar_ops (fun m c => if Nat.eqb (length m) 1 then 0%Z else (c * 10)%Z)
    [([], 2%Z); ([GFermion true 1%Z], 3%Z); ([GFermion true 1%Z; GFermion false 2%Z], 4%Z)]
  = [([], 20%Z); ([GFermion true 1%Z; GFermion false 2%Z], 40%Z)].
Proof. reflexivity. Qed.


(** ** C11: the stored form is not unique for spin >= 1 *)
Definition Sp : gen Z := GSpin 3 Plus 0%Z.
Definition Sm : gen Z := GSpin 3 Minus 0%Z.
Definition Sz : gen Z := GSpin 3 Zcomp 0%Z.

(** S_- * (S_+ * S_+ * S_+) == 0, but (S_- * S_+ * S_+) * S_+ is stored as
    -6 S_+ S_+ - 6 S_+ S_+ S_z although both denote the zero operator. *)
Theorem C11_not_associative_refuted :
  exists a b c ab bc ab_c : list (list (gen Z) * Z),
    built int_index_ops int_scalar_ops [Sp; Sm] a /\ built int_index_ops int_scalar_ops [Sp; Sm] b /\
    built int_index_ops int_scalar_ops [Sp; Sm] c /\
    e_mul go int_scalar_ops a b = Ok ab /\ e_mul go int_scalar_ops b c = Ok bc /\
    e_mul go int_scalar_ops ab c = Ok ab_c /\ e_mul go int_scalar_ops a bc = Ok [] /\ ab_c <> [] /\
    (forall R (ro : ring_ops R) inj rho, representation int_scalar_ops ro inj rho ->
       req ro (eval_expr ro inj rho ab_c) (r0 ro)).
Proof.
  exists [([Sm], 1%Z)], [([Sp; Sp], 1%Z)], [([Sp], 1%Z)]. do 3 eexists.
  assert (B1 : built int_index_ops int_scalar_ops [Sp; Sm] [([Sm], 1%Z)]).
  { apply (b_mono int_index_ops int_scalar_ops [Sp; Sm] 1%Z [Sm]); [intros g [<-|[]]; simpl; auto|reflexivity]. }
  assert (B2 : built int_index_ops int_scalar_ops [Sp; Sm] [([Sp; Sp], 1%Z)]).
  { apply (b_mono int_index_ops int_scalar_ops [Sp; Sm] 1%Z [Sp; Sp]); [intros g [<-|[<-|[]]]; simpl; auto|reflexivity]. }
  assert (B3 : built int_index_ops int_scalar_ops [Sp; Sm] [([Sp], 1%Z)]).
  { apply (b_mono int_index_ops int_scalar_ops [Sp; Sm] 1%Z [Sp]); [intros g [<-|[]]; simpl; auto|reflexivity]. }
  do 3 (split; [assumption|]).
  do 3 (split; [vm_compute; reflexivity|]).
  split; [vm_compute; reflexivity|]. split; [discriminate|].
  intros R ro inj rho REP.
  pose proof (rep_ring _ _ _ _ REP) as Hr. pose proof (rep_scalars _ _ _ _ REP) as SI.
  pose proof (ri_equiv _ Hr) as EQ. pose proof (ri_mul_ext _ Hr) as MX.
  assert (CON : spin_consistent [Sp; Sm]).
  { split.
    - intros c c' m i [E|[E|[]]]; inversion E.
    - intros m c i [E|[E|[]]]; inversion E; lia. }
  assert (Hio : index_order int_index_ops).
  { apply sto_Z. }
  pose proof (std_order int_index_ops Hio) as Hgo.
  assert (MV : forall x y z, Pexpr (admissible [Sp; Sm]) x -> Pexpr (admissible [Sp; Sm]) y ->
     e_mul go int_scalar_ops x y = Ok z ->
     req ro (eval_expr ro inj rho z) (rmul ro (eval_expr ro inj rho x) (eval_expr ro inj rho y))).
  { intros x y z hx hy E.
    eapply (e_mul_sound go Hgo int_scalar_ops (sd_laws _ int_domain) ro Hr inj rho SI (admissible [Sp; Sm])); eauto.
    apply std_sound; auto using (sd_laws _ int_domain). }
  assert (PE : forall e, built int_index_ops int_scalar_ops [Sp; Sm] e -> Pexpr (admissible [Sp; Sm]) e).
  { intros e h. apply (built_inv int_index_ops Hio int_scalar_ops int_domain _ CON) in h.
    apply Forall_forall. intros [m x] i. simpl. eapply h; eauto. }
  set (A := [([Sm], 1%Z)]) in *. set (B := [([Sp; Sp], 1%Z)]) in *. set (C := [([Sp], 1%Z)]) in *.
  match goal with |- req ro (eval_expr ro inj rho ?e) _ => set (T := e) end.
  assert (E1 : exists AB, e_mul go int_scalar_ops A B = Ok AB /\ e_mul go int_scalar_ops AB C = Ok T).
  { eexists. split; [vm_compute; reflexivity|vm_compute; reflexivity]. }
  destruct E1 as [AB [E1 E2]].
  assert (E3 : e_mul go int_scalar_ops B C = Ok []) by (vm_compute; reflexivity).
  assert (BAB : built int_index_ops int_scalar_ops [Sp; Sm] AB) by (eapply b_mul; [exact B1|exact B2|exact E1]).
  rewrite (MV _ _ _ (PE _ BAB) (PE _ B3) E2), (MV _ _ _ (PE _ B1) (PE _ B2) E1), <- (ri_mul_assoc _ Hr).
  rewrite <- (MV _ _ _ (PE _ B2) (PE _ B3) E3). simpl.
  assert (R0 : forall x, req ro (rmul ro x (r0 ro)) (r0 ro)) .
  { intros x. pose proof (ri_add_ext _ Hr) as AX. set (y := rmul ro x (r0 ro)).
    assert (K : req ro (radd ro y y) y).
    { unfold y. rewrite <- (ri_dist_l _ Hr). now rewrite (ri_add_0 _ Hr). }
    transitivity (radd ro (radd ro y y) (ropp ro y)).
    - rewrite <- (ri_add_assoc _ Hr), (ri_opp _ Hr), (ri_add_comm _ Hr), (ri_add_0 _ Hr). reflexivity.
    - rewrite K. apply (ri_opp _ Hr). }
  apply R0.
Qed.
Print Assumptions C11_not_associative_refuted.

(** ** C16: simplification of products of spin-1/2 generators *)
(** Finding F1: products of generators of *different* multiplicities with the
    same index are simplified as if both belonged to one spin-1/2 site. *)
Theorem C16_multiplicity_ignored_refuted :
  (* S_{1/2,+}(i) S_{3/2,+}(i) == 0 *)
  e_mul go int_scalar_ops [([GSpin 2 Plus 0%Z], 1%Z)] [([GSpin 4 Plus 0%Z], 1%Z)] = Ok [] /\
  (* S_{1/2,+}(i) S_{3/2,-}(i) == 1/2 + S_{3/2,z}(i) *)
  e_mul go rational_scalar_ops [([GSpin 2 Plus 0%Z], Q2Qc 1)] [([GSpin 4 Minus 0%Z], Q2Qc 1)] =
    Ok [([], Q2Qc (1 # 2)); ([GSpin 4 Zcomp 0%Z], Q2Qc 1)].
Proof.
  split; [reflexivity|].
  assert (E : forall a b : res (list (list (gen Z) * Qc)),
    (match a, b with Ok x, Ok y => map (fun p => (fst p, this (snd p))) x = map (fun p => (fst p, this (snd p))) y
                 | _, _ => False end) -> a = b).
  { intros [x| |] [y| |] h; try contradiction. f_equal. revert y h.
    induction x as [|[m c] x IH]; intros [|[n d] y] h; try discriminate; auto.
    inversion h as [[h1 h2 h3]]. f_equal; auto. f_equal; auto. apply Qc_is_canon. now rewrite h2. }
  apply E. vm_compute. reflexivity.
Qed.
Print Assumptions C16_multiplicity_ignored_refuted.

(** What holds: generators of different sites are not simplified when no
    index is shared by a spin-1/2 and another spin. *)
Theorem C16_different_sites : forall I (io : index_ops I) S (so : scalar_ops S) m c i m' c' j,
  index_order io -> scalar_domain so ->
  let g := GSpin m c i in let h := GSpin m' c' j in
  spin_consistent [g; h] -> (m, i) <> (m', j) ->
  e_mul (std_gen_ops io) so [([g], s_one so)] [([h], s_one so)] =
  Ok (if gen_ltb io h g then [([h; g], s_one so)] else [([g; h], s_one so)]).
Proof.
  intros I io S so m c i m' c' j Hio D g h [CON _] NE.
  pose proof (sd_laws _ D) as L.
  assert (mk1 : s_make so (VInt 1) = Some (s_one so)).
  { rewrite (sl_make_int _ L). simpl. now rewrite (s_add_0_r so L). }
  assert (onz : s_is_zero so (s_one so) = false).
  { apply (s_is_zero_false so L). apply (sd_const _ D (VInt 1)); auto. }
  pose proof (gen_sto io Hio) as GS.
  assert (EQ1 : gen_eqb io h g = false).
  { destruct (gen_eqb io h g) eqn:E; auto. apply (sto_eq _ _ _ GS) in E. inversion E; subst. now contradiction NE. }
  assert (EQ2 : gen_eqb io g h = false).
  { destruct (gen_eqb io g h) eqn:E; auto. apply (sto_eq _ _ _ GS) in E. inversion E; subst. now contradiction NE. }
  assert (SITE : base_equal io g h && (m =? m') = false).
  { apply andb_false_iff. destruct (base_equal io g h) eqn:E; auto. right.
    apply (sto_eq _ _ _ Hio) in E. simpl in E. subst j. apply Nat.eqb_neq. congruence. }
  assert (SW : gen_swap io g h = (VInt 1, mk_linfun (VInt 0) [])) by (simpl; fold g h; now rewrite SITE).
  assert (SI : gen_simplify io g h = None).
  { simpl. fold g h. destruct (base_equal io g h) eqn:E; auto. simpl.
    apply (sto_eq _ _ _ Hio) in E. simpl in E. subst j.
    destruct (Nat.eqb_spec m 2) as [->|N]; auto.
    exfalso. apply NE. f_equal. symmetry. eapply (CON c c' m' i); [left; reflexivity|right; left; reflexivity]. }
  rewrite <- (sto_gt _ _ _ GS). clear SITE CON. clearbody g h.
  cbn. destruct (gen_gtb io g h) eqn:GT.
  - rewrite SW. unfold process_f. cbn. rewrite mk1. cbn. rewrite !(sl_mul_1_l _ L), onz, EQ2. reflexivity.
  - rewrite SI. cbn. rewrite !(sl_mul_1_l _ L), onz, EQ1. reflexivity.
Qed.
Print Assumptions C16_different_sites.
Example C16_example : spin_consistent [GSpin 2 Plus 1%Z; GSpin 2 Minus 0%Z] /\
  e_mul go int_scalar_ops [([GSpin 2 Plus 1%Z], 1%Z)] [([GSpin 2 Minus 0%Z], 1%Z)] =
  Ok [([GSpin 2 Minus 0%Z; GSpin 2 Plus 1%Z], 1%Z)].
Proof.
  split; [|reflexivity]. split.
  - intros c c' m i [E|[E|[]]] [F|[F|[]]]; inversion E; inversion F; subst; auto.
  - intros m c i [E|[E|[]]]; inversion E; lia.
Qed.

(** ** C17: integer scalars *)
(** A result over the integers is the exact result over the rationals ... *)
Theorem C17_exact : forall I (io : index_ops I) x m a b e,
  let G := std_gen_ops io in
  let q := map (fun p : list (gen I) * Z => (fst p, qcz (snd p))) in
  (e_mono G int_scalar_ops x m = Ok e -> e_mono G rational_scalar_ops (qcz x) m = Ok (q e)) /\
  (e_mul G int_scalar_ops a b = Ok e -> e_mul G rational_scalar_ops (q a) (q b) = Ok (q e)).
Proof.
  intros I io x m a b e G q. split.
  - apply (hom_e_mono G _ _ qcz int_to_rational).
  - apply (hom_mul G _ _ qcz int_to_rational).
Qed.
Print Assumptions C17_exact.

(** ... so when the exact result is not integral the operation throws ... *)
Theorem C17_throws : forall I (io : index_ops I) a b r m c,
  let G := std_gen_ops io in
  let q := map (fun p : list (gen I) * Z => (fst p, qcz (snd p))) in
  e_mul G rational_scalar_ops (q a) (q b) = Ok r -> In (m, c) r -> (forall z, c <> qcz z) ->
  e_mul G int_scalar_ops a b = Throw.
Proof.
  intros I io a b r m c G q E i N.
  destruct (e_mul G int_scalar_ops a b) as [e| |] eqn:Ez; auto.
  - exfalso. apply (proj2 (C17_exact I io 0%Z [] a b e)) in Ez. fold q in Ez. fold G in Ez.
    rewrite Ez in E. injection E as <-. apply in_map_iff in i. destruct i as [[n z] [K _]].
    injection K as _ <-. now apply (N z).
  - exfalso. now apply (e_mul_terminates G int_scalar_ops a b).
Qed.
Print Assumptions C17_throws.

(** ... and without spin-1/2 generators it never throws. *)
Theorem C17_never_throws : forall I (io : index_ops I) a b,
  (forall c i, ~ In (GSpin 2 c i) (gens_of a ++ gens_of b)) ->
  exists e : list (list (gen I) * Z), e_mul (std_gen_ops io) int_scalar_ops a b = Ok e.
Proof.
  intros I io a b N.
  apply (e_mul_total _ _ _ (std_make_int io int_scalar_ops (sd_laws _ int_domain))).
  - intros m c i. apply Forall_forall. intros [d j|d j|mu k j] ig; simpl; auto.
    intros ->. apply (N k j). apply in_app_iff. left. apply in_concat. exists m. split; auto.
    apply in_map_iff. exists (m, c); auto.
  - intros m c i. apply Forall_forall. intros [d j|d j|mu k j] ig; simpl; auto.
    intros ->. apply (N k j). apply in_app_iff. right. apply in_concat. exists m. split; auto.
    apply in_map_iff. exists (m, c); auto.
Qed.
Print Assumptions C17_never_throws.
(** S_z S_z = 1/4 throws with int coefficients *)
Example C17_example : e_mul go int_scalar_ops [([GSpin 2 Zcomp 0%Z], 1%Z)] [([GSpin 2 Zcomp 0%Z], 1%Z)] = Throw.
Proof. reflexivity. Qed.

(** ** C18: zero divisors *)
(** the ring Z x Z *)
Definition pair_scalar_ops : scalar_ops (Z * Z) :=
  mk_scalar_ops _ (0, 0)%Z (1, 1)%Z
    (fun x y => (fst x + fst y, snd x + snd y)%Z) (fun x y => (fst x - fst y, snd x - snd y)%Z)
    (fun x y => (fst x * fst y, snd x * snd y)%Z) (fun x => (- fst x, - snd x)%Z)
    (fun x => Z.eqb 0 (fst x) && Z.eqb 0 (snd x))
    (fun v => match v with VInt i => Some (i, i) | _ => None end) (fun x => x).
Lemma pair_laws : scalar_laws pair_scalar_ops.
Proof.
  assert (N : forall n x, nmul pair_scalar_ops n x = (Z.of_nat n * fst x, Z.of_nat n * snd x)%Z).
  { induction n as [|n IH]; intros [x y]; cbn [nmul]; [reflexivity|]. rewrite IH. simpl s_add. cbn [fst snd].
    f_equal; lia. }
  constructor; try (intros; repeat match goal with x : (Z * Z)%type |- _ => destruct x end;
    cbn [s_zero s_one s_add s_sub s_mul s_neg pair_scalar_ops fst snd]; f_equal; lia).
  - intros [x y]. cbn [s_is_zero pair_scalar_ops fst snd s_zero]. rewrite andb_true_iff, !Z.eqb_eq. split; [intros [<- <-]; auto|intros E; inversion E; auto].
  - intros z. simpl s_make. f_equal. destruct z; cbn [zmul]; rewrite ?N, ?positive_nat_Z; simpl; f_equal; lia.
  - discriminate.
Qed.
Definition cd1 : gen Z := GFermion true 1%Z.
Theorem C18_zero_coefficients_stored :
  scalar_laws pair_scalar_ops /\
  (* both ways of multiplying c^+_1 with coefficient (1,0) by (0,1) store a zero *)
  e_mul_const_post pair_scalar_ops [([cd1], (1, 0)%Z)] (0, 1)%Z = [([cd1], s_zero pair_scalar_ops)] /\
  e_mul go pair_scalar_ops [([cd1], (1, 0)%Z)] (e_const pair_scalar_ops (0, 1)%Z) =
    Ok [([cd1], s_zero pair_scalar_ops)] /\
  (* the result is not == to the zero expression *)
  e_eqb go (fun x y => Z.eqb (fst x) (fst y) && Z.eqb (snd x) (snd y))
    [([cd1], s_zero pair_scalar_ops)] (e_const pair_scalar_ops (0, 0)%Z) = false.
Proof. split; [exact pair_laws|]. repeat split; reflexivity. Qed.
Print Assumptions C18_zero_coefficients_stored.
(** Without zero divisors it cannot happen: C03_canonical_form. *)

(** ** C58: aliased compound assignment *)
Theorem C58_add_self : forall I (io : index_ops I) S (so : scalar_ops S) e,
  index_order io -> scalar_domain so -> canonical_expr io so e ->
  e_add_assign_self (std_gen_ops io) so e = Ok (e_add (std_gen_ops io) so e e) /\
  e_add (std_gen_ops io) so e e = map (fun p => (fst p, s_add so (snd p) (snd p))) e.
Proof.
  intros I io S so e Hio D He. pose proof (sd_laws _ D) as L. pose proof (std_order io Hio) as Hgo.
  destruct (canonical_wf io Hio so e He) as [e1 e2].
  assert (TWO : s_add so (s_one so) (s_one so) <> s_zero so).
  { assert (K : s_make so (VInt 2) = Some (s_add so (s_one so) (s_one so))).
    { rewrite (sl_make_int _ L). simpl. now rewrite (s_add_0_r so L). }
    apply (sd_const _ D _ _ K). reflexivity. }
  assert (DBL : forall x, x <> s_zero so -> s_add so x x <> s_zero so).
  { intros x hx E. destruct (sd_nzd _ D (s_add so (s_one so) (s_one so)) x) as [K|K]; auto.
    now rewrite (sl_dist_r _ L), !(sl_mul_1_l _ L). }
  assert (SD : msorted (std_gen_ops io) (map (fun p => (fst p, s_add so (snd p) (snd p))) e)).
  { unfold msorted. rewrite map_map. exact e1. }
  assert (E2 : e_add (std_gen_ops io) so e e = map (fun p => (fst p, s_add so (snd p) (snd p))) e).
  { apply (coef_ext _ Hgo so L); auto.
    - apply fold_ins_sorted; auto.
    - apply fold_ins_nonzero; auto.
    - intros m c i. apply in_map_iff in i. destruct i as [[n x] [E i]]. injection E as <- <-. apply DBL. eapply e2; eauto.
    - intros m. unfold e_add. rewrite (coef_add_assign _ Hgo _ L) by auto.
      symmetry. apply (coef_map (std_gen_ops io) so (fun x => s_add so x x)). apply (s_add_0_r so L). }
  split; auto. rewrite E2. unfold e_add_assign_self.
  apply (self_loop (std_gen_ops io) Hgo so (s_add so) e []); auto.
  intros m x i. apply (s_is_zero_false so L). apply DBL. eapply e2; eauto.
Qed.
Print Assumptions C58_add_self.

(** Finding F13: e -= e erases the element the loop iterator points to; this
    is undefined behaviour for every non-zero expression. *)
Theorem C58_sub_self_refuted : forall I (io : index_ops I) S (so : scalar_ops S) e,
  index_order io -> scalar_domain so -> e <> [] ->
  e_sub_assign_self (std_gen_ops io) so e = Bad.
Proof.
  intros I io S so [|[m x] e] Hio D N; [contradiction|]. pose proof (sd_laws _ D) as L.
  apply (self_loop_bad (std_gen_ops io) (std_order io Hio) so (s_sub so)).
  rewrite (s_sub_diag so L). apply (s_is_zero_zero so L).
Qed.
Print Assumptions C58_sub_self_refuted.
Example C58_example :
  e_add_assign_self go int_scalar_ops [([], 2%Z); ([cd1], 3%Z)] = Ok [([], 4%Z); ([cd1], 6%Z)].
Proof. reflexivity. Qed.
