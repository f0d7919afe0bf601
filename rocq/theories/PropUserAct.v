(** * C68: linear operators of user-defined algebras; the gamma matrices of
    examples/gamma.loperator.cpp *)
From Coq Require Import NArith ZArith List Bool Lia Sorted QArith Qcanon.
From Verif Require Import ExprModel ExprSpec ExprOrder ExprMap ExprEval ExprCanon ExprConj ExprHom ExprInst ExprLin ExprMain LinSpec AssocSpec AssocProofs LieProofs
  UserModel PropAssoc LOpModel LOpSpec LOpActF LOpApply LOpMatrix PropLOp2 UserActModel UserActSpec UserActProofs.
Import ListNotations.
Close Scope Qc_scope.
Close Scope Q_scope.
Open Scope list_scope.

(** ** Any user-defined algebra.  [M g] are matrices that satisfy the relations
    declared by swap_with() and simplify_prod(), and act() implements them. *)
Section General.
Context {G S A V : Type} (go : gen_ops G) (so : scalar_ops S) (n : nat) (M : G -> N -> N -> S) (K : G -> Prop)
  (make : list G -> A) (act : A -> N -> S -> ares S)
  (sv : sv_ops V S) (ok : V -> Prop) (amp : V -> N -> S) (size : V -> N).
Notation run := (ulop_run so sv act).
Notation lop e := (ulop_make make e).
Notation vec := (uvec so n ok amp size).

(** the operator of an expression acts as the matrix of the expression *)
Theorem C68_action : scalar_domain so -> acts_by so n make act M K -> sv_strict so sv ok amp size ->
  forall e v, made_of K e -> vec v ->
  (exists w, run (lop e) v w) /\
  forall w, run (lop e) v w -> vec w /\ size w = size v /\
    forall y, is_state n y -> amp w y = ssum so (fun x => s_mul so (expr_matrix so n M e y x) (amp v x)) (states n).
Proof. intros D AB SS e v ke Vv. exact (run_matrix so D n M K make act AB sv ok amp size SS e v ke Vv). Qed.

(** the operator of a product is the product of the operators *)
Theorem C68_product : scalar_domain so -> regular_algebra go so -> (forall x y, s_mul so x y = s_mul so y x) ->
  represented go so n M K -> acts_by so n make act M K -> sv_strict so sv ok amp size ->
  forall a b p v w u z, stored_expr go so a -> stored_expr go so b -> made_of K a -> made_of K b -> e_mul go so a b = Ok p ->
  vec v -> run (lop b) v w -> run (lop a) w u -> run (lop p) v z ->
  forall y, amp z y = amp u y.
Proof.
  intros D RA MC RP AB SS a b p v w u z [_ na] [_ nb] ka kb E Vv R1 R2 R3 y. pose proof (sd_laws _ D) as L.
  pose proof (fun e v ke Vv => proj2 (C68_action D AB SS e v ke Vv)) as Q.
  assert (kp : made_of K p).
  { apply (inv_made go so K p). exact (mul_inv go so D RA K (ACK go so RA n M K RP) a b p na nb ka kb E). }
  destruct (Q b v kb Vv w R1) as [Vw [_ Aw]]. destruct (Q a w ka Vw u R2) as [Vu [_ Au]]. destruct (Q p v kp Vv z R3) as [Vz [_ Az]].
  destruct (N.lt_ge_cases y (N.of_nat n)) as [h|h].
  2: { assert (Z : forall t, vec t -> amp t y = s_zero so).
       { intros t [_ [_ T]]. destruct (s_is_zero so (amp t y)) eqn:Z; [now apply (sl_is_zero so L)|].
         exfalso. assert (is_state n y) by (apply T; intros X; apply (sl_is_zero so L) in X; congruence). unfold is_state in *. lia. }
       rewrite !Z; auto. }
  rewrite (Az y h), (Au y h).
  rewrite (ssum_ext so (fun x => s_mul so (expr_matrix so n M a y x) (amp w x))
    (fun x => ssum so (fun t => s_mul so (s_mul so (expr_matrix so n M a y x) (expr_matrix so n M b x t)) (amp v t)) (states n))).
  2: { intros x ix. apply states_In in ix. rewrite (Aw x ix), <- (ssum_mul_l so L). apply ssum_ext. intros t _. apply (sl_mul_assoc so L). }
  rewrite (ssum_swap so L). apply ssum_ext. intros x ix. apply states_In in ix. rewrite (ssum_mul_r so L). f_equal.
  rewrite (matrix_mul go so D RA MC n M K RP a b p ka kb E y x h ix). reflexivity.
Qed.

(** the operator of conj(e) is the adjoint of the operator of e *)
Theorem C68_adjoint : scalar_domain so -> regular_algebra go so -> (forall x y, s_mul so x y = s_mul so y x) -> conj_laws so ->
  represented go so n M K -> adjoint_matrices go so n M K -> acts_by so n make act M K -> sv_strict so sv ok amp size ->
  forall a r v v' w w', stored_expr go so a -> made_of K a -> e_conj go so a = Ok r ->
  vec v -> vec v' -> run (lop a) v w -> run (lop r) v' w' ->
  (* <v'|a v> = <conj(a) v'|v> *)
  ssum so (fun y => s_mul so (s_conj so (amp v' y)) (amp w y)) (states n) =
  ssum so (fun x => s_mul so (s_conj so (amp w' x)) (amp v x)) (states n).
Proof.
  intros D RA MC CL RP AD AB SS a r v v' w w' [_ na] ka E Vv Vv' R1 R2. pose proof (sd_laws _ D) as L.
  pose proof (fun e v ke Vv => proj2 (C68_action D AB SS e v ke Vv)) as Q.
  destruct (matrix_conj go so D RA MC n M K RP CL AD a r na ka E) as [kr Mr].
  destruct (Q a v ka Vv w R1) as [Vw [_ Aw]]. destruct (Q r v' kr Vv' w' R2) as [Vu [_ Au]].
  rewrite (ssum_ext so (fun y => s_mul so (s_conj so (amp v' y)) (amp w y))
    (fun y => ssum so (fun x => s_mul so (s_conj so (amp v' y)) (s_mul so (expr_matrix so n M a y x) (amp v x))) (states n))).
  2: { intros y iy. apply states_In in iy. rewrite (Aw y iy). symmetry. apply (ssum_mul_l so L). }
  rewrite (ssum_swap so L). apply ssum_ext. intros x ix. apply states_In in ix. rewrite (Au x ix), (cssum so D CL).
  rewrite <- (ssum_mul_r so L). apply ssum_ext. intros y iy. apply states_In in iy.
  rewrite (cl_mul _ CL), (Mr x y ix iy), (cl_invol _ CL). apply (sl_mul_assoc so L).
Qed.
End General.
Print Assumptions C68_action.
Print Assumptions C68_product.
Print Assumptions C68_adjoint.

(** ** Gamma matrices *)
Lemma st4 x : is_state 4 x -> x = 0%N \/ x = 1%N \/ x = 2%N \/ x = 3%N.
Proof. unfold is_state. lia. Qed.
Lemma ix4 i : dirac_index i -> i = 0%Z \/ i = 1%Z \/ i = 2%Z \/ i = 3%Z.
Proof. unfold dirac_index. lia. Qed.
Section Dirac.
Context {S : Type} (so : scalar_ops S) (D : scalar_domain so) (comm : forall x y, s_mul so x y = s_mul so y x).
Context (iu : S) (Hi : s_mul so iu iu = s_neg so (s_one so)).
Let L := sd_laws _ D.
Add Ring Sring_d : (Sring so D comm).
Notation dg := (dirac so iu).
Notation "0" := (s_zero so).
Notation "1" := (s_one so).
Notation "- x" := (s_neg so x).
Infix "+" := (s_add so).
Infix "*" := (s_mul so).

(** powers of i and the action of one matrix on a basis state *)
Definition unit (p : nat) : S := match (p mod 4)%nat with O => 1 | 1%nat => iu | 2%nat => - (1) | _ => - iu end.
Definition ph (i : Z) (x : N) : nat * N :=
  match i, x with
  | 0%Z, 0%N => (0%nat, 0%N) | 0%Z, 1%N => (0%nat, 1%N) | 0%Z, 2%N => (2%nat, 2%N) | 0%Z, _ => (2%nat, 3%N)
  | 1%Z, 0%N => (2%nat, 3%N) | 1%Z, 1%N => (2%nat, 2%N) | 1%Z, 2%N => (0%nat, 1%N) | 1%Z, _ => (0%nat, 0%N)
  | 2%Z, 0%N => (3%nat, 3%N) | 2%Z, 1%N => (1%nat, 2%N) | 2%Z, 2%N => (1%nat, 1%N) | 2%Z, _ => (3%nat, 0%N)
  | _, 0%N => (2%nat, 2%N) | _, 1%N => (0%nat, 3%N) | _, 2%N => (0%nat, 0%N) | _, _ => (2%nat, 1%N)
  end.
Ltac st H := apply st4 in H; destruct H as [-> | [-> | [-> | ->]]].
Ltac ixx H := apply ix4 in H; destruct H as [-> | [-> | [-> | ->]]].

Lemma dirac_ph i y x : dirac_index i -> is_state 4 y -> is_state 4 x ->
  dg i y x = if N.eqb (snd (ph i x)) y then unit (fst (ph i x)) else 0.
Proof. intros hi hy hx. ixx hi; st hy; st hx; cbv [dirac pauli ph snd fst N.eqb Pos.eqb Z.eqb N.testbit Pos.testbit N.pred Pos.pred_N Bool.eqb unit Nat.modulo Nat.divmod Nat.sub]; ring. Qed.
Lemma ph_state i x : is_state 4 x -> is_state 4 (snd (ph i x)).
Proof. intros hx. st hx; destruct i as [|[[?|?|]|[?|?|]|]|?]; reflexivity. Qed.
Lemma step_ph i x c : dirac_index i -> is_state 4 x ->
  gamma_step so iu i x c = AVal (c * unit (fst (ph i x))) (snd (ph i x)).
Proof. intros hi hx. ixx hi; st hx; reflexivity. Qed.
Lemma unit_add p q : unit (Nat.add p q) = unit p * unit q.
Proof.
  unfold unit. rewrite (Nat.add_mod p q 4) by lia.
  pose proof (Nat.mod_upper_bound p 4 ltac:(lia)) as h1. pose proof (Nat.mod_upper_bound q 4 ltac:(lia)) as h2.
  destruct (p mod 4)%nat as [|[|[|[|p']]]]; try lia; destruct (q mod 4)%nat as [|[|[|[|q']]]]; try lia; cbn; ring [Hi].
Qed.
Fixpoint mph (m : list Z) (x : N) : nat * N :=
  match m with [] => (0%nat, x) | g :: t => let q := mph t x in let r := ph g (snd q) in (Nat.add (fst q) (fst r), snd r) end.
Lemma mph_state m x : is_state 4 x -> is_state 4 (snd (mph m x)).
Proof. intros hx. induction m as [|g m IH]; cbn [mph snd]; auto. now apply ph_state. Qed.
Lemma mono_ph m : Forall dirac_index m -> forall y x, is_state 4 y -> is_state 4 x ->
  mono_matrix so 4 dg m y x = if N.eqb (snd (mph m x)) y then unit (fst (mph m x)) else 0.
Proof.
  intros F. induction F as [|g m hg F IH]; intros y x hy hx; cbn [mono_matrix mph fst snd].
  - unfold mone. rewrite N.eqb_sym. reflexivity.
  - unfold mprod. rewrite (ssum_single so L (states 4) (snd (mph m x))).
    + rewrite IH, N.eqb_refl, dirac_ph by auto using mph_state. rewrite unit_add.
      destruct (N.eqb _ y); ring.
    + apply states_NoDup.
    + apply states_In. now apply mph_state.
    + intros z iz ne. apply states_In in iz. rewrite (IH z x iz hx). destruct (N.eqb_spec (snd (mph m x)) z); [congruence|]. ring.
Qed.
Lemma act_app a b x c : gamma_act so iu (a ++ b) x c =
  match gamma_act so iu a x c with AVal c' y => gamma_act so iu b y c' | r => r end.
Proof.
  revert x c. induction a as [|i a IH]; intros x c; cbn [app gamma_act]; auto. destruct (gamma_step so iu i x c); auto.
Qed.
Lemma act_ph m : Forall dirac_index m -> forall x c, is_state 4 x ->
  gamma_act so iu (gamma_make m) x c = AVal (c * unit (fst (mph m x))) (snd (mph m x)).
Proof.
  unfold gamma_make. intros F. induction F as [|g m hg F IH]; intros x c hx; cbn [rev mph fst snd].
  - cbn [gamma_act]. f_equal. unfold unit. cbn. ring.
  - rewrite act_app, (IH x c hx). cbn [gamma_act]. rewrite step_ph by auto using mph_state.
    f_equal. rewrite unit_add. ring.
Qed.

Lemma prod_ph g h y x : dirac_index g -> dirac_index h -> is_state 4 y -> is_state 4 x ->
  mprod so 4 (dg g) (dg h) y x = if N.eqb (snd (mph [g; h] x)) y then unit (fst (mph [g; h] x)) else 0.
Proof.
  intros hg hh hy hx. rewrite <- (mono_ph [g; h]) by auto. cbn [mono_matrix]. unfold mprod at 1 2. apply ssum_ext.
  intros z iz. apply states_In in iz. f_equal. unfold mprod. rewrite (ssum_single so L (states 4) x).
  - unfold mone. rewrite N.eqb_refl. ring.
  - apply states_NoDup.
  - now apply states_In.
  - intros t it ne. unfold mone. destruct (N.eqb_spec t x); [congruence|]. ring.
Qed.
Lemma number_int z : number so (VInt z) = zmul so z 1.
Proof. unfold number. cbn [vn_is_zero]. destruct (Z.eqb_spec z 0) as [->|ne]; [reflexivity|]. now rewrite (sl_make_int _ L). Qed.

(** The matrices of the example satisfy the relations of generator_gamma, and
    act() multiplies by them. *)
Theorem gamma_represented : represented gamma_ops so 4 dg dirac_index.
Proof.
  constructor.
  - intros g h c f kg kh gt E. cbn in E. unfold gamma_swap in E. inversion E; subst. split; [intros k v []|].
    intros y x hy hx. unfold fun_matrix. cbn [const_term terms lin_matrix]. rewrite !number_int. unfold mone.
    cbn in gt. assert (ne : Z.eqb g h = false) by (apply Z.eqb_neq; apply Z.ltb_lt in gt; lia). rewrite ne. cbn [Z.mul].
    rewrite (zmul_m1 so L). change (zmul so 0 1) with 0.
    rewrite !prod_ph by auto.
    ixx kg; ixx kh; try discriminate gt; st hx; st hy; cbn; ring.
  - intros g h f kg kh gt E. cbn in E. unfold gamma_simplify in E.
    destruct (Z.eqb_spec g h) as [<-|]; [|discriminate]. inversion E; subst. split; [intros k v []|].
    intros y x hy hx. unfold fun_matrix. cbn [const_term terms lin_matrix]. rewrite !number_int. unfold mone.
    rewrite !prod_ph by auto.
    ixx kg; cbn [Z.eqb]; rewrite ?(zmul_m1 so L), ?(zmul_1 so L); st hx; st hy; cbn; ring.
Qed.
Theorem gamma_acts : acts_by so 4 gamma_make (gamma_act so iu) dg dirac_index.
Proof.
  intros m x c F hx. left. exists (unit (fst (mph m x))), (snd (mph m x)). split; [now apply act_ph|].
  split; [now apply mph_state|]. intros y hy. now apply mono_ph.
Qed.
Theorem gamma_adjoint : conj_laws so -> s_conj so iu = - iu -> adjoint_matrices gamma_ops so 4 dg dirac_index.
Proof.
  intros CL Ci g kg. cbn [g_conj gamma_ops]. unfold gamma_conj.
  assert (c0 : s_conj so 0 = 0) by apply (sconj_0 so D CL).
  assert (c1 : s_conj so 1 = 1) by apply (sconj_1 so D CL).
  assert (cn : forall x, s_conj so (- x) = - s_conj so x).
  { intros x. assert (Q : s_conj so (- x) + s_conj so x = 0) by (rewrite <- (cl_add _ CL); rewrite <- c0; f_equal; ring).
    transitivity ((s_conj so (- x) + s_conj so x) + - s_conj so x); [ring|]. rewrite Q. ring. }
  split.
  - intros k v i. destruct (Z.eqb g 0%Z); cbn in i; destruct i as [e|[]]; inversion e; subst; split; auto.
  - intros y x hy hx. rewrite (dirac_ph g x y) by auto.
    replace (fun_matrix so dg (if Z.eqb g 0%Z then _ else _) y x) with (zmul so (if Z.eqb g 0%Z then 1%Z else (-1)%Z) 1 * dg g y x).
    2: { destruct (Z.eqb g 0%Z); unfold fun_matrix; cbn [const_term terms lin_matrix]; rewrite !number_int; change (zmul so 0 1) with 0; ring. }
    rewrite (dirac_ph g y x) by auto.
    ixx kg; cbn [Z.eqb]; rewrite ?(zmul_m1 so L), ?(zmul_1 so L); st hx; st hy; cbn; rewrite ?cn, ?c0, ?c1, ?Ci; ring.
Qed.

(** *** 16 different products *)
Definition basis16 : list (list Z) :=
  [[]; [0]; [1]; [2]; [3]; [0; 1]; [0; 2]; [0; 3]; [1; 2]; [1; 3]; [2; 3]; [0; 1; 2]; [0; 1; 3]; [0; 2; 3]; [1; 2; 3]; [0; 1; 2; 3]]%Z.
Lemma increasing16 m : StronglySorted Z.lt m -> Forall dirac_index m -> In m basis16.
Proof.
  intros s f.
  assert (K : forall a t, StronglySorted Z.lt (a :: t) -> Forall dirac_index (a :: t) ->
     dirac_index a /\ StronglySorted Z.lt t /\ Forall dirac_index t /\ forall b, In b t -> (a < b)%Z).
  { intros a t h1 h2. inversion h1 as [|? ? h3 h4]; subst. inversion h2; subst. repeat split; auto.
    - unfold dirac_index in *; lia.
    - unfold dirac_index in *; lia.
    - intros b ib. rewrite Forall_forall in h4. auto. }
  destruct m as [|a m]; [cbn; auto|]. destruct (K _ _ s f) as [ha [s1 [f1 l1]]]. clear s f.
  destruct m as [|b m]; [ixx ha; cbn; tauto|]. destruct (K _ _ s1 f1) as [hb [s2 [f2 l2]]]. clear s1 f1.
  pose proof (l1 b (or_introl eq_refl)) as ab.
  destruct m as [|c m]; [ixx ha; ixx hb; try lia; cbn; tauto|]. destruct (K _ _ s2 f2) as [hc [s3 [f3 l3]]]. clear s2 f2.
  pose proof (l2 c (or_introl eq_refl)) as bc.
  destruct m as [|d m]; [ixx ha; ixx hb; try lia; ixx hc; try lia; cbn; tauto|]. destruct (K _ _ s3 f3) as [hd [s4 [f4 l4]]]. clear s3 f3.
  pose proof (l3 d (or_introl eq_refl)) as cd.
  destruct m as [|e m]; [ixx ha; ixx hb; try lia; ixx hc; try lia; ixx hd; try lia; cbn; tauto|].
  destruct (K _ _ s4 f4) as [he _]. pose proof (l4 e (or_introl eq_refl)) as de. unfold dirac_index in *. lia.
Qed.
(** Gaussian integers *)
Definition gz (q : Z * Z) : S := zmul so (fst q) 1 + zmul so (snd q) 1 * iu.
Definition gunit (p : nat) : Z * Z := match (p mod 4)%nat with O => (1, 0)%Z | 1%nat => (0, 1)%Z | 2%nat => (-1, 0)%Z | _ => (0, -1)%Z end.
Definition gadd (a b : Z * Z) : Z * Z := (fst a + fst b, snd a + snd b)%Z.
Lemma gz_unit p : gz (gunit p) = unit p.
Proof.
  unfold gz, gunit, unit. destruct (p mod 4)%nat as [|[|[|?]]]; cbn [fst snd];
  rewrite ?(zmul_1 so L), ?(zmul_m1 so L); change (zmul so 0 1) with 0; ring.
Qed.
Lemma gz_add a b : gz (gadd a b) = gz a + gz b.
Proof. unfold gz, gadd. cbn [fst snd]. rewrite !(zmul_add so D). ring. Qed.
(** overlap of two products, as a Gaussian integer: tr(m^-1 m') *)
Fixpoint overlap (l : list N) (m m' : list Z) : Z * Z :=
  match l with
  | [] => (0, 0)%Z
  | x :: t => gadd (if N.eqb (snd (mph m' x)) (snd (mph m x)) then gunit (Nat.add (Nat.mul 3 (fst (mph m x))) (fst (mph m' x))) else (0, 0)%Z) (overlap t m m')
  end.
Definition leqb (a b : list Z) : bool := if list_eq_dec Z.eq_dec a b then true else false.
Lemma overlaps : forallb (fun m => forallb (fun m' =>
  let q := overlap (states 4) m m' in
  if leqb m m' then Z.eqb (fst q) 4 && Z.eqb (snd q) 0 else Z.eqb (fst q) 0 && Z.eqb (snd q) 0) basis16) basis16 = true.
Proof. vm_compute. reflexivity. Qed.
Definition proj (A : N -> N -> S) (m : list Z) : S :=
  ssum so (fun x => unit (Nat.mul 3 (fst (mph m x))) * A (snd (mph m x)) x) (states 4).
Lemma proj_mono m m' : In m basis16 -> In m' basis16 -> Forall dirac_index m' ->
  proj (mono_matrix so 4 dg m') m = if leqb m m' then zmul so 4 1 else 0.
Proof.
  intros i i' F.
  assert (E : proj (mono_matrix so 4 dg m') m = gz (overlap (states 4) m m')).
  { unfold proj. assert (St : forall x, In x (states 4) -> is_state 4 x) by (intros; now apply states_In).
    revert St. generalize (states 4). induction l as [|x l IH]; intros St; cbn [ssum overlap].
    - unfold gz. cbn. ring.
    - rewrite gz_add, IH by (intros; apply St; cbn; auto). f_equal.
      rewrite (mono_ph m' F) by (try apply mph_state; apply St; cbn; auto).
      destruct (N.eqb _ _); [rewrite gz_unit, unit_add; reflexivity|]. unfold gz. cbn. ring. }
  rewrite E. pose proof overlaps as O. rewrite forallb_forall in O. specialize (O m i). rewrite forallb_forall in O. specialize (O m' i').
  cbn zeta in O. destruct (leqb m m'); apply andb_true_iff in O; destruct O as [O1 O2]; apply Z.eqb_eq in O1, O2;
    unfold gz; rewrite O1, O2; [|cbn; ring]. change (zmul so 0 1) with 0. ring.
Qed.
Lemma proj_expr e m : In m basis16 -> (forall m' c, In (m', c) e -> In m' basis16 /\ Forall dirac_index m') ->
  NoDup (map fst e) -> proj (expr_matrix so 4 dg e) m =
  zmul so 4 1 * match find (fun p => leqb m (fst p)) e with Some p => snd p | None => 0 end.
Proof.
  intros i h nd. induction e as [|[m' c] e IH].
  - cbn. unfold proj. cbn. ring.
  - assert (E : proj (expr_matrix so 4 dg ((m', c) :: e)) m = c * proj (mono_matrix so 4 dg m') m + proj (expr_matrix so 4 dg e) m).
    { unfold proj. rewrite <- (ssum_mul_l so L), <- (ssum_add so L). apply ssum_ext. intros x _. cbn [expr_matrix]. ring. }
    destruct (h m' c (or_introl eq_refl)) as [i' F]. cbn [map fst] in nd. apply NoDup_cons_iff in nd. destruct nd as [ni nd].
    rewrite E, (proj_mono m m' i i' F), IH; auto. 2: { intros; eapply h; cbn; eauto. }
    cbn [find fst]. destruct (leqb m m') eqn:Q; cbn [snd]; [|ring].
    assert (find (fun p => leqb m (fst p)) e = None) as ->.
    { destruct (find _ e) as [p|] eqn:Fd; [|reflexivity]. exfalso.
      apply find_some in Fd. destruct Fd as [ip ep]. unfold leqb in *. destruct (list_eq_dec Z.eq_dec m (fst p)) as [e1|]; [|discriminate].
      destruct (list_eq_dec Z.eq_dec m m') as [e2|]; [|discriminate]. apply ni. rewrite <- e2, e1. now apply in_map. }
    ring.
Qed.

Lemma four_nz : zmul so 4 1 <> 0.
Proof. intros h. apply (sd_const _ D (VInt 4) (zmul so 4 1)); auto. apply (sl_make_int _ L). Qed.
Lemma cancel4 x y : zmul so 4 1 * x = zmul so 4 1 * y -> x = y.
Proof.
  intros h. assert (Q : zmul so 4 1 * (x + - y) = 0) by (transitivity (zmul so 4 1 * x + - (zmul so 4 1 * y)); [ring|rewrite h; ring]).
  destruct (sd_nzd _ D _ _ Q) as [Q1|Q1]; [now apply four_nz in Q1|]. transitivity (x + - y + y); [ring|]. rewrite Q1. ring.
Qed.
Lemma canonical_increasing (a : list (list Z * S)) m c : canonical gamma_ops a -> In (m, c) a -> StronglySorted Z.lt m.
Proof.
  intros h i. apply Sorted_StronglySorted; [intros x y z; apply Z.lt_trans|].
  assert (K : forall p s, m = p ++ s -> Sorted Z.lt s).
  { intros p s. revert p. induction s as [|x s IH]; intros p e; constructor.
    - apply (IH (p ++ [x])). rewrite <- app_assoc. exact e.
    - destruct s as [|y s]; constructor. pose proof (h p x y s c) as Q. rewrite <- e in Q. specialize (Q i). unfold rewritten in Q. cbn in Q.
      unfold gamma_simplify in Q. destruct (Z.eqb_spec x y) as [|ne]; [exfalso; apply Q; right; discriminate|].
      destruct (Z.ltb_spec y x) as [|h2]; [exfalso; apply Q; now left|]. lia. }
  exact (K [] m eq_refl).
Qed.
Lemma sorted_NoDup {T} (go : gen_ops T) (Ho : gen_order go) (e : list (list T * S)) : stored_expr go so e -> NoDup (map fst e).
Proof.
  intros [h _]. induction h as [|k l h IH F]; constructor; auto. intros i. rewrite Forall_forall in F. specialize (F k i).
  rewrite (sto_irrefl _ _ _ (mono_sto go Ho)) in F. discriminate.
Qed.
Lemma sorted_ext_In {T} (go : gen_ops T) (Ho : gen_order go) : forall a b : list (list T * S),
  StronglySorted (fun m n => mono_lt go m n = true) (map fst a) -> StronglySorted (fun m n => mono_lt go m n = true) (map fst b) ->
  (forall p, In p a <-> In p b) -> a = b.
Proof.
  pose proof (mono_sto go Ho) as O.
  induction a as [|p a IH]; intros [|q b] ha hb E; auto.
  - destruct (proj2 (E q) (or_introl eq_refl)).
  - destruct (proj1 (E p) (or_introl eq_refl)).
  - cbn [map] in ha, hb. inversion ha as [|? ? ha1 ha2]; subst. inversion hb as [|? ? hb1 hb2]; subst. rewrite Forall_forall in ha2, hb2.
    assert (Irr : forall k, mono_lt go k k <> true) by (intros k; rewrite (sto_irrefl _ _ _ O); discriminate).
    assert (p = q).
    { destruct (proj1 (E p) (or_introl eq_refl)) as [|i1]; auto. destruct (proj2 (E q) (or_introl eq_refl)) as [|i2]; auto.
      exfalso. apply (Irr (fst p)). apply (sto_trans _ _ _ O _ (fst q)); [apply ha2|apply hb2]; now apply in_map. }
    subst q. f_equal. apply IH; auto. intros r. split; intros i.
    + destruct (proj1 (E r) (or_intror i)) as [<-|]; auto. exfalso. apply (Irr (fst p)), ha2. now apply in_map.
    + destruct (proj2 (E r) (or_intror i)) as [<-|]; auto. exfalso. apply (Irr (fst p)), hb2. now apply in_map.
Qed.
Lemma matrices_equal (a b : list (list Z * S)) : stored_expr gamma_ops so a -> stored_expr gamma_ops so b ->
  canonical gamma_ops a -> canonical gamma_ops b -> made_of dirac_index a -> made_of dirac_index b ->
  (forall y x, is_state 4 y -> is_state 4 x -> expr_matrix so 4 dg a y x = expr_matrix so 4 dg b y x) -> a = b.
Proof.
  intros sa sb ca cb ka kb E.
  assert (B16 : forall e : list (list Z * S), canonical gamma_ops e -> made_of dirac_index e -> forall m c, In (m, c) e -> In m basis16 /\ Forall dirac_index m).
  { intros e ce ke m c i. split; [|exact (ke m c i)]. apply increasing16; [|exact (ke m c i)]. exact (canonical_increasing e m c ce i). }
  assert (Fd : forall m, In m basis16 ->
     match find (fun p => leqb m (fst p)) a with Some p => snd p | None => 0 end =
     match find (fun p => leqb m (fst p)) b with Some p => snd p | None => 0 end).
  { intros m i. apply cancel4.
    rewrite <- (proj_expr a m i (B16 a ca ka) (sorted_NoDup _ gamma_order a sa)).
    rewrite <- (proj_expr b m i (B16 b cb kb) (sorted_NoDup _ gamma_order b sb)).
    unfold proj. apply ssum_ext. intros x ix. apply states_In in ix. f_equal. apply E; auto. now apply mph_state. }
  assert (In_find : forall (e : list (list Z * S)) m c, NoDup (map fst e) -> In (m, c) e -> find (fun p => leqb m (fst p)) e = Some (m, c)).
  { induction e as [|[m' c'] e IH]; intros m c nd []; cbn [find fst]; cbn [map fst] in nd; apply NoDup_cons_iff in nd; destruct nd as [ni nd].
    - inversion H; subst. unfold leqb. destruct (list_eq_dec Z.eq_dec m m); congruence.
    - unfold leqb at 1. destruct (list_eq_dec Z.eq_dec m m') as [->|]; [|now apply IH]. exfalso. apply ni. change m' with (fst (m', c)). now apply in_map. }
  assert (Hin : forall e e' : list (list Z * S), stored_expr gamma_ops so e -> canonical gamma_ops e -> made_of dirac_index e -> stored_expr gamma_ops so e' ->
     (forall m, In m basis16 -> match find (fun p => leqb m (fst p)) e with Some p => snd p | None => 0 end =
       match find (fun p => leqb m (fst p)) e' with Some p => snd p | None => 0 end) ->
     forall p, In p e -> In p e').
  { intros e e' se ce ke se' Q [m c] i. destruct (B16 e ce ke m c i) as [i16 _]. specialize (Q m i16).
    rewrite (In_find e m c (sorted_NoDup _ gamma_order e se) i) in Q. cbn [snd] in Q.
    destruct (find (fun p => leqb m (fst p)) e') as [[m' c']|] eqn:F.
    - apply find_some in F. destruct F as [F1 F2]. cbn [fst snd] in *. unfold leqb in F2. destruct (list_eq_dec Z.eq_dec m m'); [|discriminate]. now subst.
    - exfalso. exact (proj2 se m c i Q). }
  assert (Keys : forall p, In p a <-> In p b).
  { intros p. split; [apply (Hin a b)|apply (Hin b a)]; auto. intros m i. symmetry. auto. }
  apply (sorted_ext_In gamma_ops gamma_order a b (proj1 sa) (proj1 sb) Keys).
Qed.
End Dirac.

(** The hypotheses of the theorems above hold for the example: the operators of
    examples/gamma.loperator.cpp, for every complex-like scalar type. *)
Theorem C68_gamma : forall S (so : scalar_ops S) iu, scalar_domain so -> (forall x y, s_mul so x y = s_mul so y x) ->
  s_mul so iu iu = s_neg so (s_one so) ->
  regular_algebra gamma_ops so /\ represented gamma_ops so 4 (dirac so iu) dirac_index /\
  acts_by so 4 gamma_make (gamma_act so iu) (dirac so iu) dirac_index /\
  (conj_laws so -> s_conj so iu = s_neg so iu -> adjoint_matrices gamma_ops so 4 (dirac so iu) dirac_index).
Proof.
  intros S so iu D comm Hi. split; [now apply gamma_regular|]. split; [now apply gamma_represented|].
  split; [now apply gamma_acts|]. intros CL Ci. now apply gamma_adjoint.
Qed.
Print Assumptions C68_gamma.

(** Different expressions are different operators. *)
Theorem C68_gamma_faithful : forall S (so : scalar_ops S) iu, scalar_domain so -> (forall x y, s_mul so x y = s_mul so y x) ->
  s_mul so iu iu = s_neg so (s_one so) ->
  forall a b, stored_expr gamma_ops so a -> stored_expr gamma_ops so b -> canonical gamma_ops a -> canonical gamma_ops b ->
  made_of dirac_index a -> made_of dirac_index b ->
  (forall v w w', length v = 4%nat ->
     ulop_run so (dense_sv so) (gamma_act so iu) (ulop_make gamma_make a) v w ->
     ulop_run so (dense_sv so) (gamma_act so iu) (ulop_make gamma_make b) v w' -> w = w') ->
  a = b.
Proof.
  intros S so iu D comm Hi a b sa sb ca cb ka kb E. pose proof (sd_laws _ D) as L.
  apply (matrices_equal so D comm iu Hi a b sa sb ca cb ka kb). intros y x hy hx.
  set (v := map (fun z => if N.eqb z x then s_one so else s_zero so) (states 4)).
  assert (av : forall z, dense_amp so v z = if N.eqb z x then s_one so else s_zero so).
  { intros z. destruct (N.lt_ge_cases z 4) as [h|h].
    - assert (is_state 4 z) as hz by exact h. apply st4 in hz. destruct hz as [-> | [-> | [-> | ->]]]; reflexivity.
    - unfold dense_amp. rewrite nth_overflow by (cbn; lia). destruct (N.eqb_spec z x); auto. unfold is_state in hx. lia. }
  assert (Vv : uvec so 4 (fun _ => True) (dense_amp so) dense_size v).
  { split; [auto|]. split; [cbn; lia|]. intros z nz. rewrite av in nz. destruct (N.eqb_spec z x); [now subst|congruence]. }
  pose proof (C68_action so 4 (dirac so iu) dirac_index gamma_make (gamma_act so iu) (dense_sv so) (fun _ => True) (dense_amp so) dense_size
    D (gamma_acts so D comm iu Hi) (C32_dense S so L)) as Q.
  destruct (Q a v ka Vv) as [[w Rw] Qa]. destruct (Q b v kb Vv) as [[w' Rw'] Qb].
  assert (w = w') by (eapply E; eauto; reflexivity). subst w'.
  destruct (Qa w Rw) as [_ [_ Aa]]. destruct (Qb w Rw') as [_ [_ Ab]]. specialize (Aa y hy). specialize (Ab y hy). rewrite Aa in Ab.
  assert (Col : forall e, ssum so (fun t => s_mul so (expr_matrix so 4 (dirac so iu) e y t) (dense_amp so v t)) (states 4) = expr_matrix so 4 (dirac so iu) e y x).
  { intros e. rewrite (ssum_single so L (states 4) x).
    - rewrite av, N.eqb_refl. apply (sl_mul_1_r so L).
    - apply states_NoDup.
    - now apply states_In.
    - intros t _ ne. rewrite av. destruct (N.eqb_spec t x); [congruence|]. apply (mul_0_r so L). }
  rewrite !Col in Ab. exact Ab.
Qed.
Print Assumptions C68_gamma_faithful.

(** make_gamma() accepts any int.  An index other than 0, 1, 2, 3 acts as the
    identity although its square is -1: the operators are not a representation. *)
Notation I_ := (Q2Qc 0, Q2Qc 1).
Theorem C68_gamma_index_refuted : exists i p v w u z,
  e_mul gamma_ops cx_scalar_ops (generator_expr cx_scalar_ops i) (generator_expr cx_scalar_ops i) = Ok p /\
  length v = 4%nat /\
  ulop_run cx_scalar_ops (dense_sv cx_scalar_ops) (gamma_act cx_scalar_ops I_) (ulop_make gamma_make (generator_expr cx_scalar_ops i)) v w /\
  ulop_run cx_scalar_ops (dense_sv cx_scalar_ops) (gamma_act cx_scalar_ops I_) (ulop_make gamma_make (generator_expr cx_scalar_ops i)) w u /\
  ulop_run cx_scalar_ops (dense_sv cx_scalar_ops) (gamma_act cx_scalar_ops I_) (ulop_make gamma_make p) v z /\
  u <> z.
Proof.
  set (o := s_one cx_scalar_ops). set (e := s_zero cx_scalar_ops).
  exists 4%Z. eexists. exists [o; e; e; e].
  eexists _, _, _. split; [vm_compute; reflexivity|]. split; [reflexivity|].
  split; [eexists; split; [reflexivity|vm_compute; reflexivity]|].
  split; [eexists; split; [reflexivity|vm_compute; reflexivity]|].
  split; [eexists; split; [reflexivity|vm_compute; reflexivity]|].
  discriminate.
Qed.
(** act() looks up the whole index of the basis state, so that the Hilbert space
    must consist of nothing but the space of the gamma matrices. *)
Theorem C68_gamma_other_spaces_refuted : forall i x c, dirac_index i -> (4 <= x)%N ->
  gamma_act cx_scalar_ops I_ (gamma_make [i]) x c = ABad.
Proof.
  intros i x c hi hx. unfold gamma_make. cbn [rev app gamma_act].
  assert (A : forall T (a b c d : T), array4 a b c d x = None) by (intros; destruct x as [|[[?|?|]|[?|?|]|]]; cbn; auto; lia).
  apply ix4 in hi. destruct hi as [-> | [-> | [-> | ->]]]; unfold gamma_step; rewrite !A; reflexivity.
Qed.
Print Assumptions C68_gamma_index_refuted.
Print Assumptions C68_gamma_other_spaces_refuted.

(** ** Concrete cases: complex numbers; gamma^5 of examples/gamma.loperator.cpp
    l.168-196: 0 -> 2, 1 -> 3, 2 -> 0, 3 -> 1 *)
Example C68_case : s_mul cx_scalar_ops I_ I_ = s_neg cx_scalar_ops (s_one cx_scalar_ops) /\
  s_conj cx_scalar_ops I_ = s_neg cx_scalar_ops I_ /\
  stored_expr gamma_ops cx_scalar_ops gamma5 /\ canonical gamma_ops gamma5 /\ made_of dirac_index gamma5.
Proof.
  split; [vm_compute; repeat f_equal; apply Qc_is_canon; reflexivity|].
  split; [vm_compute; repeat f_equal; apply Qc_is_canon; reflexivity|].
  split; [split; [repeat constructor|]|]; [intros m c [e|[]]; inversion e; subst; discriminate|].
  split.
  - intros p x y s c [e|[]] h. inversion e as [[e1 e2]]. clear e. unfold rewritten in h. cbn in h. unfold gamma_simplify in h.
    destruct p as [|? [|? [|? p]]]; cbn in e1; inversion e1; subst; cbn in h; try (destruct h as [h|h]; [discriminate|now apply h]).
    destruct p as [|? p]; [|destruct p]; discriminate.
  - intros m c [e|[]]. inversion e; subst. repeat constructor; unfold dirac_index; lia.
Qed.
Example C68_gamma5 : forall k, (k < 4)%nat ->
  let v := map (fun j => if Nat.eqb j k then s_one cx_scalar_ops else s_zero cx_scalar_ops) (seq 0 4) in
  let w := map (fun j => if Nat.eqb j (nth k [2; 3; 0; 1]%nat 0%nat) then s_one cx_scalar_ops else s_zero cx_scalar_ops) (seq 0 4) in
  ulop_run cx_scalar_ops (dense_sv cx_scalar_ops) (gamma_act cx_scalar_ops I_) (ulop_make gamma_make gamma5) v w.
Proof.
  intros k h. cbn zeta. destruct k as [|[|[|[|k]]]]; try lia; (eexists; split; [reflexivity|]);
  vm_compute; repeat f_equal; apply Qc_is_canon; reflexivity.
Qed.
