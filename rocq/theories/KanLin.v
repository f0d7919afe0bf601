(** * The Kanamori operators are linear in U and J (C91) *)
From Coq Require Import ZArith Lia QArith Qcanon Setoid Morphisms List String Ncring Ncring_tac.
From Verif Require Import ExprModel ExprSpec ExprMap ExprEval ExprStd ExprMain ExprThrow ExprInst ExprOrder FockSpec
  PropExpr PropUnique PropHS PropFactories HeisModel HeisDen KanModel KanSpec KanDen KanVals.
Import List ListNotations.
Close Scope Qc_scope.
Close Scope Q_scope.
Close Scope Z_scope.
Close Scope string_scope.
Open Scope list_scope.

Section Lin.
Context (K : kring) (U J : Qc).
Notation ro := (kro K).
Let Hr := k_ring K.
Let SI := k_si K.
Local Instance eqI : Equivalence (req ro) := ri_equiv _ Hr.
Local Instance addI : Proper (req ro ==> req ro ==> req ro) (radd ro) := ri_add_ext _ Hr.
Local Instance mulI : Proper (req ro ==> req ro ==> req ro) (rmul ro) := ri_mul_ext _ Hr.
Local Instance oppI : Proper (req ro ==> req ro) (ropp ro) := ri_opp_ext _ Hr.
Local Instance opsI : @Ring_ops (kR K) (r0 ro) (r1 ro) (radd ro) (rmul ro) (rsub ro) (ropp ro) (req ro)
  := nc_ops ro.
Local Instance ringI : @Ring _ _ _ _ _ _ _ _ opsI := nc_ring ro Hr.
Notation iU := (kinj K (re U)).
Notation iJ := (kinj K (re J)).
Definition lin (x y z : kR K) : Prop := req ro x (radd ro (rmul ro iU y) (rmul ro iJ z)).

Lemma lin_add x y z x' y' z' : lin x y z -> lin x' y' z' -> lin (radd ro x x') (radd ro y y') (radd ro z z').
Proof. unfold lin. intros -> ->. non_commutative_ring. Qed.
Lemma lin_sub x y z x' y' z' : lin x y z -> lin x' y' z' ->
  lin (radd ro x (ropp ro x')) (radd ro y (ropp ro y')) (radd ro z (ropp ro z')).
Proof. unfold lin. intros -> ->. non_commutative_ring. Qed.
Lemma lin_zero : lin (r0 ro) (r0 ro) (r0 ro).
Proof. unfold lin. non_commutative_ring. Qed.
Lemma lin_mul x y z w : lin x y z -> lin (rmul ro x w) (rmul ro y w) (rmul ro z w).
Proof. unfold lin. intros ->. non_commutative_ring. Qed.
Lemma lin_lmul w x y z : (forall c, req ro (rmul ro w (kinj K c)) (rmul ro (kinj K c) w)) -> lin x y z ->
  lin (rmul ro w x) (rmul ro w y) (rmul ro w z).
Proof.
  unfold lin. intros C ->. rewrite (ri_dist_l _ Hr), !(ri_mul_assoc _ Hr), !C. reflexivity.
Qed.
Lemma lin_inj a b c : a = s_add hso (s_mul hso (re U) b) (s_mul hso (re J) c) -> lin (kinj K a) (kinj K b) (kinj K c).
Proof. intros ->. unfold lin. rewrite (si_add _ _ _ _ SI), !(si_mul _ _ _ _ SI). reflexivity. Qed.
Lemma lin_sum {A} (l : list A) f g h : (forall x, In x l -> lin (f x) (g x) (h x)) -> lin (lsum ro l f) (lsum ro l g) (lsum ro l h).
Proof.
  induction l as [|a l IH]; intros H; cbn [lsum fold_right].
  - apply lin_zero.
  - apply lin_add; [apply H; left; reflexivity|apply IH; intros x i; apply H; right; exact i].
Qed.
Lemma lin_eq x y z x' y' z' : req ro x x' -> req ro y y' -> req ro z z' -> lin x y z -> lin x' y' z'.
Proof. unfold lin. intros -> -> ->. auto. Qed.

Lemma lin_kanamori u0 u2 u3 j mj u0' u2' u3' j' mj' u0'' u2'' u3'' j'' mj'' :
  lin u0 u0' u0'' -> lin u2 u2' u2'' -> lin u3 u3' u3'' -> lin j j' j'' -> lin mj mj' mj'' ->
  forall cd c, lin (kanamori_value ro cd c u0 u2 u3 j mj) (kanamori_value ro cd c u0' u2' u3' j' mj')
    (kanamori_value ro cd c u0'' u2'' u3'' j'' mj'').
Proof.
  intros H0 H2 H3 Hj Hm cd c. unfold kanamori_value, sum_ne, sum_lt, sum_m.
  apply lin_add; [apply lin_add; [apply lin_add; [apply lin_add|]|]|].
  - apply lin_sum. intros m _. apply lin_mul, lin_mul. exact H0.
  - apply lin_sum. intros m _. apply lin_sum. intros m' _. destruct (Z.eqb m m'); [apply lin_zero|]. apply lin_mul, lin_mul. exact H2.
  - apply lin_sum. intros m _. apply lin_sum. intros m' _. destruct (Z.ltb m m'); [|apply lin_zero]. apply lin_add; apply lin_mul, lin_mul; exact H3.
  - apply lin_sum. intros m _. apply lin_sum. intros m' _. destruct (Z.eqb m m'); [apply lin_zero|]. apply lin_mul, lin_mul, lin_mul, lin_mul. exact Hm.
  - apply lin_sum. intros m _. apply lin_sum. intros m' _. destruct (Z.eqb m m'); [apply lin_zero|]. apply lin_mul, lin_mul, lin_mul, lin_mul. exact Hj.
Qed.
Lemma lin_t2g a b e f a' b' e' f' a'' b'' e'' f'' : lin a a' a'' -> lin b b' b'' -> lin e e' e'' -> lin f f' f'' ->
  forall n s2 l2, lin (t2g_value ro a b e f n s2 l2) (t2g_value ro a' b' e' f' n s2 l2) (t2g_value ro a'' b'' e'' f'' n s2 l2).
Proof.
  intros Ha Hb He Hf n s2 l2. unfold t2g_value.
  apply lin_add; [apply lin_sub; [apply lin_sub|]|]; repeat apply lin_mul; assumption.
Qed.
End Lin.

(** scalars *)
Ltac qlin := unfold re; cbn; unfold Qcdiv; f_equal; change (Q2Qc 0) with 0%Qc; change (Q2Qc 1) with 1%Qc; unfold q; change (Q2Qc 0) with 0%Qc; change (Q2Qc 1) with 1%Qc; ring.
Lemma HK_lin K U J : lin K U J (HKv U J K) (HKv (q 1) (q 0) K) (HKv (q 0) (q 1) K).
Proof.
  unfold HKv. apply lin_kanamori; apply lin_inj.
  - qlin.
  - qlin.
  - qlin.
  - qlin.
  - qlin.
Qed.
Lemma t2g_lin K U J n s2 l2 : lin K U J (t2gv U J n s2 l2 K) (t2gv (q 1) (q 0) n s2 l2 K) (t2gv (q 0) (q 1) n s2 l2 K).
Proof.
  unfold t2gv. apply lin_t2g; apply lin_inj.
  - qlin.
  - qlin.
  - qlin.
  - qlin.
Qed.

(** *** commuting elements *)
Section Comm.
Context (K : kring).
Notation ro := (kro K).
Let Hr := k_ring K.
Local Instance eqC : Equivalence (req ro) := ri_equiv _ Hr.
Local Instance addC : Proper (req ro ==> req ro ==> req ro) (radd ro) := ri_add_ext _ Hr.
Local Instance mulC : Proper (req ro ==> req ro ==> req ro) (rmul ro) := ri_mul_ext _ Hr.
Local Instance oppC : Proper (req ro ==> req ro) (ropp ro) := ri_opp_ext _ Hr.
Local Instance opsC : @Ring_ops (kR K) (r0 ro) (r1 ro) (radd ro) (rmul ro) (rsub ro) (ropp ro) (req ro)
  := nc_ops ro.
Local Instance ringC : @Ring _ _ _ _ _ _ _ _ opsC := nc_ring ro Hr.
Notation "x [+] y" := (radd ro x y) (at level 50, left associativity).
Notation "x [-] y" := (radd ro x (ropp ro y)) (at level 50, left associativity).
Notation "x [*] y" := (rmul ro x y) (at level 40, left associativity).
Definition cm (w x : kR K) : Prop := req ro (w [*] x) (x [*] w).
Lemma cm_sym w x : cm w x -> cm x w.
Proof. intros H. unfold cm in *. symmetry. exact H. Qed.
Lemma cm_refl w : cm w w.
Proof. unfold cm. reflexivity. Qed.
Lemma cm_1 w : cm w (r1 ro).
Proof. unfold cm. rewrite (ri_mul_1_l _ Hr), (ri_mul_1_r _ Hr). reflexivity. Qed.
Lemma cm_add w x y : cm w x -> cm w y -> cm w (x [+] y).
Proof. unfold cm. intros H1 H2. rewrite (ri_dist_l _ Hr), (ri_dist_r _ Hr), H1, H2. reflexivity. Qed.
Lemma cm_opp w x : cm w x -> cm w (ropp ro x).
Proof.
  unfold cm. intros H1. transitivity (ropp ro (w [*] x)); [non_commutative_ring|]. rewrite H1. non_commutative_ring.
Qed.
Lemma cm_mul w x y : cm w x -> cm w y -> cm w (x [*] y).
Proof.
  unfold cm. intros H1 H2. rewrite (ri_mul_assoc _ Hr), H1, <- (ri_mul_assoc _ Hr), H2, (ri_mul_assoc _ Hr). reflexivity.
Qed.
Lemma cm_eq w x w' x' : req ro w w' -> req ro x x' -> cm w x -> cm w' x'.
Proof. unfold cm. intros -> ->. auto. Qed.
Lemma casimir i x y z : cm x i -> cm y i -> cm z i ->
  req ro (x [*] y [-] y [*] x) (i [*] z) -> req ro (y [*] z [-] z [*] y) (i [*] x) -> req ro (z [*] x [-] x [*] z) (i [*] y) ->
  cm x (x [*] x [+] y [*] y [+] z [*] z).
Proof.
  unfold cm. intros cx cy cz H1 H2 H3.
  assert (A : req ro (x [*] y) (i [*] z [+] y [*] x)) by (rewrite <- H1; non_commutative_ring).
  assert (B : req ro (x [*] z) (z [*] x [-] i [*] y)) by (rewrite <- H3; non_commutative_ring).
  rewrite !(ri_dist_l _ Hr), !(ri_mul_assoc _ Hr), A, B, !(ri_dist_r _ Hr), <- (ri_mul_assoc _ Hr y x y), A.
  rewrite <- (ri_mul_assoc _ Hr z x z), B.
  assert (C : req ro (y [*] (i [*] z)) (i [*] (y [*] z))) by (rewrite !(ri_mul_assoc _ Hr), cy; reflexivity).
  assert (D : req ro (z [*] (i [*] y)) (i [*] (z [*] y))) by (rewrite !(ri_mul_assoc _ Hr), cz; reflexivity).
  rewrite !(ri_dist_l _ Hr), C.
  assert (E : req ro (z [*] ropp ro (i [*] y)) (ropp ro (i [*] (z [*] y)))) by (rewrite <- D; non_commutative_ring).
  rewrite E. non_commutative_ring.
Qed.
(** scalars commute with the values of expressions *)
Lemma inj_cm a b : req ro (kinj K a [*] kinj K b) (kinj K b [*] kinj K a).
Proof.
  pose proof (k_si K) as SI. rewrite <- !(si_mul _ _ _ _ SI).
  assert (E : s_mul hso a b = s_mul hso b a) by (destruct a as [u v], b as [u' v']; cbn; f_equal; ring). rewrite E. reflexivity.
Qed.
Lemma cm_scalar (e : kexpr) c : cm (kval K e) (kinj K c).
Proof.
  unfold cm. pose proof (k_si K) as SI.
  induction e as [|[m v] e IH]; cbn [eval_expr].
  - non_commutative_ring.
  - rewrite (ri_dist_r _ Hr), (ri_dist_l _ Hr), IH.
    rewrite <- (ri_mul_assoc _ Hr), (inj_comm_em hso ro Hr (kinj K) (krho K) SI m c).
    rewrite (ri_mul_assoc _ Hr), (inj_cm v c), <- (ri_mul_assoc _ Hr). reflexivity.
Qed.
End Comm.
