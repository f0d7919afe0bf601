(** The concrete scalar types satisfy the scalar laws. *)
From Coq Require Import ZArith Bool Lia QArith Qcanon List.
From Verif Require Import ExprModel ExprSpec ExprOrder ExprMap ExprHom.
Import ListNotations.
Close Scope Qc_scope.
Close Scope Q_scope.
Open Scope nat_scope.
Open Scope list_scope.

Ltac ops := cbn [s_zero s_one s_add s_sub s_mul s_neg s_is_zero s_make s_conj
                 int_scalar_ops rational_scalar_ops cx_scalar_ops] in *.

(** ** integers *)
Lemma int_nmul n x : nmul int_scalar_ops n x = (Z.of_nat n * x)%Z.
Proof. induction n as [|n IH]; [reflexivity|]. cbn [nmul]. rewrite IH. simpl s_add. lia. Qed.
Lemma int_zmul z x : zmul int_scalar_ops z x = (z * x)%Z.
Proof.
  destruct z; unfold zmul; rewrite ?int_nmul; simpl s_zero; simpl s_neg; rewrite ?positive_nat_Z; lia.
Qed.

Lemma int_domain : scalar_domain int_scalar_ops.
Proof.
  constructor; [constructor| |]; ops; intros; try lia.
  - f_equal. rewrite int_zmul. lia.
  - discriminate.
  - destruct v; inversion H; subst. simpl in H0. now apply Z.eqb_neq in H0.
Qed.
Lemma int_conj_laws : conj_laws int_scalar_ops.
Proof. constructor; simpl; intros; lia. Qed.

(** ** rationals *)
Lemma qc_eqb_eq x y : qc_eqb x y = true <-> x = y.
Proof.
  unfold qc_eqb. rewrite Qeq_bool_iff. split; [apply Qc_is_canon|intros ->; reflexivity].
Qed.
Definition qcz (z : Z) : Qc := Q2Qc (inject_Z z).
Lemma qcz_add a b : qcz (a + b) = (qcz a + qcz b)%Qc.
Proof.
  unfold qcz, Qcplus. apply Qc_is_canon. cbn [this Q2Qc]. rewrite !Qred_correct, inject_Z_plus. reflexivity.
Qed.
Lemma qcz_opp a : qcz (- a) = (- qcz a)%Qc.
Proof.
  unfold qcz, Qcopp. apply Qc_is_canon. cbn [this Q2Qc]. rewrite !Qred_correct, inject_Z_opp. reflexivity.
Qed.
Lemma qcz_0 : qcz 0 = Q2Qc 0. Proof. reflexivity. Qed.
Lemma qcz_inj a : qcz a = Q2Qc 0 -> a = 0%Z.
Proof.
  intros E. apply (f_equal this) in E. cbn [this Q2Qc qcz] in E. unfold qcz in E. cbn [this Q2Qc] in E.
  assert (K : (inject_Z a == 0)%Q).
  { rewrite <- (Qred_correct (inject_Z a)). rewrite E. reflexivity. }
  unfold Qeq in K. simpl in K. lia.
Qed.
Lemma rat_nmul n x : nmul rational_scalar_ops n x = (qcz (Z.of_nat n) * x)%Qc.
Proof.
  induction n as [|n IH]; [change (nmul rational_scalar_ops 0 x) with (Q2Qc 0); simpl; rewrite qcz_0; ring|].
  cbn [nmul]. rewrite IH. rewrite Nat2Z.inj_succ, <- Z.add_1_r, qcz_add.
  simpl s_add. change (qcz 1) with 1%Qc. ring.
Qed.
Lemma rat_zmul z x : zmul rational_scalar_ops z x = (qcz z * x)%Qc.
Proof.
  destruct z; unfold zmul; rewrite ?rat_nmul, ?positive_nat_Z; simpl s_zero; simpl s_neg.
  - rewrite qcz_0. ring.
  - reflexivity.
  - change (Z.neg p) with (- Z.pos p)%Z. rewrite qcz_opp. ring.
Qed.

Lemma rational_domain : scalar_domain rational_scalar_ops.
Proof.
  constructor; [constructor| |]; ops; intros; try ring.
  - rewrite qc_eqb_eq. split; auto.
  - cbn [qc_of_vn]. f_equal. rewrite rat_zmul. fold (qcz z). change (Q2Qc 1) with 1%Qc. ring.
  - cbn [qc_of_vn] in H. destruct (Z.eqb_spec q 0) as [|n]; [discriminate|]. inversion H; subst.
    rewrite !rat_zmul. fold (qcz p) (qcz q). change (Q2Qc 1) with 1%Qc. field.
    intros E. apply n. now apply qcz_inj.
  - now apply Qcmult_integral.
  - destruct v as [z|p q|y]; simpl in *; [| |discriminate].
    + inversion H; subst. apply Z.eqb_neq in H0. intros E. apply H0. now apply qcz_inj.
    + destruct (Z.eqb_spec q 0) as [|n]; [discriminate|]. inversion H; subst.
      apply Z.eqb_neq in H0. fold (qcz p) (qcz q). intros E. apply H0. apply qcz_inj.
      assert (nq : qcz q <> 0%Qc) by (intros K; apply n; now apply qcz_inj).
      rewrite <- (Qcmult_div_r (qcz p) (qcz q) nq), E. change (Q2Qc 0) with 0%Qc. ring.
Qed.
Lemma rational_conj_laws : conj_laws rational_scalar_ops.
Proof. constructor; simpl; intros; try reflexivity; ring. Qed.

Lemma q2qc_nz y : Qeq_bool y 0 = false -> Q2Qc y <> Q2Qc 0.
Proof.
  intros H E. apply Qeq_bool_neq in H. apply H. apply (f_equal this) in E. cbn [this Q2Qc] in E.
  rewrite <- (Qred_correct y), E. reflexivity.
Qed.
(** the same numbers, with real structure constants *)
Lemma double_nmul n x : nmul double_scalar_ops n x = nmul rational_scalar_ops n x.
Proof. induction n as [|n IH]; [reflexivity|]. cbn [nmul]. rewrite IH. reflexivity. Qed.
Lemma double_zmul z x : zmul double_scalar_ops z x = zmul rational_scalar_ops z x.
Proof. destruct z; unfold zmul; rewrite ?double_nmul; reflexivity. Qed.
Lemma double_domain : scalar_domain double_scalar_ops.
Proof.
  destruct rational_domain as [[] n c].
  constructor; [constructor; auto| |]; auto.
  - intros z. rewrite double_zmul. apply sl_make_int.
  - intros p q x E. rewrite !double_zmul. exact (sl_make_rat p q x E).
  - intros [z|p q|y] x E h; [exact (c (VInt z) x E h)|exact (c (VRat p q) x E h)|].
    cbn in E. injection E as <-. now apply q2qc_nz.
Qed.
Lemma double_conj_laws : conj_laws double_scalar_ops.
Proof. constructor; simpl; intros; try reflexivity; ring. Qed.

(** ** complex numbers with rational parts *)
Lemma qc_sq_nonneg x : (0 <= x * x)%Qc.
Proof.
  unfold Qcle, Qcmult. cbn [this Q2Qc]. rewrite !Qred_correct. destruct x as [[n d] h]. simpl.
  unfold Qle. simpl. pose proof (Z.square_nonneg n). lia.
Qed.
Lemma qc_sum_sq x y : (x * x + y * y)%Qc = 0%Qc -> x = 0%Qc /\ y = 0%Qc.
Proof.
  intros E.
  assert (K : forall a b, (0 <= a)%Qc -> (0 <= b)%Qc -> (a + b)%Qc = 0%Qc -> a = 0%Qc).
  { intros a b ha hb e. apply Qcle_antisym; auto.
    replace a with (0 - b)%Qc by (rewrite <- e; ring).
    apply Qcopp_le_compat in hb. replace (0 - b)%Qc with (- b)%Qc by ring.
    replace 0%Qc with (- 0)%Qc by ring. exact hb. }
  split.
  - destruct (Qcmult_integral x x); auto. eapply K; [| |exact E]; apply qc_sq_nonneg.
  - destruct (Qcmult_integral y y); auto. eapply (K (y * y)%Qc (x * x)%Qc); try apply qc_sq_nonneg.
    rewrite <- E. ring.
Qed.
Lemma cx_nmul n x : nmul cx_scalar_ops n x = (qcz (Z.of_nat n) * fst x, qcz (Z.of_nat n) * snd x)%Qc.
Proof.
  induction n as [|n IH].
  - change (nmul cx_scalar_ops 0 x) with (Q2Qc 0, Q2Qc 0). simpl. rewrite qcz_0. f_equal; ring.
  - cbn [nmul]. rewrite IH. rewrite Nat2Z.inj_succ, <- Z.add_1_r, qcz_add.
    simpl. change (qcz 1) with 1%Qc. f_equal; ring.
Qed.
Lemma cx_zmul z x : zmul cx_scalar_ops z x = (qcz z * fst x, qcz z * snd x)%Qc.
Proof.
  destruct z; unfold zmul; rewrite ?cx_nmul, ?positive_nat_Z; simpl s_zero; simpl s_neg.
  - rewrite qcz_0. f_equal; ring.
  - reflexivity.
  - change (Z.neg p) with (- Z.pos p)%Z. rewrite !qcz_opp. simpl. f_equal; ring.
Qed.
Lemma cx_domain : scalar_domain cx_scalar_ops.
Proof.
  constructor; [constructor| |]; ops; intros;
    repeat match goal with x : cx |- _ => destruct x as [? ?] end; cbn [fst snd] in *; try (f_equal; ring).
  - rewrite andb_true_iff, !qc_eqb_eq. split; [intros [<- <-]; auto|intros E; inversion E; auto].
  - cbn [flt_of_vn qc_of_vn option_map]. f_equal. rewrite cx_zmul. cbn [fst snd]. fold (qcz z). change (Q2Qc 1) with 1%Qc. change (Q2Qc 0) with 0%Qc.
    rewrite Qcmult_1_r, Qcmult_0_r. reflexivity.
  - cbn [flt_of_vn qc_of_vn] in H. destruct (Z.eqb_spec q 0) as [|n]; [discriminate|]. simpl in H. inversion H; subst.
    rewrite !cx_zmul. cbn [fst snd]. fold (qcz p) (qcz q). change (Q2Qc 1) with 1%Qc. change (Q2Qc 0) with 0%Qc.
    f_equal; [field|ring]. intros E. apply n. now apply qcz_inj.
  - pose proof (f_equal fst H) as E1. pose proof (f_equal snd H) as E2. cbn [fst snd] in E1, E2. rename q into c, q0 into d, q1 into a, q2 into b.
    change (Q2Qc 0) with 0%Qc in *.
    assert (N : ((a * a + b * b) * (c * c + d * d))%Qc = 0%Qc).
    { replace ((a * a + b * b) * (c * c + d * d))%Qc with
        ((a * c - b * d) * (a * c - b * d) + (a * d + b * c) * (a * d + b * c))%Qc by ring.
      rewrite E1, E2. ring. }
    destruct (Qcmult_integral _ _ N) as [K|K]; apply qc_sum_sq in K; destruct K as [-> ->]; auto.
  - destruct v as [z|p q'|y]; simpl in *.
    + inversion H; subst. apply Z.eqb_neq in H0. intros E. apply H0. apply (f_equal fst) in E. now apply qcz_inj.
    + destruct (Z.eqb_spec q' 0) as [|n]; [discriminate|]. inversion H; subst.
      apply Z.eqb_neq in H0. fold (qcz p) (qcz q'). intros E. apply H0. apply qcz_inj.
      apply (f_equal fst) in E. cbn [fst] in E.
      assert (nq : qcz q' <> 0%Qc) by (intros K; apply n; now apply qcz_inj).
      rewrite <- (Qcmult_div_r (qcz p) (qcz q') nq), E. change (Q2Qc 0) with 0%Qc. ring.
    + inversion H; subst. intros E. apply (f_equal fst) in E. cbn [fst] in E. revert E. now apply q2qc_nz.
Qed.
Lemma cx_conj_laws : conj_laws cx_scalar_ops.
Proof.
  constructor; intros; repeat match goal with x : cx |- _ => destruct x as [? ?] end; simpl; f_equal; ring.
Qed.

(** integers embed into the rationals *)
Lemma int_to_rational : scalar_hom int_scalar_ops rational_scalar_ops qcz.
Proof.
  pose proof (int_hom rational_scalar_ops rational_domain rational_conj_laws) as H.
  assert (E : forall z, zmul rational_scalar_ops z (s_one rational_scalar_ops) = qcz z).
  { intros z. rewrite rat_zmul. simpl. change (Q2Qc 1) with 1%Qc. ring. }
  destruct H as [h1 h2 h3 h4 h5 h6 h7 h8]. constructor; intros; rewrite <- ?E; auto.
Qed.
