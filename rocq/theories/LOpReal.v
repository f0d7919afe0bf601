(** Real numbers as scalars: an instance of the assumptions about scalars,
    square roots and half-integers. *)
From Coq Require Import NArith ZArith List Bool QArith Reals Qreals Lra Lia.
From Coq.micromega Require RMicromega.
From Verif Require Import ExprModel ExprSpec LOpModel LOpSpec.
Local Open Scope R_scope.

Definition real_ops : scalar_ops R := mk_scalar_ops R 0 1 Rplus Rminus Rmult Ropp
  (fun x => if Req_EM_T x 0 then true else false)
  (fun v => match v with VInt z => Some (IZR z) | VRat p q => if Z.eqb q 0 then None else Some (IZR p / IZR q) | VReal x => Some (Q2R x) end)
  (fun x => x).
Definition real_sq (n : N) : R := sqrt (IZR (Z.of_N n)).
Definition real_half (z : Z) : R := IZR z / 2.

Lemma real_nmul n x : nmul real_ops n x = INR n * x.
Proof.
  induction n as [|n IH]; [cbn; ring|]. change (nmul real_ops (Datatypes.S n) x) with (x + nmul real_ops n x). rewrite IH, S_INR. ring.
Qed.
Lemma real_zmul z x : zmul real_ops z x = IZR z * x.
Proof.
  destruct z as [|p|p]; cbn [zmul].
  - cbn. ring.
  - rewrite real_nmul, INR_IZR_INZ, positive_nat_Z. reflexivity.
  - rewrite real_nmul, INR_IZR_INZ, positive_nat_Z. change (IZR (Z.neg p)) with (- IZR (Z.pos p)). cbn. ring.
Qed.
Lemma real_laws : scalar_laws real_ops.
Proof.
  constructor; cbn; intros; try ring.
  - destruct (Req_EM_T x 0); split; congruence.
  - rewrite real_zmul. f_equal. ring.
  - rewrite !real_zmul. destruct (Z.eqb_spec q 0) as [E|n]; [discriminate|]. inversion H; subst. field. now apply not_0_IZR.
Qed.
Lemma real_domain : scalar_domain real_ops.
Proof.
  constructor; [apply real_laws| |].
  - cbn. intros x y H. now apply Rmult_integral.
  - intros [z|p q|y] x; cbn.
    + intros E H. inversion E; subst. apply Z.eqb_neq in H. now apply not_0_IZR.
    + destruct (Z.eqb_spec q 0) as [E|n]; [discriminate|]. intros E H. inversion E; subst. apply Z.eqb_neq in H.
      unfold Rdiv. apply Rmult_integral_contrapositive. split; [now apply not_0_IZR|]. apply Rinv_neq_0_compat. now apply not_0_IZR.
    + intros E H. injection E as <-. apply Qeq_bool_neq in H. intros E. apply H. apply eqR_Qeq. now rewrite E, RMicromega.Q2R_0.
Qed.
Lemma real_lop : lop_laws real_ops real_sq real_half.
Proof.
  constructor.
  - apply real_laws.
  - cbn. intros. ring.
  - intros n. cbn [s_mul real_ops]. unfold real_sq. rewrite sqrt_sqrt by (apply IZR_le; lia). rewrite real_zmul. cbn. ring.
  - intros y z. unfold real_half. cbn. rewrite plus_IZR. field.
  - unfold real_half. cbn. field.
Qed.

(** ** Complex numbers *)
Definition cplx_ops : scalar_ops (R * R) := mk_scalar_ops (R * R) (0, 0) (1, 0)
  (fun x y => (fst x + fst y, snd x + snd y)) (fun x y => (fst x - fst y, snd x - snd y))
  (fun x y => (fst x * fst y - snd x * snd y, fst x * snd y + snd x * fst y)) (fun x => (- fst x, - snd x))
  (fun x => if Req_EM_T (fst x) 0 then if Req_EM_T (snd x) 0 then true else false else false)
  (fun v => option_map (fun r => (r, 0)) (s_make real_ops v))
  (fun x => (fst x, - snd x)).
Definition cplx_sq (n : N) : R * R := (real_sq n, 0).
Definition cplx_half (z : Z) : R * R := (real_half z, 0).
Ltac cx := intros; repeat match goal with x : (R * R)%type |- _ => destruct x as [? ?] end; cbn in *; try (f_equal; ring).
Lemma cplx_nmul n x : nmul cplx_ops n x = (INR n * fst x, INR n * snd x).
Proof.
  induction n as [|n IH]; [cbn; f_equal; ring|].
  change (nmul cplx_ops (Datatypes.S n) x) with (s_add cplx_ops x (nmul cplx_ops n x)). rewrite IH, S_INR. cbn. f_equal; ring.
Qed.
Lemma cplx_zmul z x : zmul cplx_ops z x = (IZR z * fst x, IZR z * snd x).
Proof.
  destruct z as [|p|p]; cbn [zmul].
  - cbn. f_equal; ring.
  - rewrite cplx_nmul, INR_IZR_INZ, positive_nat_Z. reflexivity.
  - rewrite cplx_nmul, INR_IZR_INZ, positive_nat_Z. change (IZR (Z.neg p)) with (- IZR (Z.pos p)). cbn. f_equal; ring.
Qed.
Lemma cplx_laws : scalar_laws cplx_ops.
Proof.
  constructor; try (cx; fail).
  - intros [a b]. cbn. destruct (Req_EM_T a 0); [destruct (Req_EM_T b 0)|]; split; intros E; try discriminate; try congruence; exfalso; inversion E; congruence.
  - intros z. cbn. rewrite cplx_zmul. cbn. do 2 f_equal; ring.
  - intros p q x E. rewrite !cplx_zmul. cbn [s_make cplx_ops real_ops option_map] in E. destruct (Z.eqb_spec q 0) as [|n]; [discriminate|].
    cbn [option_map] in E. inversion E; subst. cbn. f_equal; [field; now apply not_0_IZR|ring].
Qed.
Lemma cplx_domain : scalar_domain cplx_ops.
Proof.
  constructor; [apply cplx_laws| |].
  - intros [a b] [c d] E. cbn in *. pose proof (f_equal fst E) as E1. pose proof (f_equal snd E) as E2. cbn [fst snd] in E1, E2.
    assert (N : (a * a + b * b) * (c * c + d * d) = 0).
    { replace ((a * a + b * b) * (c * c + d * d)) with ((a * c - b * d) * (a * c - b * d) + (a * d + b * c) * (a * d + b * c)) by ring. rewrite E1, E2. ring. }
    assert (K : forall x y, x * x + y * y = 0 -> (x, y) = (0, 0)).
    { intros x y H. change (x * x) with (Rsqr x) in H. change (y * y) with (Rsqr y) in H. f_equal; [|rewrite Rplus_comm in H]; eapply Rplus_sqr_eq_0_l; exact H. }
    destruct (Rmult_integral _ _ N) as [H|H]; [left|right]; now apply K.
  - intros v x E H. cbn [s_make cplx_ops] in E. destruct (s_make real_ops v) as [r|] eqn:Er; [|discriminate]. cbn in E. inversion E; subst.
    intros Z. apply (sd_const _ real_domain v r Er H). apply (f_equal fst) in Z. exact Z.
Qed.
Lemma cplx_lop : lop_laws cplx_ops cplx_sq cplx_half.
Proof.
  pose proof real_lop as RL. constructor.
  - apply cplx_laws.
  - cx.
  - intros n. pose proof (ll_sq _ _ _ RL n) as E. rewrite cplx_zmul. rewrite real_zmul in E. cbn in *. f_equal; [rewrite <- E; ring|ring].
  - intros y z. unfold cplx_half. rewrite (ll_half_add _ _ _ RL). cbn. f_equal; ring.
  - unfold cplx_half. rewrite (ll_half_2 _ _ _ RL). reflexivity.
Qed.
Lemma cplx_conj : conj_laws cplx_ops.
Proof. constructor; cx. Qed.
