(** * Cyclic sums of local operators in a ring (for C87) *)
From Coq Require Import ZArith Lia List Setoid Morphisms Ncring Ncring_tac.
From Verif Require Import ExprModel ExprSpec ExprEval.
Import ListNotations.
Open Scope Z_scope.

Section Cyc.
Context {R : Type} (ro : ring_ops R) (Hr : is_ring ro).
Local Instance opsI : @Ring_ops R (r0 ro) (r1 ro) (radd ro) (rmul ro) (rsub ro) (ropp ro) (req ro)
  := nc_ops ro.
Local Instance ringI : @Ring _ _ _ _ _ _ _ _ opsI := nc_ring ro Hr.
Local Instance eqI : Equivalence (req ro) := ri_equiv _ Hr.
Local Instance addI : Proper (req ro ==> req ro ==> req ro) (radd ro) := ri_add_ext _ Hr.
Local Instance mulI : Proper (req ro ==> req ro ==> req ro) (rmul ro) := ri_mul_ext _ Hr.
Local Instance oppI : Proper (req ro ==> req ro) (ropp ro) := ri_opp_ext _ Hr.
Notation "x == y" := (req ro x y) (at level 70).
Notation "x [+] y" := (radd ro x y) (at level 50, left associativity).
Notation "x [*] y" := (rmul ro x y) (at level 40, left associativity).
Notation "[-] x" := (ropp ro x) (at level 35, right associativity).
Ltac ncr := non_commutative_ring.

(** sum of f(a), ..., f(a + n - 1) *)
Fixpoint zsum (f : Z -> R) (a : Z) (n : nat) : R :=
  match n with O => r0 ro | S k => zsum f a k [+] f (a + Z.of_nat k) end.

Definition rcomm (x y : R) : R := x [*] y [+] [-] (y [*] x).

Lemma zsum_ext f g a n : (forall i, a <= i < a + Z.of_nat n -> f i == g i) -> zsum f a n == zsum g a n.
Proof.
  induction n as [|n IH]; intros H; cbn [zsum]; [reflexivity|].
  rewrite IH by (intros; apply H; lia). rewrite (H (a + Z.of_nat n)) by lia. reflexivity.
Qed.
Lemma zsum_0 f a n : (forall i, a <= i < a + Z.of_nat n -> f i == r0 ro) -> zsum f a n == r0 ro.
Proof.
  induction n as [|n IH]; intros H; cbn [zsum]; [reflexivity|].
  rewrite IH by (intros; apply H; lia). rewrite (H (a + Z.of_nat n)) by lia. ncr.
Qed.
Lemma zsum_add f g a n : zsum (fun i => f i [+] g i) a n == zsum f a n [+] zsum g a n.
Proof. induction n as [|n IH]; cbn [zsum]; [ncr|]. rewrite IH. ncr. Qed.
Lemma zsum_mul_l x f a n : zsum (fun i => x [*] f i) a n == x [*] zsum f a n.
Proof. induction n as [|n IH]; cbn [zsum]; [ncr|]. rewrite IH. ncr. Qed.
Lemma zsum_app f a n m : zsum f a (n + m) == zsum f a n [+] zsum f (a + Z.of_nat n) m.
Proof.
  induction m as [|m IH].
  - rewrite Nat.add_0_r. cbn [zsum]. ncr.
  - rewrite Nat.add_succ_r. cbn [zsum]. rewrite IH.
    replace (a + Z.of_nat (n + m)) with (a + Z.of_nat n + Z.of_nat m) by lia. ncr.
Qed.
Lemma zsum_swap (f : Z -> Z -> R) a n b m :
  zsum (fun i => zsum (fun j => f i j) b m) a n == zsum (fun j => zsum (fun i => f i j) a n) b m.
Proof.
  induction n as [|n IH]; cbn [zsum].
  - symmetry. apply zsum_0. reflexivity.
  - rewrite IH. symmetry. apply (zsum_add (fun j => zsum (fun i => f i j) a n) (fun j => f (a + Z.of_nat n) j)).
Qed.
Lemma zsum_shift f a n d : zsum (fun i => f (i + d)) a n == zsum f (a + d) n.
Proof.
  induction n as [|n IH]; cbn [zsum]; [reflexivity|]. rewrite IH.
  replace (a + Z.of_nat n + d) with (a + d + Z.of_nat n) by lia. reflexivity.
Qed.
Lemma zsum_rev f a n : zsum f a n == zsum (fun i => f (2 * a + Z.of_nat n - 1 - i)) a n.
Proof.
  revert a. induction n as [|n IH]; intros a; [reflexivity|].
  cbn [zsum]. rewrite (IH a).
  pose proof (zsum_app (fun i => f (2 * a + Z.of_nat (S n) - 1 - i)) a 1 n) as E.
  change (1 + n)%nat with (S n) in E. cbn [zsum] in E. rewrite E. clear E.
  replace (2 * a + Z.of_nat (S n) - 1 - (a + Z.of_nat 0)) with (a + Z.of_nat n) by lia.
  rewrite <- (zsum_shift (fun i => f (2 * a + Z.of_nat (S n) - 1 - i)) a n (Z.of_nat 1)).
  rewrite (zsum_ext (fun i => f (2 * a + Z.of_nat (S n) - 1 - (i + Z.of_nat 1)))
                    (fun i => f (2 * a + Z.of_nat n - 1 - i))).
  - ncr.
  - intros i _. replace (2 * a + Z.of_nat (S n) - 1 - (i + Z.of_nat 1)) with (2 * a + Z.of_nat n - 1 - i) by lia.
    reflexivity.
Qed.

Section Periodic.
Context (N : nat).
Definition periodic (f : Z -> R) : Prop := forall i, f (i + Z.of_nat N) == f i.
(** one period *)
Definition csum (f : Z -> R) : R := zsum f 0 N.

Lemma period_step f a : periodic f -> zsum f (a + 1) N == zsum f a N.
Proof.
  intros P.
  pose proof (zsum_app f a 1 N) as E1. pose proof (zsum_app f a N 1) as E2.
  rewrite (Nat.add_comm N 1) in E2. rewrite E1 in E2. cbn [zsum] in E2.
  change (Z.of_nat 1) with 1 in E2. change (Z.of_nat 0) with 0 in E2. rewrite !Z.add_0_r in E2.
  pose proof (P a) as Pa. rewrite Pa in E2.
  transitivity ([-] f a [+] (r0 ro [+] f a [+] zsum f (a + 1) N)); [ncr|]. rewrite E2. ncr.
Qed.
Lemma period_shift f a : periodic f -> zsum f a N == csum f.
Proof.
  intros P. unfold csum. destruct (Z_le_gt_dec 0 a) as [h|h].
  - rewrite <- (Z2Nat.id a) by lia. generalize (Z.to_nat a). intros n. induction n as [|n IH]; [reflexivity|].
    rewrite Nat2Z.inj_succ, <- Z.add_1_r. rewrite period_step by exact P. exact IH.
  - replace a with (- Z.of_nat (Z.to_nat (- a))) by lia. generalize (Z.to_nat (- a)). intros n.
    induction n as [|n IH]; [reflexivity|].
    rewrite <- IH. rewrite <- (period_step f (- Z.of_nat (S n)) P).
    replace (- Z.of_nat (S n) + 1) with (- Z.of_nat n) by lia. reflexivity.
Qed.
Lemma csum_shift f d : periodic f -> csum (fun i => f (i + d)) == csum f.
Proof. intros P. unfold csum. rewrite zsum_shift. apply period_shift. exact P. Qed.

Lemma rcomm_ext a a' b b' : a == a' -> b == b' -> rcomm a b == rcomm a' b'.
Proof. intros H1 H2. unfold rcomm. now rewrite H1, H2. Qed.
Lemma rcomm_add_l a b c : rcomm (a [+] b) c == rcomm a c [+] rcomm b c.
Proof. unfold rcomm. ncr. Qed.
Lemma rcomm_add_r a b c : rcomm c (a [+] b) == rcomm c a [+] rcomm c b.
Proof. unfold rcomm. ncr. Qed.
Lemma rcomm_0_l c : rcomm (r0 ro) c == r0 ro.
Proof. unfold rcomm. ncr. Qed.
Lemma rcomm_0_r c : rcomm c (r0 ro) == r0 ro.
Proof. unfold rcomm. ncr. Qed.
Lemma rcomm_zsum_l f c a n : rcomm (zsum f a n) c == zsum (fun i => rcomm (f i) c) a n.
Proof. induction n as [|n IH]; cbn [zsum]; [apply rcomm_0_l|]. now rewrite rcomm_add_l, IH. Qed.
Lemma rcomm_zsum_r f c a n : rcomm c (zsum f a n) == zsum (fun i => rcomm c (f i)) a n.
Proof. induction n as [|n IH]; cbn [zsum]; [apply rcomm_0_r|]. now rewrite rcomm_add_r, IH. Qed.

(** [a i] acts on the sites i, ..., i + A - 1 and [b i] on i, ..., i + Bn - 1
    (modulo N): the commutator of the sums is a sum of local commutators *)
Lemma comm_csum (a b : Z -> R) (A Bn : nat) : periodic a -> periodic b ->
  (1 <= A)%nat -> (1 <= Bn)%nat -> (A + Bn - 1 <= N)%nat ->
  (forall i d, Z.of_nat A <= d -> d + Z.of_nat Bn <= Z.of_nat N -> rcomm (a i) (b (i + d)) == r0 ro) ->
  rcomm (csum a) (csum b) ==
    csum (fun i => zsum (fun d => rcomm (a i) (b (i + d))) 0 A
                   [+] zsum (fun d => rcomm (a (i + d)) (b i)) 1 (Bn - 1)).
Proof.
  intros Pa Pb HA HB HN FAR.
  unfold csum at 1. rewrite rcomm_zsum_l.
  assert (E : zsum (fun i => rcomm (a i) (csum b)) 0 N ==
              zsum (fun i => zsum (fun d => rcomm (a i) (b (i + d))) 0 N) 0 N).
  { apply zsum_ext. intros i _.
    rewrite (rcomm_ext (a i) (a i) (csum b) (csum (fun d => b (d + i)))).
    2:reflexivity. 2:{ symmetry. apply csum_shift. exact Pb. }
    unfold csum. rewrite rcomm_zsum_r. apply zsum_ext. intros d _. rewrite (Z.add_comm d i). reflexivity. }
  rewrite E. clear E.
  rewrite zsum_swap.
  set (K := (N - (A + Bn - 1))%nat).
  assert (X : forall F, zsum F 0 N == zsum F 0 A [+] (zsum F (0 + Z.of_nat A) K
                [+] zsum F (0 + Z.of_nat A + Z.of_nat K) (Bn - 1))).
  { intros F. rewrite <- zsum_app, <- zsum_app.
    replace (A + (K + (Bn - 1)))%nat with N by (unfold K; lia). reflexivity. }
  rewrite (X (fun d => zsum (fun i => rcomm (a i) (b (i + d))) 0 N)). clear X.
  assert (M : zsum (fun d => zsum (fun i => rcomm (a i) (b (i + d))) 0 N) (0 + Z.of_nat A) K == r0 ro).
  { apply zsum_0. intros d hd. apply zsum_0. intros i _. apply FAR; unfold K in hd; lia. }
  rewrite M. clear M.
  unfold csum. rewrite zsum_add. rewrite (zsum_swap (fun i d => rcomm (a i) (b (i + d))) 0 N 0 A).
  rewrite (zsum_swap (fun i d => rcomm (a (i + d)) (b i)) 0 N 1 (Bn - 1)).
  assert (T : zsum (fun d => zsum (fun i => rcomm (a i) (b (i + d))) 0 N) (0 + Z.of_nat A + Z.of_nat K) (Bn - 1)
           == zsum (fun d => zsum (fun i => rcomm (a (i + d)) (b i)) 0 N) 1 (Bn - 1)).
  { rewrite (zsum_rev (fun d => zsum (fun i => rcomm (a (i + d)) (b i)) 0 N) 1 (Bn - 1)).
    set (o := 0 + Z.of_nat A + Z.of_nat K).
    replace o with (1 + (o - 1)) by lia.
    rewrite <- (zsum_shift (fun d => zsum (fun i => rcomm (a i) (b (i + d))) 0 N) 1 (Bn - 1) (o - 1)).
    apply zsum_ext. intros d hd.
    set (e := 2 * 1 + Z.of_nat (Bn - 1) - 1 - d).
    assert (Ee : d + (o - 1) = Z.of_nat N - e) by (unfold e, o, K; lia).
    rewrite Ee.
    transitivity (csum (fun i => rcomm (a (i + e)) (b (i + e + (Z.of_nat N - e))))).
    - symmetry. apply (csum_shift (fun i => rcomm (a i) (b (i + (Z.of_nat N - e)))) e).
      intros i. apply rcomm_ext; [apply Pa|].
      replace (i + Z.of_nat N + (Z.of_nat N - e)) with (i + (Z.of_nat N - e) + Z.of_nat N) by lia. apply Pb.
    - unfold csum. apply zsum_ext. intros i _. apply rcomm_ext; [reflexivity|].
      replace (i + e + (Z.of_nat N - e)) with (i + Z.of_nat N) by lia. apply Pb. }
  rewrite T. ncr.
Qed.
End Periodic.
End Cyc.
