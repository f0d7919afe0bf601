(** Rounding errors: the two state vector classes, double and std::complex<double> *)
From Coq Require Import Reals NArith ZArith List Bool Sorted Permutation Lia Lra Psatz.
From Flocq Require Import Core Relative.
From Verif Require Import BitsModel ExprModel ExprSpec ExprMap ExprEval HSModel HSSpec LOpModel LOpSpec LOpApply LOpReal RoundModel RoundSpec RoundProofs.
Import ListNotations.
Close Scope N_scope.
Close Scope nat_scope.
Local Open Scope R_scope.

Section Vec.
Context {S : Type} (so fo : scalar_ops S) (sq sqf : N -> S) (half halff : Z -> S) (nrm : S -> R) (u tol : R).
Context (L : scalar_laws so) (NL : norm_laws so nrm) (RO : rounds so fo sq sqf half halff nrm u tol) (T0 : 0 <= tol).
Let Z0 : s_zero fo = s_zero so := ro_0 _ _ _ _ _ _ _ _ _ RO.

Lemma fl_nonzero a : s_is_zero fo a = false -> a <> s_zero so.
Proof. intros E ->. rewrite (ro_zero _ _ _ _ _ _ _ _ _ RO) in E. discriminate. Qed.
Lemma dense_fl_entries (v : @dense S) : forall n0,
  StronglySorted N.lt (map fst (dense_entries_from fo v n0)) /\
  (forall x a, In (x, a) (dense_entries_from fo v n0) -> (n0 <= x)%N /\ a = dense_amp so v (x - n0) /\ a <> s_zero so) /\
  (forall k, (k < length v)%nat -> ~ In (n0 + N.of_nat k)%N (map fst (dense_entries_from fo v n0)) -> s_is_zero fo (nth k v (s_zero so)) = true).
Proof.
  induction v as [|a v IH]; intros n0; cbn [dense_entries_from].
  - split; [constructor|]. split; [intros x b []|]. cbn. lia.
  - destruct (IH (n0 + 1)%N) as [A [B C]].
    assert (B' : forall x b, In (x, b) (dense_entries_from fo v (n0 + 1)) ->
       (n0 <= x)%N /\ b = dense_amp so (a :: v) (x - n0) /\ b <> s_zero so).
    { intros x b i. destruct (B x b i) as [h1 [h2 h3]]. split; [lia|]. split; auto.
      rewrite h2. unfold dense_amp. replace (N.to_nat (x - n0)) with (Datatypes.S (N.to_nat (x - (n0 + 1)))) by lia. reflexivity. }
    assert (C' : forall k, (k < length v)%nat -> ~ In (n0 + N.of_nat (Datatypes.S k))%N (map fst (dense_entries_from fo v (n0 + 1))) ->
       s_is_zero fo (nth k v (s_zero so)) = true).
    { intros k hk. replace (n0 + N.of_nat (Datatypes.S k))%N with (n0 + 1 + N.of_nat k)%N by lia. auto. }
    destruct (s_is_zero fo a) eqn:Z.
    + split; auto. split; auto. intros [|k] hk nz; cbn [nth].
      * exact Z.
      * apply C'; auto. cbn in hk. lia.
    + split; [|split].
      * cbn [map fst]. constructor; auto. rewrite Forall_forall. intros x i. apply in_map_iff in i. destruct i as [[y b] [<- i]].
        apply B in i. cbn. lia.
      * intros x b [E|i]; auto. inversion E; subst. split; [lia|]. rewrite N.sub_diag. split; [reflexivity|]. now apply fl_nonzero.
      * intros [|k] hk nz; cbn [map fst In] in nz.
        -- exfalso. apply nz. left. cbn. lia.
        -- apply C'; [cbn in hk; lia|]. tauto.
Qed.
Theorem dense_rounds : sv_rounds so (dense_sv fo) (fun _ => True) (dense_amp so) dense_size nrm u (s_is_zero fo) 0.
Proof.
  constructor.
  - intros v. eexists. reflexivity.
  - intros v l _ E. cbn in E. subst l. destruct (dense_fl_entries v 0) as [A [B C]]. split; [|split].
    + clear -A. induction A as [|x t St IH F]; constructor; auto. rewrite Forall_forall in F. intros i. apply F in i. lia.
    + intros x a i. destruct (B x a i) as [_ [h n]]. now rewrite N.sub_0_r in h.
    + intros x nx. unfold dense_amp. destruct (Nat.lt_ge_cases (N.to_nat x) (length v)) as [h|h].
      * right. apply C; auto. now rewrite N2Nat.id.
      * left. now apply nth_overflow.
  - intros v n x _ h. unfold dense_size in *. destruct (list_update_spec fo v (N.to_nat n) x) as [v' [E1 [E2 E3]]]; [lia|].
    rewrite Z0 in E3. exists v'. split; [exact E1|]. split; auto. split; [lia|]. unfold dense_amp. split.
    + intros y ny. rewrite E3. destruct (Nat.eqb_spec (N.to_nat n) (N.to_nat y)); auto. lia.
    + rewrite E3, Nat.eqb_refl, Rplus_0_r. apply (ro_add _ _ _ _ _ _ _ _ _ RO).
  - intros v _. cbn. unfold dense_zero, dense_size, dense_amp. rewrite map_length. repeat split; auto. intros y. rewrite Z0.
    destruct (nth_in_or_default (N.to_nat y) (map (fun _ => s_zero so) v) (s_zero so)) as [i|]; auto.
    apply in_map_iff in i. destruct i as [? [<- _]]. reflexivity.
Qed.

Definition sparse_fl_ok (v : @sparse S) : Prop := sparse_ok v /\ Forall (fun p => snd p <> s_zero so) (sp_data v).
Lemma sp_set_nz' n x (d : list (N * S)) : x <> s_zero so -> Forall (fun p => snd p <> s_zero so) d ->
  Forall (fun p => snd p <> s_zero so) (sp_set n x d).
Proof. intros nx F. induction F as [|[k a] d h F IH]; cbn; [constructor; auto|]. destruct (N.eqb n k); constructor; auto. Qed.
Lemma sp_erase_nz' n (d : list (N * S)) : Forall (fun p => snd p <> s_zero so) d -> Forall (fun p => snd p <> s_zero so) (sp_erase n d).
Proof. intros F. induction F as [|[k a] d h F IH]; cbn; auto. destruct (N.eqb n k); auto. Qed.
Theorem sparse_rounds : sv_rounds so (sparse_sv fo) sparse_fl_ok (sparse_amp so) sp_size nrm u (fun _ => false) tol.
Proof.
  pose proof (ro_u _ _ _ _ _ _ _ _ _ RO) as U0.
  constructor.
  - intros v. exists (sp_data v). cbn. reflexivity.
  - intros v l [[ND F] NZ] P. cbn in P.
    assert (ND' : NoDup (map fst l)) by (eapply Permutation_NoDup; [symmetry; apply Permutation_map; exact P|exact ND]).
    split; auto. split.
    + intros x a i. assert (i2 : In (x, a) (sp_data v)) by (eapply Permutation_in; eauto). split.
      * unfold sparse_amp, dat_amp. apply (sp_find_In _ _ _ ND) in i2. now rewrite i2.
      * rewrite Forall_forall in NZ. apply (NZ (x, a) i2).
    + intros x nx. unfold sparse_amp, dat_amp. rewrite (proj2 (sp_find_None (sp_data v) x)).
      * now left.
      * intros i. apply nx. eapply Permutation_in; [symmetry; apply Permutation_map; exact P|exact i].
  - intros v n x [[ND F] NZ] h. cbn. unfold sparse_add. eexists. split; [reflexivity|]. cbn [sp_size].
    unfold sparse_add_data, sparse_fl_ok, sparse_ok, sparse_amp, dat_amp. cbn [sp_data sp_size].
    rewrite keys_bound in F.
    destruct (sp_find n (sp_data v)) as [a|] eqn:E.
    + destruct (s_is_zero fo (s_add fo a x)) eqn:Z.
      * split; [split; [split; [now apply sp_erase_nodup|]|now apply sp_erase_nz']|split; [auto|split]].
        -- rewrite keys_bound. intros k i. apply sp_erase_keys in i. auto.
        -- intros y ny. rewrite sp_find_erase by auto. destruct (N.eqb_spec n y) as [->|]; auto. contradiction.
        -- rewrite sp_find_erase, N.eqb_refl by auto. rewrite (sl_sub so L), (sl_add_0 so L), (nl_neg _ _ NL).
           pose proof (ro_tol _ _ _ _ _ _ _ _ _ RO _ Z) as Q. pose proof (ro_add _ _ _ _ _ _ _ _ _ RO a x) as Q2.
           pose proof (near_norm so nrm L NL (s_add so a x) (s_add fo a x)) as Q3.
           assert (Q4 : nrm (s_sub so (s_add so a x) (s_add fo a x)) = nrm (s_sub so (s_add fo a x) (s_add so a x))).
           { rewrite <- (nl_neg _ _ NL). f_equal. rewrite !(sl_sub so L), (s_neg_add so L), (s_neg_neg so L). apply (sl_add_comm so L). }
           lra.
      * split; [split; [split; [now apply sp_set_nodup|]|apply sp_set_nz'; auto; now apply fl_nonzero]|split; [auto|split]].
        -- rewrite keys_bound. intros k i. apply sp_set_keys in i. destruct i as [->|i]; auto.
        -- intros y ny. rewrite sp_find_set. destruct (N.eqb_spec n y) as [->|]; auto. contradiction.
        -- rewrite sp_find_set, N.eqb_refl. pose proof (ro_add _ _ _ _ _ _ _ _ _ RO a x). lra.
    + destruct (s_is_zero fo x) eqn:Z.
      * split; [split; [split; auto; now rewrite keys_bound|auto]|split; [auto|split; [auto|]]].
        rewrite E, (sl_sub so L), (sl_add_0 so L), (sl_add_0 so L), (nl_neg _ _ NL).
        pose proof (ro_tol _ _ _ _ _ _ _ _ _ RO _ Z) as Q. pose proof (nl_pos _ _ NL x). nra.
      * split; [split; [split; [now apply sp_set_nodup|]|apply sp_set_nz'; auto; now apply fl_nonzero]|split; [auto|split]].
        -- rewrite keys_bound. intros k i. apply sp_set_keys in i. destruct i as [->|i]; auto.
        -- intros y ny. rewrite sp_find_set. destruct (N.eqb_spec n y) as [->|]; auto. contradiction.
        -- rewrite sp_find_set, N.eqb_refl, (sl_add_0 so L), (sub_self so L), (nl_0 _ _ NL). pose proof (nl_pos _ _ NL x). nra.
  - intros v [[ND F] NZ]. cbn. unfold sparse_fl_ok, sparse_ok, sparse_amp. cbn. repeat split; auto; constructor.
Qed.
End Vec.

(** ** double *)
Definition u53 : R := / 2 ^ 53.
Lemma rnd_err x : Rabs (dbl_rnd x - x) <= u53 * Rabs x.
Proof.
  unfold dbl_rnd, u53. pose proof (relative_error_N_FLX radix2 53 ltac:(reflexivity) (fun x => negb (Z.even x)) x) as Q.
  eapply Rle_trans; [exact Q|]. right. f_equal. rewrite bpow_powerRZ. change (IZR radix2) with 2.
  change (powerRZ 2 (- (53) + 1)) with (/ 2 ^ 52). change (2 ^ 53) with (2 * 2 ^ 52). rewrite Rinv_mult. reflexivity.
Qed.
Lemma real_norm : norm_laws real_ops Rabs.
Proof.
  constructor; cbn; intros.
  - apply Rabs_pos.
  - apply Rabs_R0.
  - apply Rabs_R1.
  - apply Rabs_Ropp.
  - apply Rabs_triang.
  - apply Rabs_mult.
Qed.
Lemma u53_pos : 0 < u53.
Proof. unfold u53. apply Rinv_0_lt_compat. apply pow_lt. lra. Qed.
Lemma tol_pos : 0 < dbl_tol.
Proof. unfold dbl_tol. apply Rmult_lt_0_compat; [lra|]. apply Rinv_0_lt_compat. apply pow_lt. lra. Qed.
Lemma sqrt_err n : Rabs (dbl_sq n - real_sq n) <= ((1 + u53) ^ 2 - 1) * Rabs (real_sq n).
Proof.
  unfold dbl_sq, real_sq. set (r := IZR (Z.of_N n)). assert (r0 : 0 <= r) by (apply IZR_le; lia).
  pose proof u53_pos as U. assert (U1 : u53 <= 1).
  { unfold u53. rewrite <- Rinv_1. apply Rinv_le_contravar; [lra|]. apply pow_R1_Rle. lra. }
  pose proof (rnd_err r) as E1. set (r' := dbl_rnd r) in *. rewrite (Rabs_pos_eq r r0) in E1. apply Rabs_le_inv in E1.
  pose proof (rnd_err (sqrt r')) as E2. set (s' := dbl_rnd (sqrt r')) in *.
  assert (r0' : 0 <= r') by nra.
  pose proof (sqrt_pos r) as S0. pose proof (sqrt_pos r') as S0'. rewrite (Rabs_pos_eq _ S0') in E2. rewrite (Rabs_pos_eq _ S0).
  pose proof (sqrt_sqrt r r0) as Q. pose proof (sqrt_sqrt r' r0') as Q'. set (s := sqrt r) in *. set (t := sqrt r') in *.
  assert (B1 : t <= (1 + u53) * s).
  { apply Rsqr_incr_0_var; [|nra]. unfold Rsqr. nra. }
  assert (B2 : (1 - u53) * s <= t).
  { apply Rsqr_incr_0_var; [|auto]. unfold Rsqr. nra. }
  apply Rabs_le_inv in E2. apply Rabs_le. cbn [pow]. nra.
Qed.
Theorem dbl_rounds : rounds real_ops dbl_ops real_sq dbl_sq real_half dbl_half Rabs u53 dbl_tol.
Proof.
  constructor; cbn [s_zero s_one s_neg s_add s_sub s_mul s_is_zero real_ops dbl_ops]; intros; auto.
  - left. apply u53_pos.
  - apply rnd_err.
  - apply rnd_err.
  - apply sqrt_err.
  - apply rnd_err.
  - rewrite Rabs_R0. destruct (Rlt_dec 0 dbl_tol) as [|n]; auto. exfalso. apply n, tol_pos.
  - destruct (Rlt_dec (Rabs x) dbl_tol) as [l|]; [lra|discriminate].
Qed.

(** ** std::complex<double> *)
Definition cabs (x : R * R) : R := sqrt (fst x * fst x + snd x * snd x).
Lemma cabs_sq x : cabs x * cabs x = fst x * fst x + snd x * snd x.
Proof. apply sqrt_sqrt. nra. Qed.
Lemma cabs_pos x : 0 <= cabs x.
Proof. apply sqrt_pos. Qed.
Lemma cabs_le x r : 0 <= r -> fst x * fst x + snd x * snd x <= r * r -> cabs x <= r.
Proof. intros H0 H. apply Rsqr_incr_0_var; auto. unfold Rsqr. now rewrite cabs_sq. Qed.
Lemma cabs_real r : cabs (r, 0) = Rabs r.
Proof. unfold cabs. cbn. replace (r * r + 0 * 0) with (Rsqr r) by (unfold Rsqr; ring). apply sqrt_Rsqr_abs. Qed.
Lemma cplx_norm : norm_laws cplx_ops cabs.
Proof.
  constructor; cbn [s_zero s_one s_neg s_add s_mul cplx_ops].
  - apply cabs_pos.
  - rewrite cabs_real. apply Rabs_R0.
  - rewrite cabs_real. apply Rabs_R1.
  - intros x. unfold cabs. cbn. f_equal. ring.
  - intros x y. pose proof (cabs_pos x). pose proof (cabs_pos y). apply cabs_le; [lra|]. cbn [fst snd].
    pose proof (cabs_sq x) as Qx. pose proof (cabs_sq y) as Qy.
    assert (CS : fst x * fst y + snd x * snd y <= cabs x * cabs y).
    { apply Rsqr_incr_0_var; [|nra]. unfold Rsqr.
      replace (cabs x * cabs y * (cabs x * cabs y)) with ((cabs x * cabs x) * (cabs y * cabs y)) by ring. rewrite Qx, Qy.
      pose proof (Rle_0_sqr (fst x * snd y - snd x * fst y)) as Q0. unfold Rsqr in Q0. lra. }
    lra.
  - intros x y. unfold cabs. cbn [fst snd]. rewrite <- sqrt_mult by nra. f_equal. ring.
Qed.
(** the unit roundoff of complex arithmetic *)
Definition uc : R := 3 * u53.
Lemma u53_small : u53 <= / 100.
Proof. unfold u53. apply Rinv_le_contravar; [lra|]. replace (2 ^ 53) with (2 ^ 7 * 2 ^ 46) by (rewrite <- pow_add; reflexivity).
  assert (H1 : 1 <= 2 ^ 46) by (apply pow_R1_Rle; lra). assert (H2 : 2 ^ 7 = 128) by ring. rewrite H2.
  revert H1. generalize (2 ^ 46). intros; lra. Qed.
Lemma rnd_abs x : Rabs (dbl_rnd x) <= (1 + u53) * Rabs x.
Proof. pose proof (rnd_err x) as E. pose proof (Rabs_triang (dbl_rnd x - x) x) as T. replace (dbl_rnd x - x + x) with (dbl_rnd x) in T by ring. lra. Qed.
(** two products, rounded, then added *)
Lemma dot_err p q M : Rabs p + Rabs q <= M -> Rabs (dbl_rnd (dbl_rnd p + dbl_rnd q) - (p + q)) <= (2 * u53 + u53 * u53) * M.
Proof.
  intros HM. pose proof u53_pos as U. pose proof (rnd_err p) as Ep. pose proof (rnd_err q) as Eq.
  pose proof (rnd_err (dbl_rnd p + dbl_rnd q)) as Es. set (p' := dbl_rnd p) in *. set (q' := dbl_rnd q) in *. set (s := dbl_rnd (p' + q')) in *.
  pose proof (Rabs_pos p). pose proof (Rabs_pos q).
  assert (A : Rabs (p' + q' - (p + q)) <= u53 * (Rabs p + Rabs q)).
  { replace (p' + q' - (p + q)) with ((p' - p) + (q' - q)) by ring. eapply Rle_trans; [apply Rabs_triang|]. lra. }
  assert (B : Rabs (p' + q') <= (1 + u53) * (Rabs p + Rabs q)).
  { replace (p' + q') with ((p' + q' - (p + q)) + (p + q)) by ring. eapply Rle_trans; [apply Rabs_triang|]. pose proof (Rabs_triang p q). lra. }
  assert (C : Rabs (s - (p + q)) <= Rabs (s - (p' + q')) + Rabs (p' + q' - (p + q))).
  { replace (s - (p + q)) with ((s - (p' + q')) + (p' + q' - (p + q))) by ring. apply Rabs_triang. }
  nra.
Qed.
Lemma cabs_dot a b c d : Rabs (a * c) + Rabs (b * d) <= cabs (a, b) * cabs (c, d).
Proof.
  pose proof (cabs_pos (a, b)). pose proof (cabs_pos (c, d)). pose proof (cabs_sq (a, b)) as Q1. pose proof (cabs_sq (c, d)) as Q2. cbn [fst snd] in Q1, Q2.
  apply Rsqr_incr_0_var; [|nra]. unfold Rsqr. rewrite !Rabs_mult.
  replace (cabs (a, b) * cabs (c, d) * (cabs (a, b) * cabs (c, d))) with ((cabs (a, b) * cabs (a, b)) * (cabs (c, d) * cabs (c, d))) by ring. rewrite Q1, Q2.
  assert (Sa : forall z, z * z = Rabs z * Rabs z) by (intros z; rewrite <- Rabs_mult; symmetry; apply Rabs_pos_eq; nra).
  rewrite (Sa a), (Sa b), (Sa c), (Sa d). pose proof (Rabs_pos a). pose proof (Rabs_pos b). pose proof (Rabs_pos c). pose proof (Rabs_pos d).
  pose proof (Rle_0_sqr (Rabs a * Rabs d - Rabs b * Rabs c)) as Q0. unfold Rsqr in Q0. lra.
Qed.
Lemma dbl_rnd_opp x : dbl_rnd (- x) = - dbl_rnd x.
Proof. unfold dbl_rnd. apply round_NE_opp. Qed.
Lemma cabs_comp x M : Rabs (fst x) <= M -> Rabs (snd x) <= M -> cabs x <= sqrt 2 * M.
Proof.
  intros H1 H2. pose proof (Rabs_pos (fst x)). pose proof (sqrt_pos 2). pose proof (sqrt_sqrt 2 ltac:(lra)) as Q.
  apply cabs_le; [nra|]. assert (Sa : forall z, z * z = Rabs z * Rabs z) by (intros z; rewrite <- Rabs_mult; symmetry; apply Rabs_pos_eq; nra).
  rewrite (Sa (fst x)), (Sa (snd x)). pose proof (Rabs_pos (snd x)).
  replace (sqrt 2 * M * (sqrt 2 * M)) with ((sqrt 2 * sqrt 2) * (M * M)) by ring. rewrite Q. nra.
Qed.
Theorem cdbl_rounds : rounds cplx_ops cdbl_ops cplx_sq cdbl_sq cplx_half cdbl_half cabs uc (sqrt 2 * dbl_tol).
Proof.
  pose proof u53_pos as U. pose proof u53_small as Us. unfold uc.
  constructor; cbn [s_zero s_one s_neg s_add s_sub s_mul s_is_zero cplx_ops cdbl_ops fst snd]; intros; auto.
  - lra.
  - set (p := fst x + fst y). set (q := snd x + snd y). pose proof (rnd_err p) as Ep. pose proof (rnd_err q) as Eq.
    apply Rle_trans with (u53 * cabs (p, q)).
    + pose proof (cabs_pos (p, q)). apply cabs_le; [nra|]. cbn [fst snd]. pose proof (cabs_sq (p, q)) as Q. cbn [fst snd] in Q.
      assert (Sa : forall z, z * z = Rabs z * Rabs z) by (intros z; rewrite <- Rabs_mult; symmetry; apply Rabs_pos_eq; nra).
      replace (u53 * cabs (p, q) * (u53 * cabs (p, q))) with ((u53 * u53) * (cabs (p, q) * cabs (p, q))) by ring. rewrite Q.
      rewrite (Sa (dbl_rnd p - p)), (Sa (dbl_rnd q - q)), (Sa p), (Sa q).
      pose proof (Rabs_pos (dbl_rnd p - p)). pose proof (Rabs_pos (dbl_rnd q - q)).
      assert (Rabs (dbl_rnd p - p) * Rabs (dbl_rnd p - p) <= (u53 * Rabs p) * (u53 * Rabs p)) by (apply Rmult_le_compat; auto).
      assert (Rabs (dbl_rnd q - q) * Rabs (dbl_rnd q - q) <= (u53 * Rabs q) * (u53 * Rabs q)) by (apply Rmult_le_compat; auto). lra.
    + apply Rmult_le_compat_r; [apply cabs_pos|lra].
  - destruct x as [a b], y as [c d]. cbn [fst snd].
    pose proof (nl_mul _ _ cplx_norm (a, b) (c, d)) as NM. cbn [s_mul cplx_ops fst snd] in NM. rewrite NM.
    set (M := cabs (a, b) * cabs (c, d)). assert (M0 : 0 <= M) by (apply Rmult_le_pos; apply cabs_pos).
    assert (S2 : sqrt 2 <= 142 / 100).
    { apply Rsqr_incr_0_var; [|lra]. unfold Rsqr. rewrite sqrt_sqrt by lra. lra. }
    apply Rle_trans with (sqrt 2 * ((2 * u53 + u53 * u53) * M)).
    + apply cabs_comp; cbn [fst snd].
      * pose proof (dot_err (a * c) (- (b * d)) M) as Q. rewrite Rabs_Ropp, dbl_rnd_opp in Q. specialize (Q (cabs_dot a b c d)).
        replace (dbl_rnd (a * c) - dbl_rnd (b * d)) with (dbl_rnd (a * c) + - dbl_rnd (b * d)) by ring.
        replace (a * c - b * d) with (a * c + - (b * d)) by ring. exact Q.
      * apply dot_err. pose proof (cabs_dot a b d c) as Q.
        assert (E : cabs (d, c) = cabs (c, d)) by (unfold cabs; cbn; f_equal; ring). rewrite E in Q. exact Q.
    + assert (K : sqrt 2 * (2 * u53 + u53 * u53) <= 3 * u53) by (pose proof (sqrt_pos 2); nra).
      rewrite <- Rmult_assoc. apply Rmult_le_compat_r; auto.
  - unfold cdbl_sq, cplx_sq. cbn [fst snd]. rewrite Rminus_0_r, !cabs_real. eapply Rle_trans; [apply sqrt_err|].
    apply Rmult_le_compat_r; [apply Rabs_pos|]. cbn [pow]. nra.
  - unfold cdbl_half, cplx_half. cbn [fst snd]. rewrite Rminus_0_r, !cabs_real. eapply Rle_trans; [apply rnd_err|].
    apply Rmult_le_compat_r; [apply Rabs_pos|]. lra.
  - assert (Z : s_is_zero dbl_ops 0 = true) by exact (ro_zero _ _ _ _ _ _ _ _ _ dbl_rounds). now rewrite Z.
  - apply andb_true_iff in H. destruct H as [H1 H2].
    apply cabs_comp; now apply (ro_tol _ _ _ _ _ _ _ _ _ dbl_rounds).
Qed.
