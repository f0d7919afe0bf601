(** * C75: the error of a linear operator in floating point arithmetic *)
From Coq Require Import Reals NArith ZArith List Bool Sorted Permutation Lia Lra Psatz.
From Flocq Require Import Core.
From Verif Require Import BitsModel BitsSpec ExprModel ExprSpec ExprOrder ExprMap ExprEval HSModel HSSpec HSEnum HSProofs HSMain PropHS
  LOpModel LOpSpec LOpSite LOpApply LOpMatrix LOpMain LOpReal RoundModel RoundSpec RoundProofs RoundInst.
Import ListNotations.
Close Scope N_scope.
Close Scope nat_scope.
Local Open Scope R_scope.

Section Main.
Context {S : Type} (so fo : scalar_ops S) (sq sqf : N -> S) (half halff : Z -> S) (nrm : S -> R) (u tol : R).
Lemma run_error I (io : index_ops I) V (sv : sv_ops V S) ok amp size skipped drop (h : hspace I) e Lp bas v :
  lop_laws so sq half -> norm_laws so nrm -> rounds so fo sq sqf half halff nrm u tol ->
  sv_rounds so sv ok amp size nrm u skipped drop -> 0 <= drop ->
  index_order io -> hs_fresh io h -> Forall int_mult (spaces h) -> canonical_expr io so e -> make_loperator io e h = LOk Lp ->
  basis_of (spaces h) bas -> state_of so ok amp size (spaces h) v ->
  (exists w, lop_run fo sqf halff sv Lp v w) /\
  (forall w, lop_run fo sqf halff sv Lp v w -> ok w /\ size w = size v /\
     forall y, nrm (s_sub so (amp w y) (exact_amp io so sq half (spaces h) e bas (amp v) y)) <=
       error_bound io so sq half nrm u skipped drop (spaces h) e bas (amp v) y).
Proof.
  intros LL NL RO SV D0 Hio Fr IM [_ C] E HB [Ov [Sz Hv]]. pose proof (reachable_inv io Hio h (fresh_reachable io h Fr)) as Hi. pose proof (fresh_algs io Hio h Fr) as HA.
  pose proof (ll_ring _ _ _ LL) as L. pose proof (half_0 so sq half LL) as H0.
  assert (Cm : forall m c, In (m, c) e -> canonical_mono io m) by (intros m c i; exact (proj1 (C m c i))).
  pose proof (fun ent => apply_error so fo sq sqf half halff nrm u tol L (ll_comm _ _ _ LL) NL RO io Hio H0 sv ok amp size skipped drop SV D0
    h e Lp bas v ent v Hi HA IM Cm E HB Ov Ov Sz Hv) as Q.
  split.
  - destruct (svr_visits _ _ _ _ _ _ _ _ _ SV v) as [ent Ee]. destruct (Q ent Ee) as [w [Ew _]]. exists w, ent. auto.
  - intros w [ent [Ee Ew]]. destruct (Q ent Ee) as [w' [Ew' [Ow [Sw Aw]]]]. unfold lop_apply in Ew. rewrite Ew in Ew'. inversion Ew'; subst w'.
    split; auto.
Qed.
End Main.

(** double, std::vector<double>: amplitudes below 100 epsilon are not propagated *)
Theorem C75_dense : forall I (io : index_ops I) (h : hspace I) e Lp bas (v : list R),
  index_order io -> hs_fresh io h -> Forall int_mult (spaces h) ->
  canonical_expr io real_ops e -> make_loperator io e h = LOk Lp -> basis_of (spaces h) bas ->
  state_of real_ops (fun _ => True) (dense_amp real_ops) dense_size (spaces h) v ->
  (exists w, lop_run dbl_ops dbl_sq dbl_half (dense_sv dbl_ops) Lp v w) /\
  (forall w, lop_run dbl_ops dbl_sq dbl_half (dense_sv dbl_ops) Lp v w -> length w = length v /\
   forall y, Rabs (dense_amp real_ops w y - exact_amp io real_ops real_sq real_half (spaces h) e bas (dense_amp real_ops v) y) <=
     error_bound io real_ops real_sq real_half Rabs (/ 2 ^ 53) tiny 0 (spaces h) e bas (dense_amp real_ops v) y).
Proof.
  intros I io h e Lp bas v Hio Fr IM C E HB Vv.
  destruct (run_error real_ops dbl_ops real_sq dbl_sq real_half dbl_half Rabs u53 dbl_tol I io _ (dense_sv dbl_ops) (fun _ => True) (dense_amp real_ops) dense_size
    (s_is_zero dbl_ops) 0 h e Lp bas v real_lop real_norm dbl_rounds (dense_rounds _ _ _ _ _ _ _ _ _ dbl_rounds) (Rle_refl 0) Hio Fr IM C E HB Vv) as [Q1 Q2].
  split; auto. intros w R. destruct (Q2 w R) as [_ [Sw Aw]]. split; [apply Nat2N.inj; exact Sw|exact Aw].
Qed.
Print Assumptions C75_dense.

(** double, sparse_state_vector<double>: amplitudes of the result are dropped
    when they fall below 100 epsilon *)
Theorem C75_sparse : forall I (io : index_ops I) (h : hspace I) e Lp bas v,
  index_order io -> hs_fresh io h -> Forall int_mult (spaces h) ->
  canonical_expr io real_ops e -> make_loperator io e h = LOk Lp -> basis_of (spaces h) bas ->
  state_of real_ops (sparse_fl_ok real_ops) (sparse_amp real_ops) sp_size (spaces h) v ->
  (exists w, lop_run dbl_ops dbl_sq dbl_half (sparse_sv dbl_ops) Lp v w) /\
  (forall w, lop_run dbl_ops dbl_sq dbl_half (sparse_sv dbl_ops) Lp v w -> sparse_fl_ok real_ops w /\ sp_size w = sp_size v /\
   forall y, Rabs (sparse_amp real_ops w y - exact_amp io real_ops real_sq real_half (spaces h) e bas (sparse_amp real_ops v) y) <=
     error_bound io real_ops real_sq real_half Rabs (/ 2 ^ 53) (fun _ => false) (100 / 2 ^ 52) (spaces h) e bas (sparse_amp real_ops v) y).
Proof.
  intros I io h e Lp bas v Hio Fr IM C E HB Vv. pose proof tol_pos as T. pose proof (ll_ring _ _ _ real_lop) as L.
  exact (run_error real_ops dbl_ops real_sq dbl_sq real_half dbl_half Rabs u53 dbl_tol I io _ (sparse_sv dbl_ops) (sparse_fl_ok real_ops) (sparse_amp real_ops) sp_size
    (fun _ => false) dbl_tol h e Lp bas v real_lop real_norm dbl_rounds (sparse_rounds _ _ _ _ _ _ _ _ _ L real_norm dbl_rounds (Rlt_le _ _ T)) (Rlt_le _ _ T) Hio Fr IM C E HB Vv).
Qed.
Print Assumptions C75_sparse.

(** std::complex<double> *)
Theorem C75_dense_complex : forall I (io : index_ops I) (h : hspace I) e Lp bas (v : list (R * R)),
  index_order io -> hs_fresh io h -> Forall int_mult (spaces h) ->
  canonical_expr io cplx_ops e -> make_loperator io e h = LOk Lp -> basis_of (spaces h) bas ->
  state_of cplx_ops (fun _ => True) (dense_amp cplx_ops) dense_size (spaces h) v ->
  (exists w, lop_run cdbl_ops cdbl_sq cdbl_half (dense_sv cdbl_ops) Lp v w) /\
  (forall w, lop_run cdbl_ops cdbl_sq cdbl_half (dense_sv cdbl_ops) Lp v w -> length w = length v /\
   forall y, cabs (s_sub cplx_ops (dense_amp cplx_ops w y) (exact_amp io cplx_ops cplx_sq cplx_half (spaces h) e bas (dense_amp cplx_ops v) y)) <=
     error_bound io cplx_ops cplx_sq cplx_half cabs (3 * / 2 ^ 53) (fun x => tiny (fst x) && tiny (snd x)) 0 (spaces h) e bas (dense_amp cplx_ops v) y).
Proof.
  intros I io h e Lp bas v Hio Fr IM C E HB Vv.
  destruct (run_error cplx_ops cdbl_ops cplx_sq cdbl_sq cplx_half cdbl_half cabs uc (sqrt 2 * dbl_tol) I io _ (dense_sv cdbl_ops) (fun _ => True) (dense_amp cplx_ops) dense_size
    (s_is_zero cdbl_ops) 0 h e Lp bas v cplx_lop cplx_norm cdbl_rounds (dense_rounds _ _ _ _ _ _ _ _ _ cdbl_rounds) (Rle_refl 0) Hio Fr IM C E HB Vv) as [Q1 Q2].
  split; auto. intros w R. destruct (Q2 w R) as [_ [Sw Aw]]. split; [apply Nat2N.inj; exact Sw|exact Aw].
Qed.
Print Assumptions C75_dense_complex.
Theorem C75_sparse_complex : forall I (io : index_ops I) (h : hspace I) e Lp bas v,
  index_order io -> hs_fresh io h -> Forall int_mult (spaces h) ->
  canonical_expr io cplx_ops e -> make_loperator io e h = LOk Lp -> basis_of (spaces h) bas ->
  state_of cplx_ops (sparse_fl_ok cplx_ops) (sparse_amp cplx_ops) sp_size (spaces h) v ->
  (exists w, lop_run cdbl_ops cdbl_sq cdbl_half (sparse_sv cdbl_ops) Lp v w) /\
  (forall w, lop_run cdbl_ops cdbl_sq cdbl_half (sparse_sv cdbl_ops) Lp v w -> sparse_fl_ok cplx_ops w /\ sp_size w = sp_size v /\
   forall y, cabs (s_sub cplx_ops (sparse_amp cplx_ops w y) (exact_amp io cplx_ops cplx_sq cplx_half (spaces h) e bas (sparse_amp cplx_ops v) y)) <=
     error_bound io cplx_ops cplx_sq cplx_half cabs (3 * / 2 ^ 53) (fun _ => false) (sqrt 2 * (100 / 2 ^ 52)) (spaces h) e bas (sparse_amp cplx_ops v) y).
Proof.
  intros I io h e Lp bas v Hio Fr IM C E HB Vv. pose proof tol_pos as T. pose proof (ll_ring _ _ _ cplx_lop) as L.
  assert (T2 : 0 <= sqrt 2 * dbl_tol) by (apply Rmult_le_pos; [apply sqrt_pos|lra]).
  exact (run_error cplx_ops cdbl_ops cplx_sq cdbl_sq cplx_half cdbl_half cabs uc (sqrt 2 * dbl_tol) I io _ (sparse_sv cdbl_ops) (sparse_fl_ok cplx_ops) (sparse_amp cplx_ops) sp_size
    (fun _ => false) (sqrt 2 * dbl_tol) h e Lp bas v cplx_lop cplx_norm cdbl_rounds (sparse_rounds _ _ _ _ _ _ _ _ _ L cplx_norm cdbl_rounds T2) T2 Hio Fr IM C E HB Vv).
Qed.
Print Assumptions C75_sparse_complex.

(** the usual form of the factor: n u / (1 - n u) *)
Theorem C75_gamma : forall u n, 0 <= u -> INR n * u < 1 -> (1 + u) ^ n - 1 <= INR n * u / (1 - INR n * u).
Proof.
  intros u n U0 H.
  assert (K : forall k, (1 + u) ^ k * (1 - INR k * u) <= 1).
  { induction k as [|k IH]; [cbn; lra|]. rewrite S_INR. cbn [pow].
    assert (P : 0 < (1 + u) ^ k) by (apply pow_lt; lra). pose proof (pos_INR k).
    assert (Q : (1 + u) * (1 - (INR k + 1) * u) <= 1 - INR k * u) by nra.
    apply Rle_trans with ((1 + u) ^ k * (1 - INR k * u)); [|exact IH].
    replace ((1 + u) * (1 + u) ^ k * (1 - (INR k + 1) * u)) with ((1 + u) ^ k * ((1 + u) * (1 - (INR k + 1) * u))) by ring.
    apply Rmult_le_compat_l; [lra|exact Q]. }
  specialize (K n). assert (D : 0 < 1 - INR n * u) by lra.
  apply Rmult_le_reg_r with (1 - INR n * u); auto. unfold Rdiv. rewrite Rmult_assoc, Rinv_l by lra. lra.
Qed.
Print Assumptions C75_gamma.

(** ** The bound refers to the sum of the absolute values of the contributions.
    A bound relative to the result itself does not hold: 2^54 + n_0 - 2^54 n_1
    applied to |11> gives the amplitude 0 instead of 1. *)
Definition hs_r : hspace Z := Eval vm_compute in fst (hs_of_args ioZ [ESFermion 0%Z; ESFermion 1%Z]).
Definition num (i : Z) : list (gen Z) := [GFermion true i; GFermion false i].
Definition e_r {C} (a b c : C) : list (list (gen Z) * C) := [([], a); (num 0, b); (num 1, c)].
Definition L_r {C} (a b c : C) : lop C := Eval vm_compute in match make_loperator ioZ (e_r a b c) hs_r with LOk l => l | _ => [] end.
Lemma L_r_make {C} (a b c : C) : make_loperator ioZ (e_r a b c) hs_r = LOk (L_r a b c).
Proof. vm_compute. reflexivity. Qed.
Lemma L_r_act {S} (so : scalar_ops S) sq half (a b c x z : S) :
  act_entries so sq half (dense_sv so) (L_r a b c) [(3%N, x)] [z; z; z; z] =
  Some [z; z; z; s_add so (s_add so (s_add so z (s_mul so (s_mul so a (s_one so)) x)) (s_mul so (s_mul so b (s_one so)) x))
                         (s_mul so (s_mul so c (s_one so)) x)].
Proof. vm_compute. reflexivity. Qed.
Lemma L_r_mel {S} (so : scalar_ops S) sq half (a b c : S) (L : scalar_laws so) :
  mel ioZ so sq half (spaces hs_r) (e_r a b c) 3%N 3%N = s_add so a (s_add so b c) /\
  (forall y, In y [0; 1; 2]%N -> mel ioZ so sq half (spaces hs_r) (e_r a b c) 3%N y = s_zero so).
Proof.
  assert (NN : s_mul so (s_neg so (s_one so)) (s_neg so (s_one so)) = s_one so).
  { rewrite (s_mul_neg_l so L), (s_mul_neg_r so L), (s_neg_neg so L). apply (sl_mul_1_l so L). }
  assert (A0 : forall x, s_add so x (s_zero so) = x) by apply (sadd_0_r so L).
  split.
  - transitivity (s_add so (s_mul so a (s_one so)) (s_add so (s_mul so b (s_mul so (s_mul so (s_one so) (s_one so)) (s_one so)))
      (s_add so (s_mul so c (s_mul so (s_mul so (s_one so) (s_neg so (s_one so))) (s_neg so (s_one so)))) (s_zero so)))).
    + vm_compute. reflexivity.
    + rewrite !(sl_mul_1_l so L), NN, !(sl_mul_1_r so L), A0. reflexivity.
  - intros y H. transitivity (s_add so (s_mul so a (s_zero so)) (s_add so (s_mul so b (s_zero so)) (s_add so (s_mul so c (s_zero so)) (s_zero so)))).
    + destruct H as [<-|[<-|[<-|[]]]]; vm_compute; reflexivity.
    + rewrite !(ExprMap.s_mul_0_r so L), !A0. reflexivity.
Qed.

Lemma rnd_pow k : dbl_rnd (bpow radix2 k) = bpow radix2 k.
Proof. unfold dbl_rnd. apply round_generic; [apply valid_rnd_N|]. apply generic_format_bpow. unfold FLX_exp. lia. Qed.
Lemma rnd_0 : dbl_rnd 0 = 0.
Proof. unfold dbl_rnd. apply round_0. apply valid_rnd_N. Qed.
Lemma rnd_1 : dbl_rnd 1 = 1.
Proof. exact (rnd_pow 0). Qed.
Definition big : R := bpow radix2 54.
Lemma big_pos : 1 <= big.
Proof. change 1 with (bpow radix2 0). apply bpow_le. lia. Qed.
Lemma big_IZR : big = IZR (2 ^ 54).
Proof. unfold big. symmetry. apply (IZR_Zpower radix2 54). lia. Qed.
Lemma rnd_big1 : dbl_rnd (big + 1) = big.
Proof.
  unfold dbl_rnd, round. assert (M : mag radix2 (big + 1) = 55%Z :> Z).
  { apply mag_unique_pos. pose proof big_pos. split; [change (big <= big + 1); lra|]. change (bpow radix2 55) with (bpow radix2 (1 + 54)). rewrite bpow_plus. fold big. change (bpow radix2 1) with 2. 
    assert (1 < big); [|lra]. change 1 with (bpow radix2 0). apply bpow_lt. lia. }
  unfold cexp, scaled_mantissa, cexp. rewrite M. change (FLX_exp 53 55) with 2%Z.
  assert (N : ZnearestE ((big + 1) * bpow radix2 (- (2))) = (2 ^ 52)%Z).
  { apply Znearest_imp. rewrite big_IZR. change (bpow radix2 (- (2))) with (/ 4).
    replace ((IZR (2 ^ 54) + 1) * / 4 - IZR (2 ^ 52)) with (/ 4).
    - rewrite Rabs_pos_eq; lra.
    - replace (2 ^ 54)%Z with (4 * 2 ^ 52)%Z by reflexivity. rewrite mult_IZR. field. }
  rewrite N. unfold F2R. cbn [Fnum Fexp]. rewrite big_IZR. change (bpow radix2 2) with 4. rewrite <- mult_IZR. reflexivity.
Qed.
Lemma rnd_opp x : dbl_rnd (- x) = - dbl_rnd x.
Proof. apply dbl_rnd_opp. Qed.

Example hs_r_fresh : hs_fresh ioZ hs_r.
Proof. apply hf_vector with (l := [ESFermion 0%Z; ESFermion 1%Z]); [repeat constructor; cbn; lia|vm_compute; reflexivity]. Qed.
Lemma num_canonical i : canonical_mono ioZ (num i).
Proof.
  split; [|split].
  - unfold num. repeat constructor; right; constructor.
  - intros [|a1 [|a2 a5]] ga gb post0 E C; cbn in E; inversion E; subst; try (inversion C; fail). destruct a5; discriminate.
  - intros (p & q & mu & c & j & n & _ & _ & h2 & E). unfold num in E.
    destruct n as [|[|n]]; [lia|lia|]. cbn [repeat app] in E.
    destruct p as [|a1 [|a2 a5]]; cbn in E; inversion E; subst; try (destruct a5; discriminate).
Qed.
Lemma e_r_canonical a b c : a <> 0 -> b <> 0 -> c <> 0 -> canonical_expr ioZ real_ops (e_r a b c).
Proof.
  intros Ha Hb Hc. split.
  - change (map fst (e_r a b c)) with [[]; num 0; num 1].
    assert (B01 : mono_before ioZ (num 0) (num 1)) by (right; split; [reflexivity|apply lb_here; constructor; reflexivity]).
    assert (B0 : forall i, mono_before ioZ [] (num i)) by (intros i; left; cbn; lia).
    constructor; [constructor; [constructor; [constructor|constructor]|constructor; [exact B01|constructor]]|constructor; [apply B0|constructor; [apply B0|constructor]]].
  - intros m x i. cbn [e_r In] in i. destruct i as [E|[E|[E|[]]]]; inversion E; subst; split; auto; try apply num_canonical.
    split; [constructor|split].
    + intros [|? ?] ? ? ? E0 ?; cbn in E0; discriminate.
    + intros (p & q & mu & cc & j & n & _ & _ & h2 & E0). destruct n as [|[|n]]; [lia|lia|]. destruct p; discriminate.
Qed.
Lemma hs_r_valid x : (x < 4)%N -> valid_state (spaces hs_r) x.
Proof.
  intros Hx. split; [exact Hx|].
  intros [|[|k]] e E; vm_compute in E; try (destruct k; discriminate); inversion E; subst; cbn [es_nbits es_dim];
    apply (N.lt_le_trans _ _ _ (bit_field_lt _ _ 1)); vm_compute; discriminate.
Qed.
Definition v_r : list R := [0; 0; 0; 1].
Example v_r_state : state_of real_ops (fun _ => True) (dense_amp real_ops) dense_size (spaces hs_r) v_r.
Proof.
  split; auto. split; [vm_compute; discriminate|]. intros x nz. unfold dense_amp in nz.
  assert (E : x = 3%N).
  { destruct (N.to_nat x) as [|[|[|[|k]]]] eqn:Ex; cbn in nz; try (exfalso; apply nz; reflexivity).
    - apply N2Nat.inj. exact Ex.
    - exfalso. apply nz. destruct k; reflexivity. }
  subst x. now apply hs_r_valid.
Qed.
Lemma v_r_entries : dense_entries_from dbl_ops v_r 0 = [(3%N, 1)].
Proof.
  pose proof tol_pos as T. assert (Z : s_is_zero dbl_ops 0 = true) by exact (ro_zero _ _ _ _ _ _ _ _ _ dbl_rounds).
  assert (O : s_is_zero dbl_ops 1 = false).
  { cbn. rewrite Rabs_R1. destruct (Rlt_dec 1 dbl_tol) as [H|]; auto. exfalso.
    assert (dbl_tol <= 1); [|lra]. unfold dbl_tol. apply Rmult_le_reg_r with (2 ^ 52); [apply pow_lt; lra|]. rewrite Rmult_assoc, Rinv_l by (apply pow_nonzero; lra).
    replace (2 ^ 52) with (2 ^ 7 * 2 ^ 45) by (rewrite <- pow_add; reflexivity). assert (H1 : 1 <= 2 ^ 45) by (apply pow_R1_Rle; lra).
    assert (H2 : 2 ^ 7 = 128) by ring. rewrite H2. revert H1. generalize (2 ^ 45). intros; lra. }
  unfold v_r. cbn [dense_entries_from]. rewrite Z, O. reflexivity.
Qed.
Lemma hs_r_basis : basis_of (spaces hs_r) [0; 1; 2; 3]%N.
Proof.
  split; [repeat constructor; cbn; intuition discriminate|]. intros x. split.
  - intros H. apply hs_r_valid. destruct H as [<-|[<-|[<-|[<-|[]]]]]; reflexivity.
  - intros [Hx _]. change (x < 4)%N in Hx. cbn. lia.
Qed.
Theorem C75_relative_refuted : exists (h : hspace Z) e Lp bas v w y,
  index_order ioZ /\ hs_fresh ioZ h /\ Forall int_mult (spaces h) /\
  canonical_expr ioZ real_ops e /\ make_loperator ioZ e h = LOk Lp /\ basis_of (spaces h) bas /\
  state_of real_ops (fun _ => True) (dense_amp real_ops) dense_size (spaces h) v /\
  lop_run dbl_ops dbl_sq dbl_half (dense_sv dbl_ops) Lp v w /\
  exact_amp ioZ real_ops real_sq real_half (spaces h) e bas (dense_amp real_ops v) y = 1 /\ dense_amp real_ops w y = 0.
Proof.
  exists hs_r, (e_r big 1 (- big)), (L_r big 1 (- big)), [0; 1; 2; 3]%N, v_r, [0; 0; 0; 0], 3%N.
  pose proof big_pos as B. pose proof (ll_ring _ _ _ real_lop) as L.
  split; [exact sto_Z|]. split; [exact hs_r_fresh|]. split; [repeat constructor; cbn; lia|].
  split; [apply e_r_canonical; lra|]. split; [apply L_r_make|]. split; [exact hs_r_basis|]. split; [exact v_r_state|].
  split; [|split].
  - exists [(3%N, 1)]. split; [symmetry; exact v_r_entries|]. unfold lop_apply. change (sv_zero (dense_sv dbl_ops) v_r) with [0; 0; 0; 0].
    rewrite L_r_act. cbn [s_add s_mul s_one dbl_ops].
    assert (Rb : dbl_rnd big = big) by apply rnd_pow.
    repeat (rewrite ?Rmult_1_r, ?rnd_opp, ?rnd_1, ?Rb, ?Rplus_0_l). rewrite rnd_big1, Rplus_opp_r, rnd_0. reflexivity.
  - unfold exact_amp. destruct (L_r_mel real_ops real_sq real_half big 1 (- big) L) as [M1 M2]. cbn [ssum].
    rewrite (M2 0%N), (M2 1%N), (M2 2%N), M1 by (cbn; tauto). cbn [s_add s_mul s_zero real_ops dense_amp]. unfold dense_amp. cbn [N.to_nat nth v_r].
    change (Pos.to_nat 3) with 3%nat. change (Pos.to_nat 2) with 2%nat. change (Pos.to_nat 1) with 1%nat. cbn [nth v_r]. ring.
  - reflexivity.
Qed.
Print Assumptions C75_relative_refuted.

(** The hypotheses of the theorems hold in this case, and the bound is not trivial:
    (1 + 2^-53)^11 - 1 times 2^55 + 1. *)
Example C75_dense_ex : exists w, lop_run dbl_ops dbl_sq dbl_half (dense_sv dbl_ops) (L_r big 1 (- big)) v_r w /\
  Rabs (dense_amp real_ops w 3 - 1) <= ((1 + / 2 ^ 53) ^ 11 - 1) * (big + 1 + big).
Proof.
  pose proof big_pos as B. pose proof (ll_ring _ _ _ real_lop) as L.
  assert (CE : canonical_expr ioZ real_ops (e_r big 1 (- big))) by (apply e_r_canonical; lra).
  assert (IM : Forall int_mult (spaces hs_r)) by (repeat constructor; cbn; lia).
  destruct (C75_dense Z ioZ hs_r _ _ [0; 1; 2; 3]%N v_r sto_Z hs_r_fresh IM CE (L_r_make big 1 (- big)) hs_r_basis v_r_state) as [[w Rw] Q].
  exists w. split; auto. destruct (Q w Rw) as [_ A]. specialize (A 3%N).
  destruct (L_r_mel real_ops real_sq real_half big 1 (- big) L) as [M1 M2].
  assert (MA : forall y, In y [0; 1; 2]%N -> dense_amp real_ops v_r y = 0) by (intros y [<-|[<-|[<-|[]]]]; reflexivity).
  assert (V3 : dense_amp real_ops v_r 3 = 1) by reflexivity.
  unfold exact_amp, error_bound in A. cbn [ssum rsum] in A.
  rewrite (M2 0%N), (M2 1%N), (M2 2%N), M1, (MA 0%N), (MA 1%N), (MA 2%N), V3 in A by (cbn; tauto).
  cbn [s_add s_mul s_zero real_ops] in A. rewrite Rabs_R0, Rabs_R1 in A.
  assert (N3 : mel_abs ioZ real_ops real_sq real_half Rabs (spaces hs_r) (e_r big 1 (- big)) 3 3 = big + 1 + big).
  { transitivity (Rabs big * Rabs 1 + (Rabs 1 * Rabs (1 * 1 * 1) + (Rabs (- big) * Rabs (1 * - (1) * - (1)) + 0))).
    - reflexivity.
    - replace (1 * - (1) * - (1)) with 1 by ring. replace (1 * 1 * 1) with 1 by ring. rewrite Rabs_R1, Rabs_Ropp, Rabs_pos_eq by lra. ring. }
  rewrite N3 in A. change (Nat.add (Nat.add (Nat.mul 3 (degree (e_r big 1 (- big)))) 2) (length (e_r big 1 (- big)))) with 11%nat in A.
  assert (T1 : tiny 1 = false).
  { pose proof v_r_entries as Ve. unfold v_r in Ve. cbn [dense_entries_from] in Ve.
    assert (Z : s_is_zero dbl_ops 0 = true) by exact (ro_zero _ _ _ _ _ _ _ _ _ dbl_rounds). rewrite Z in Ve.
    change (tiny 1) with (s_is_zero dbl_ops 1). destruct (s_is_zero dbl_ops 1); [discriminate|reflexivity]. }
  rewrite T1 in A. set (E := (1 + / 2 ^ 53) ^ 11 - 1) in *.
  replace (0 * 0 + (0 * 0 + (0 * 0 + ((big + (1 + - big)) * 1 + 0)))) with 1 in A by ring.
  eapply Rle_trans; [exact A|]. rewrite !Rmult_0_r. destruct (tiny 0); rewrite ?Rmult_0_l; lra.
Qed.
(** ... also for sparse and for complex vectors *)
Example C75_sparse_ex :
  state_of real_ops (sparse_fl_ok real_ops) (sparse_amp real_ops) sp_size (spaces hs_r) (mk_sparse 4 [(3%N, 1)]) /\
  state_of cplx_ops (sparse_fl_ok cplx_ops) (sparse_amp cplx_ops) sp_size (spaces hs_r) (mk_sparse 4 [(3%N, (0, 1))]) /\
  state_of cplx_ops (fun _ => True) (dense_amp cplx_ops) dense_size (spaces hs_r) [(0, 0); (0, 0); (0, 0); (0, 1)].
Proof.
  assert (V3 : valid_state (spaces hs_r) 3) by now apply hs_r_valid.
  assert (SP : forall S (so : scalar_ops S) (a : S), a <> s_zero so ->
    state_of so (sparse_fl_ok so) (sparse_amp so) sp_size (spaces hs_r) (mk_sparse 4 [(3%N, a)])).
  { intros S so a na. split; [|split].
    - split; [split|]; cbn [sp_data sp_size map fst].
      + constructor; [intros []|constructor].
      + constructor; [reflexivity|constructor].
      + constructor; [exact na|constructor].
    - vm_compute. discriminate.
    - intros x nz. unfold sparse_amp, dat_amp in nz. cbn [sp_data sp_find] in nz. destruct (N.eqb_spec x 3) as [E|]; [now subst x|]. exfalso. now apply nz. }
  split; [|split].
  - apply SP. cbn. lra.
  - apply SP. cbn. intros E. inversion E. lra.
  - split; auto. split; [vm_compute; discriminate|]. intros x nz. unfold dense_amp in nz.
    assert (E : x = 3%N).
    { destruct (N.to_nat x) as [|[|[|[|k]]]] eqn:Ex; cbn in nz; try (exfalso; apply nz; reflexivity).
      - apply N2Nat.inj. exact Ex.
      - exfalso. apply nz. destruct k; reflexivity. }
    now subst x.
Qed.
