(** * Property C94: the Jaynes-Cummings model of examples/jaynes_cummings.cpp.
    Vocabulary: JCSpec.v, PolySpec.drop_zeros, LOpSpec.v. *)
From Coq Require Import NArith ZArith List Bool Lia Sorted QArith Qcanon Reals Lra.
From Verif Require Import ExprModel ExprSpec ExprOrder ExprMap ExprEval ExprStd ExprThrow ExprMain ExprInst PropExpr
  ConvSpec FockSpec PropUnique BitsModel BitsSpec BitsProofs HSModel HSSpec HSEnum HSProofs HSMain PropHS LOpModel LOpSpec LOpFermion LOpSite LOpApply LOpMain LOpReal
  PropLOp2 PolySpec PolyExpr PropPoly PropCut PropParam JCModel JCSpec JCExpr JCAct.
Import ListNotations.
Close Scope Qc_scope.
Close Scope Q_scope.
Close Scope R_scope.
Close Scope string_scope.
Open Scope nat_scope.
Open Scope list_scope.

(** For all parameters nothing is thrown, H and N have the stated terms (those
    with the coefficient zero are not stored), and H * N - N * H is the empty
    expression: the program prints [H, N] = 0. *)
Theorem C94_conserved : forall I (io : index_ops I) T (so : scalar_ops T),
  index_order io -> scalar_domain so -> (forall p q, q <> 0%Z -> s_make so (VRat p q) <> None) ->
  forall hf hbar w_c w_a Omega (i j : I), exists H N,
  jc_hamiltonian io so hf hbar w_c w_a Omega i j = Ok H /\
  jc_number io so i j = Ok N /\
  jc_commutator io so H N = Ok [] /\
  (let g := s_mul so (s_mul so hbar hf) Omega in
   H = drop_zeros so [([GSpin 2 Zcomp j], s_mul so hbar w_a); ([GBoson true i; GBoson false i], s_mul so hbar w_c);
                      ([GBoson true i; GSpin 2 Minus j], g); ([GBoson false i; GSpin 2 Plus j], g)]) /\
  N = [([GSpin 2 Zcomp j], s_one so); ([GBoson true i; GBoson false i], s_one so)].
Proof.
  intros I io T so Hio D HF hf hb wc wa Om i j. pose proof (sd_laws _ D) as L.
  pose proof (gens_simple i j) as GS. pose proof (gens_half so D HF i j) as GH.
  destruct (jc_total io so D HF (h_prog so i j hf hb wc wa Om)) as [H EH].
  destruct (jc_total io so D HF (n_prog so i j)) as [N EN].
  destruct (jc_total io so D HF (PSub (PMul (h_prog so i j hf hb wc wa Om) (n_prog so i j)) (PMul (n_prog so i j) (h_prog so i j hf hb wc wa Om)))) as [K EK].
  assert (EH' : jc_hamiltonian io so hf hb wc wa Om i j = Ok H) by (rewrite (h_run io so D HF); exact EH).
  assert (EN' : jc_number io so i j = Ok N) by (rewrite (n_run io so D HF); exact EN).
  assert (Uh : incl (uses (h_prog so i j hf hb wc wa Om)) (jc_gens i j)) by (intros x hx; cbn in *; tauto).
  assert (Un : incl (uses (n_prog so i j)) (jc_gens i j)) by (intros x hx; cbn in *; tauto).
  assert (Bu : forall P e, incl (uses P) (jc_gens i j) -> run (std_gen_ops io) so P = Ok e ->
    canonical_expr io so e /\ forall m c, In (m, c) e -> Forall (on_sites (map site_of (jc_gens i j))) m).
  { intros P e U E. assert (Bt : built io so (jc_gens i j) e) by (now apply (run_built io so (jc_gens i j) P)). split.
    - apply (C03_canonical_form I io _ _ (jc_gens i j) _ Hio D (simple_consistent _ GS) Bt).
    - intros m c k. exact (built_on io Hio so D (jc_gens i j) GS _ Bt m c k). }
  assert (Uq : forall P e e2, incl (uses P) (jc_gens i j) -> run (std_gen_ops io) so P = Ok e -> canonical_expr io so e2 ->
    (forall m c, In (m, c) e2 -> Forall (on_sites (map site_of (jc_gens i j))) m) ->
    (forall R (ro : ring_ops R) inj rho, is_ring ro -> scalar_image so ro inj rho -> relations_on (on_sites (map site_of (jc_gens i j))) so ro inj rho ->
       req ro (meaning ro inj rho P) (eval_expr ro inj rho e2)) -> e = e2).
  { intros P e e2 U E C2 S2 V. destruct (Bu P e U E) as [C1 S1]. apply (canonical_unique io Hio so D (jc_gens i j)); auto.
    - intros m c k. apply in_app_iff in k. destruct k as [k|k]; [exact (S1 m c k)|exact (S2 m c k)].
    - intros R ro inj rho Hr SI RL. pose proof (ri_equiv _ Hr) as EQ.
      rewrite (run_value io Hio so D (jc_gens i j) GS ro inj rho Hr SI RL P e U E). now apply V. }
  assert (St : forall hf hb wc wa Om m c, In (m, c) (drop_zeros so (h_terms so i j hf hb wc wa Om)) -> Forall (on_sites (map site_of (jc_gens i j))) m).
  { clear -GS. intros hf hb wc wa Om m c k. unfold drop_zeros in k. apply filter_In in k. destruct k as [k _].
    assert (Q : incl m (jc_gens i j)).
    { unfold h_terms in k; cbn [In] in k. destruct k as [k|[k|[k|[k|[]]]]]; inversion k; subst; intros x hx; cbn in *; tauto. }
    apply Forall_forall. intros g hg. apply on_gens. now apply Q. }
  exists H, N. split; [exact EH'|]. split; [exact EN'|]. split; [|split].
  - rewrite (c_run io so D HF i j hf hb wc wa Om H N EH' EN'), EK. f_equal.
    refine (Uq _ K [] _ EK _ _ _).
    + intros x hx; cbn in *; tauto.
    + split; [constructor|intros ? ? []].
    + intros ? ? [].
    + intros R ro inj rho Hr SI RL. apply comm_value; auto.
  - intros g. apply (Uq _ H _ Uh EH (h_canonical io so D i j hf hb wc wa Om)); [apply St|].
    intros R ro inj rho Hr SI RL. pose proof (ri_equiv _ Hr) as EQ. rewrite (drop_value so L ro inj rho _ Hr SI). apply h_value; auto.
  - assert (T1 : drop_zeros so (h_terms so i j (s_one so) (s_one so) (s_one so) (s_one so) (s_zero so)) =
      [([GSpin 2 Zcomp j], s_one so); ([GBoson true i; GBoson false i], s_one so)]).
    { unfold drop_zeros, h_terms. cbn [filter snd]. rewrite !(sl_mul_1_r so L), (PolyProofs.mr0 so L).
      assert (one0 : s_one so <> s_zero so).
      { apply (sd_const so D (VInt 1)); [|reflexivity]. rewrite (sl_make_int so L). simpl. now rewrite (PolyProofs.ad0 so L). }
      destruct (s_is_zero so (s_one so)) eqn:Z; [apply (sl_is_zero so L) in Z; contradiction|].
      rewrite (proj2 (sl_is_zero so L _) eq_refl). reflexivity. }
    rewrite <- T1. apply (Uq _ N _ Un EN (h_canonical io so D i j _ _ _ _ _)); [apply St|].
    intros R ro inj rho Hr SI RL. pose proof (ri_equiv _ Hr) as EQ. pose proof (ri_mul_ext _ Hr) as MX. pose proof (ri_add_ext _ Hr) as AX.
    rewrite (drop_value so L ro inj rho _ Hr SI). cbn [n_prog meaning h_terms eval_expr eval_mono].
    rewrite !(sl_mul_1_r so L), (PolyProofs.mr0 so L), !(si_1 _ _ _ _ SI), (si_0 _ _ _ _ SI).
    exact (n_value ro Hr _ _ _ _ _).
Qed.
Print Assumptions C94_conserved.

(** The doublets: with the mixing angle of the program the two combinations of
    [[d, w], [w, -d]] are diagonal. *)
Section Trig.
Local Open Scope R_scope.
Lemma mixing (dl w : R) : dl <> 0 -> let al := atan (w / dl) in let r := sqrt (dl * dl + w * w) in
  dl = rsign dl * r * cos al /\ w = rsign dl * r * sin al.
Proof.
  intros n0 al r. pose proof (atan_bound (w / dl)) as [b1 b2]. fold al in b1, b2.
  assert (cp : 0 < cos al) by (apply cos_gt_0; lra).
  assert (T : w = dl * (sin al / cos al)) by (change (sin al / cos al) with (tan al); unfold al; rewrite tan_atan; field; exact n0).
  assert (R2 : r = rsign dl * dl / cos al).
  { unfold r. replace (dl * dl + w * w) with ((rsign dl * dl / cos al) * (rsign dl * dl / cos al)).
    - apply sqrt_square. unfold rsign. apply Rmult_le_pos; [|apply Rlt_le, Rinv_0_lt_compat, cp]. destruct (Rlt_dec 0 dl); lra.
    - pose proof (sin2_cos2 al) as P. unfold Rsqr in P. rewrite T.
      assert (SS : rsign dl * rsign dl = 1) by (unfold rsign; destruct (Rlt_dec 0 dl); ring).
      transitivity ((rsign dl * rsign dl) * (dl * dl) / (cos al * cos al)); [field; lra|]. rewrite SS.
      transitivity (dl * dl * (sin al * sin al + cos al * cos al) / (cos al * cos al)); [rewrite P; field; lra|field; lra]. }
  assert (SS : rsign dl * rsign dl = 1) by (unfold rsign; destruct (Rlt_dec 0 dl); ring).
  split.
  - rewrite R2. transitivity ((rsign dl * rsign dl) * dl); [rewrite SS; ring|field; lra].
  - rewrite R2, T at 1. transitivity ((rsign dl * rsign dl) * (dl * (sin al / cos al))); [rewrite SS; ring|field; lra].
Qed.
Lemma half_angles a : let b := a / 2 in cos a * cos b + sin a * sin b = cos b /\ sin a * cos b - cos a * sin b = sin b.
Proof.
  intros b. split.
  - rewrite <- cos_minus. f_equal. unfold b. field.
  - transitivity (sin (a - b)); [rewrite sin_minus; ring|]. f_equal. unfold b. field.
Qed.
End Trig.

(** In every Hilbert space with the boson i (d states) and the spin j, whatever
    else it contains, for every kind of state vector and all real parameters, the
    operator made of H
    - has the eigenvector |0, g> with the eigenvalue -hbar w_a / 2;
    - maps the plane of |n-1, e> and |n, g>, 1 <= n < d, into itself with the
      stated 2 x 2 matrix;
    - has, when w_a <> w_c, the two vectors of the program as eigenvectors.  The
      eigenvalues are the energies of the program when w_a > w_c; when
      w_a < w_c the two energies are exchanged. *)
Theorem C94_spectrum : forall I (io : index_ops I) V (sv : sv_ops V R) ok amp size (hs : hspace I) d (i j : I) hbar w_c w_a Omega,
  index_order io -> sv_strict real_ops sv ok amp size ->
  hs_fresh io hs -> Forall int_mult (spaces hs) ->
  In (ESBoson d i) (spaces hs) -> In (ESSpin 2 j) (spaces hs) ->
  let index := jc_index io hs (ESBoson d i) (ESSpin 2 j) in
  let state := state_of real_ops ok amp size (spaces hs) in
  exists H Lp, jc_hamiltonian io real_ops (1 / 2)%R hbar w_c w_a Omega i j = Ok H /\ make_loperator io H hs = LOk Lp /\
  (exists g, index 0%N 0%N = Some g /\
     forall v, state v -> (forall x, amp v x = one_state g x) ->
       applied sv amp Lp v (fun x => - hbar * w_a / 2 * amp v x)%R) /\
  (forall n, (1 <= n < d)%N -> exists x1 x2,
     index (n - 1)%N 1%N = Some x1 /\ index n 0%N = Some x2 /\ x1 <> x2 /\
     (forall v c1 c2, state v -> (forall x, amp v x = two x1 c1 x2 c2 x) ->
        applied sv amp Lp v (two
          x1 ((hbar * w_c * (IZR (Z.of_N n) - 1) + hbar * w_a / 2) * c1 + hbar * Omega / 2 * sqrt (IZR (Z.of_N n)) * c2)
          x2 (hbar * Omega / 2 * sqrt (IZR (Z.of_N n)) * c1 + (hbar * w_c * IZR (Z.of_N n) - hbar * w_a / 2) * c2))%R) /\
     (w_a <> w_c ->
        let al := jc_alpha w_c w_a Omega n in
        let E := fun pm => jc_energy hbar w_c w_a Omega pm n in
        forall v, state v ->
          ((forall x, amp v x = two x1 (cos (al / 2)%R) x2 (sin (al / 2)%R) x) ->
             applied sv amp Lp v (fun x => E (rsign (w_a - w_c)) * amp v x)%R) /\
          ((forall x, amp v x = two x1 (sin (al / 2)%R) x2 (- cos (al / 2))%R x) ->
             applied sv amp Lp v (fun x => E (- rsign (w_a - w_c)) * amp v x)%R))).
Proof.
  intros I io V sv ok amp size hs d i j hb wc wa Om Hio SS Fr IM Ib Is index state.
  pose proof (fresh_reachable io hs Fr) as Hr. pose proof (reachable_inv io Hio hs Hr) as Hi. pose proof (fresh_algs io Hio hs Fr) as HA.
  destruct (basis_exists io hs Hi) as [bas HB]. pose proof Hi as [S0 [W _]].
  destruct (In_nth_error _ _ Ib) as [kb Eb]. destruct (In_nth_error _ _ Is) as [ks Es].
  assert (HF : forall p q, q <> 0%Z -> s_make real_ops (VRat p q) <> None).
  { intros p q nq. cbn. destruct (Z.eqb_spec q 0); [contradiction|discriminate]. }
  destruct (C94_conserved I io R real_ops Hio real_domain HF (1 / 2)%R hb wc wa Om i j) as [H [N [EH [_ [_ [ET _]]]]]].
  change (H = drop_zeros real_ops (h_terms real_ops i j (1 / 2) hb wc wa Om)%R) in ET.
  pose proof (h_canonical io real_ops real_domain i j (1 / 2)%R hb wc wa Om) as Cn. rewrite <- ET in Cn.
  assert (Cm : canonical_monos io H) by (intros m c k; exact (proj1 (proj2 Cn m c k))).
  destruct (make_known io Hio hs Hi HA H) as [Lp EL]; [exact Cm| |].
  { intros m c k. rewrite ET in k. unfold drop_zeros in k. apply filter_In in k. destruct k as [k _]. apply Forall_forall. intros g hg.
    assert (Q : In g (jc_gens i j)).
    { unfold h_terms in k; cbn [In] in k. destruct k as [k|[k|[k|[k|[]]]]]; inversion k; subst; cbn in *; tauto. }
    unfold jc_gens in Q. cbn [In] in Q. destruct Q as [<-|[<-|[<-|[<-|[<-|[]]]]]].
    1,2: exists (ESBoson d i); split; [exact Ib|apply (cb io Hio)].
    1,2,3: exists (ESSpin 2 j); split; [exact Is|apply (cs io Hio)]. }
  exists H, Lp. split; [exact EH|]. split; [exact EL|].
  assert (AP : forall v, state v -> forall f, (forall y, ssum real_ops (fun x => (mel io real_ops real_sq real_half (spaces hs)
      (h_terms real_ops i j (1 / 2) hb wc wa Om) y x * amp v x)%R) bas = f y) -> applied sv amp Lp v f).
  { intros v Vv f F. split; [apply (svl_visits _ _ _ _ _ (svs_laws _ _ _ _ _ SS))|]. intros ent Ee.
    destruct (apply_vec io Hio real_ops real_sq real_half real_lop sv ok amp size SS hs Hi HA IM bas HB H Lp v v ent Cm EL Vv (proj1 Vv) (proj1 (proj2 Vv)) Ee)
      as [u [Eu [_ [_ Au]]]].
    exists u. split; [exact Eu|]. intros y. rewrite Au, <- F. apply ssum_ext. intros x _. cbn [s_mul real_ops]. f_equal.
    rewrite ET. apply (mel_drop io real_ops real_domain). }
  set (st := st hs kb ks d i) in *.
  assert (d0 : (0 < d)%N) by (rewrite Forall_forall in W; exact (wf_dim _ (W _ Ib))).
  assert (IX : forall n s, (n < d)%N -> (s < 2)%N -> index n s = Some (st n s)).
  { intros n s hn h2. exact (index_st io Hio hs Hr kb ks d i j Eb Es n s hn h2). }
  assert (VS : forall n s, (n < d)%N -> (s < 2)%N -> In (st n s) bas).
  { intros n s hn h2. apply HB. exact (st_valid io Hio hs Hr kb ks d i j Eb Es n s hn h2). }
  split.
  - exists (st 0%N 0%N). split; [apply IX; lia|]. intros v Vv Av. apply AP; [exact Vv|]. intros y.
    rewrite (ssum_single real_ops real_laws bas (st 0%N 0%N)).
    2: exact (proj1 HB). 2: apply VS; lia.
    2: { intros x _ nx. rewrite Av. unfold one_state. destruct (N.eqb_spec x (st 0%N 0%N)); [contradiction|]. cbn. apply Rmult_0_r. }
    unfold st. rewrite (mel_g io Hio hs Hr kb ks d i j Eb Es hb wc wa Om 0%N y d0). fold st. rewrite !Av. unfold one_state, delta_.
    rewrite (N.eqb_refl (st 0%N 0%N)), (N.eqb_sym (st 0%N 0%N) y). change (N.eqb 0 0) with true. change (IZR (Z.of_N 0)) with 0%R. cbv iota. cbn [s_mul real_ops]. destruct (N.eqb y (st 0%N 0%N)); field.
  - intros n [n1 nd]. exists (st (n - 1)%N 1%N), (st n 0%N). split; [apply IX; lia|]. split; [apply IX; lia|].
    assert (ne : st (n - 1)%N 1%N <> st n 0%N).
    { intros E. apply (st_inj io Hio hs Hr kb ks d i j Eb Es) in E; lia. }
    split; [exact ne|].
    assert (BL : forall v c1 c2, state v -> (forall x, amp v x = two (st (n - 1)%N 1%N) c1 (st n 0%N) c2 x) ->
        applied sv amp Lp v (two
          (st (n - 1)%N 1%N) ((hb * wc * (IZR (Z.of_N n) - 1) + hb * wa / 2) * c1 + hb * Om / 2 * sqrt (IZR (Z.of_N n)) * c2)
          (st n 0%N) (hb * Om / 2 * sqrt (IZR (Z.of_N n)) * c1 + (hb * wc * IZR (Z.of_N n) - hb * wa / 2) * c2))%R).
    { intros v c1 c2 Vv Av. apply AP; [exact Vv|]. intros y.
      rewrite (ssum_part real_ops real_laws _ [st (n - 1)%N 1%N; st n 0%N]).
      2: { constructor; [intros [k|[]]; congruence|]. constructor; [intros []|constructor]. }
      2: exact (proj1 HB).
      2: { intros x [<-|[<-|[]]]; apply VS; lia. }
      2: { intros x _ nx. rewrite Av. unfold two. destruct (N.eqb_spec x (st (n - 1)%N 1%N)) as [->|_]; [exfalso; apply nx; now left|].
           destruct (N.eqb_spec x (st n 0%N)) as [->|_]; [exfalso; apply nx; right; now left|]. cbn. apply Rmult_0_r. }
      cbn [ssum s_add s_zero real_ops]. rewrite !Av.
      replace (two (st (n - 1)%N 1%N) c1 (st n 0%N) c2 (st (n - 1)%N 1%N)) with c1 by (unfold two; now rewrite N.eqb_refl).
      replace (two (st (n - 1)%N 1%N) c1 (st n 0%N) c2 (st n 0%N)) with c2.
      2: { unfold two. rewrite N.eqb_refl. destruct (N.eqb_spec (st n 0%N) (st (n - 1)%N 1%N)); [congruence|reflexivity]. }
      unfold st. rewrite (mel_e io Hio hs Hr kb ks d i j Eb Es hb wc wa Om (n - 1)%N y) by lia.
      rewrite (mel_g io Hio hs Hr kb ks d i j Eb Es hb wc wa Om n y) by lia. fold st.
      replace (n - 1 + 1)%N with n by lia. destruct (N.eqb_spec n 0); [lia|].
      replace (IZR (Z.of_N (n - 1))) with (IZR (Z.of_N n) - 1)%R by (rewrite N2Z.inj_sub by lia; now rewrite minus_IZR).
      change (real_sq n) with (sqrt (IZR (Z.of_N n))). unfold delta_, two.
      rewrite (N.eqb_sym (st (n - 1)%N 1%N) y), (N.eqb_sym (st n 0%N) y).
      destruct (N.eqb_spec y (st (n - 1)%N 1%N)) as [->|_].
      - destruct (N.eqb_spec (st (n - 1)%N 1%N) (st n 0%N)); [contradiction|]. field.
      - destruct (N.eqb y (st n 0%N)); field. }
    split; [exact BL|]. intros nw al E v Vv.
    assert (n0 : (0 <= IZR (Z.of_N n))%R) by (apply IZR_le; lia).
    assert (sq2 : (sqrt (IZR (Z.of_N n)) * sqrt (IZR (Z.of_N n)) = IZR (Z.of_N n))%R) by (now apply sqrt_sqrt).
    destruct (mixing (wa - wc) (Om * sqrt (IZR (Z.of_N n)))) as [M1 M2]; [lra|].
    fold (jc_alpha wc wa Om n) in M1, M2. fold al in M1, M2.
    replace ((wa - wc) * (wa - wc) + Om * sqrt (IZR (Z.of_N n)) * (Om * sqrt (IZR (Z.of_N n))))%R
      with ((wa - wc) * (wa - wc) + IZR (Z.of_N n) * Om * Om)%R in M1, M2 by (rewrite <- sq2 at 1; ring).
    set (r := sqrt ((wa - wc) * (wa - wc) + IZR (Z.of_N n) * Om * Om)) in *.
    destruct (half_angles al) as [A1 A2].
    set (c := cos (al / 2)) in *. set (s := sin (al / 2)) in *. set (sg := rsign (wa - wc)) in *. set (nn := IZR (Z.of_N n)) in *.
    assert (EE : forall pm, E pm = (hb * wc * (nn - 1 / 2) + pm * (1 / 2) * hb * r)%R) by reflexivity.
    assert (P1 : ((wa - wc) * c + Om * sqrt nn * s = sg * r * c)%R).
    { transitivity (sg * r * (cos al * c + sin al * s))%R; [rewrite M1 at 1; rewrite M2 at 1; ring|]. now rewrite A1. }
    assert (P2 : (Om * sqrt nn * c - (wa - wc) * s = sg * r * s)%R).
    { transitivity (sg * r * (sin al * c - cos al * s))%R; [rewrite M2 at 1; rewrite M1 at 1; ring|]. now rewrite A2. }
    clear M1 M2 A1 A2 sq2 n0.
    assert (FX : forall f g, (forall x, f x = g x) -> applied sv amp Lp v f -> applied sv amp Lp v g).
    { intros f g F [h1 h2]. split; [exact h1|]. intros ent Ee. destruct (h2 ent Ee) as [u [k1 k2]]. exists u. split; [exact k1|]. intros x. now rewrite k2. }
    split; intros Av.
    + eapply FX; [|exact (BL v _ _ Vv Av)]. intros x. rewrite Av, EE. unfold two.
      destruct (N.eqb x (st (n - 1)%N 1%N)); [|destruct (N.eqb x (st n 0%N)); [|ring]].
      * transitivity (hb * wc * (nn - 1 / 2) * c + 1 / 2 * hb * ((wa - wc) * c + Om * sqrt nn * s))%R; [field|]. rewrite P1. field.
      * transitivity (hb * wc * (nn - 1 / 2) * s + 1 / 2 * hb * (Om * sqrt nn * c - (wa - wc) * s))%R; [field|]. rewrite P2. field.
    + eapply FX; [|exact (BL v _ _ Vv Av)]. intros x. rewrite Av, EE. unfold two.
      destruct (N.eqb x (st (n - 1)%N 1%N)); [|destruct (N.eqb x (st n 0%N)); [|ring]].
      * transitivity (hb * wc * (nn - 1 / 2) * s - 1 / 2 * hb * (Om * sqrt nn * c - (wa - wc) * s))%R; [field|]. rewrite P2. field.
      * transitivity (- (hb * wc * (nn - 1 / 2) * c) + 1 / 2 * hb * ((wa - wc) * c + Om * sqrt nn * s))%R; [field|]. rewrite P1. field.
Qed.
Print Assumptions C94_spectrum.

(** The program: hbar = w_c = 1, w_a = 11/10, Omega = 1/5.  All operators have the
    same (empty) index tuple, here 0. *)
Definition jq (n : Z) (d : positive) : Qc := Q2Qc (n # d).
Example C94_program :
  jc_hamiltonian ioZ double_scalar_ops (jq 1 2) (jq 1 1) (jq 1 1) (jq 11 10) (jq 1 5) 0%Z 0%Z =
    Ok [([GSpin 2 Zcomp 0%Z], jq 11 10); ([GBoson true 0%Z; GBoson false 0%Z], jq 1 1);
        ([GBoson true 0%Z; GSpin 2 Minus 0%Z], jq 1 10); ([GBoson false 0%Z; GSpin 2 Plus 0%Z], jq 1 10)] /\
  rbind (jc_hamiltonian ioZ double_scalar_ops (jq 1 2) (jq 1 1) (jq 1 1) (jq 11 10) (jq 1 5) 0%Z 0%Z) (fun H =>
  rbind (jc_number ioZ double_scalar_ops 0%Z 0%Z) (fun N => jc_commutator ioZ double_scalar_ops H N)) = Ok [] /\
  index_order ioZ /\ scalar_domain double_scalar_ops /\
  (forall p q, q <> 0%Z -> s_make double_scalar_ops (VRat p q) <> None).
Proof.
  split; [vm_compute; repeat f_equal; apply Qc_is_canon; reflexivity|]. split; [vm_compute; reflexivity|].
  split; [exact sto_Z|]. split; [exact double_domain|]. intros p q n. cbn. destruct (Z.eqb_spec q 0); [contradiction|discriminate].
Qed.
(** its Hilbert space meets the hypotheses of C94_spectrum; |0, e> and |1, g> *)
Definition jc_hs : hspace Z := Eval vm_compute in fst (hs_of_args ioZ [ESSpin 2 0%Z; ESBoson 1024 0%Z]).
Example C94_spectrum_ex :
  index_order ioZ /\ sv_strict real_ops (sparse_sv real_ops) (sparse_nz real_ops) (sparse_amp real_ops) sp_size /\
  hs_of_args ioZ [ESSpin 2 0%Z; ESBoson 1024 0%Z] = (jc_hs, ODone) /\
  hs_fresh ioZ jc_hs /\ Forall int_mult (spaces jc_hs) /\
  In (ESBoson 1024 0%Z) (spaces jc_hs) /\ In (ESSpin 2 0%Z) (spaces jc_hs) /\
  jc_index ioZ jc_hs (ESBoson 1024 0%Z) (ESSpin 2 0%Z) 0 1 = Some 1024%N /\
  jc_index ioZ jc_hs (ESBoson 1024 0%Z) (ESSpin 2 0%Z) 1 0 = Some 1%N /\
  let v := mk_sparse (2 ^ 11) [(1024%N, 3%R); (1%N, 4%R)] in
  state_of real_ops (sparse_nz real_ops) (sparse_amp real_ops) sp_size (spaces jc_hs) v /\
  (forall x, sparse_amp real_ops v x = two 1024 3%R 1 4%R x).
Proof.
  pose proof (ll_ring _ _ _ real_lop) as L.
  assert (Am : forall x, sparse_amp real_ops (mk_sparse (2 ^ 11) [(1024%N, 3%R); (1%N, 4%R)]) x = two 1024 3%R 1 4%R x).
  { intros n. unfold sparse_amp, dat_amp, two. cbn [sp_data sp_find]. destruct (N.eqb_spec 1024 n) as [<-|ne]; [reflexivity|].
    destruct (N.eqb_spec n 1024) as [E|_]; [congruence|]. destruct (N.eqb_spec 1 n) as [<-|ne']; [reflexivity|].
    destruct (N.eqb_spec n 1) as [E|_]; [congruence|]. reflexivity. }
  assert (SPc : spaces jc_hs = [ESBoson 1024 0%Z; ESSpin 2 0%Z]) by reflexivity.
  split; [exact sto_Z|]. split; [now apply C32_sparse|]. split; [vm_compute; reflexivity|]. split.
  { apply hf_vector with (l := [ESSpin 2 0%Z; ESBoson 1024 0%Z]); [repeat constructor; cbn; lia|vm_compute; reflexivity]. }
  rewrite SPc. split; [repeat constructor; reflexivity|]. split; [now left|]. split; [right; now left|].
  split; [vm_compute; reflexivity|]. split; [vm_compute; reflexivity|]. cbv zeta. split; [|exact Am].
  split; [|split].
  - assert (n3 : 3%R <> 0%R) by lra. assert (n4 : 4%R <> 0%R) by lra.
    repeat constructor; cbn; auto; intros [h|h]; try discriminate; auto.
  - vm_compute. discriminate.
  - intros x hx. rewrite Am in hx. unfold two in hx.
    assert (Q : x = 1024%N \/ x = 1%N).
    { destruct (N.eqb_spec x 1024); [now left|]. destruct (N.eqb_spec x 1); [now right|]. exfalso. apply hx. reflexivity. }
    clear hx Am. destruct Q as [-> | ->]; (split; [vm_compute; reflexivity|]);
      intros [|[|k]] e E; cbn in E; try (destruct k; discriminate); inversion E; subst; vm_compute; reflexivity.
Qed.
(** When w_a < w_c the "+" state of the program belongs to the lower energy:
    hbar = Omega = 1, w_c = 1, w_a = 1/2, n = 1. *)
Example C94_exchanged : (rsign (1 / 2 - 1) = -1)%R /\ (jc_energy 1 1 (1 / 2) 1 (-1) 1 < jc_energy 1 1 (1 / 2) 1 1 1)%R.
Proof.
  split.
  - unfold rsign. destruct (Rlt_dec 0 (1 / 2 - 1)%R); lra.
  - unfold jc_energy. cbn [Z.of_N]. assert (P : (0 < sqrt ((1 / 2 - 1) * (1 / 2 - 1) + 1 * 1 * 1))%R) by (apply sqrt_lt_R0; lra). lra.
Qed.
