(** C69: linear operators with integer and rational scalars *)
From Coq Require Import NArith ZArith List Bool Sorted Permutation Lia QArith Qcanon Qreals Reals Lra.
From Verif Require Import BitsModel BitsSpec BitsProofs ExprModel ExprSpec ExprOrder ExprMap ExprEval ExprStd ExprCanon ExprMain ExprThrow ExprInst PropExpr PropFactories
  HSModel HSSpec HSEnum HSProofs HSMain PropHS LOpModel LOpSpec LOpFermion LOpSite LOpActF LOpActB LOpActS LOpComm LOpApply
  LOpMatrix LOpThrow LOpMain LOpReal PropLOp PropLOp2 PropLOp3 ExactModel ExactSpec ExactProofs.
Import ListNotations.
Close Scope R_scope.
Close Scope Qc_scope.
Close Scope Q_scope.
Close Scope nat_scope.
Open Scope N_scope.
Open Scope list_scope.

(** ** make_const(double) of the integral types, mpz_class, mpq_class and
    boost::rational: an exact conversion, or an exception.  The exception is
    thrown for everything but integers. *)
Theorem C69_make_const : forall d,
  (forall z, int_const d = Some z <-> dreal d = IZR z) /\
  (forall q, rat_mk d = Some q -> Q2R q = dreal d) /\
  (int_const d = None <-> ~ is_int (dreal d)) /\ (rat_mk d = None <-> ~ is_int (dreal d)).
Proof.
  intros d. pose proof int_exact as XI. pose proof rat_exact as XR.
  assert (N1 : int_const d = None <-> ~ is_int (dreal d)).
  { pose proof (ex_int _ _ _ XI d) as P. split; intros H.
    - intros Q. apply P in Q. congruence.
    - destruct (int_const d); auto. exfalso. apply H, P. congruence. }
  split; [|split; [|split; [exact N1|]]].
  - intros z. split; [apply int_const_exact|]. intros E. destruct (int_const d) as [w|] eqn:Ed.
    + apply int_const_exact in Ed. f_equal. apply eq_IZR. congruence.
    + exfalso. apply (proj1 N1 eq_refl). now exists z.
  - intros q E. exact (ex_mk _ _ _ XR d q E).
  - pose proof (ex_int _ _ _ XR d) as P. split; intros H.
    + intros Q. apply P in Q. congruence.
    + destruct (rat_mk d); auto. exfalso. apply H, P. congruence.
Qed.
Print Assumptions C69_make_const.

Theorem C69_types : exact_scalars int_scalar_ops int_const int_phi /\ exact_scalars rational_scalar_ops rat_mk rat_phi.
Proof. split; [apply int_exact|apply rat_exact]. Qed.
Print Assumptions C69_types.

Section C69.
Context {I S V : Type} (io : index_ops I) (so : scalar_ops S) (mk : dval -> option S) (phi : S -> R)
  (sv : sv_ops V S) (ok : V -> Prop) (amp : V -> N -> S) (size : V -> N) (h : hspace I) (e : list (list (gen I) * S)) (Lp : lop S).
Notation rmel := (mel io real_ops real_sq real_half (spaces h) (real_expr phi e)).
Notation ract := (mono_act io real_ops real_sq real_half (spaces h)).

Lemma x_make_impl : index_order io -> hs_fresh io h -> Forall int_mult (spaces h) -> canonical_expr io so e ->
  make_loperator io e h = LOk Lp -> x_impl io (spaces h) e Lp.
Proof.
  intros Hio Fr IM [_ C] E. pose proof (reachable_inv io Hio h (fresh_reachable io h Fr)) as Hi. pose proof (fresh_algs io Hio h Fr) as HA.
  assert (C' : forall m c, In (m, c) e -> canonical_mono io m) by (intros m c i; exact (proj1 (C m c i))).
  clear C. unfold make_loperator in E. revert Lp E. induction e as [|[m c] e' IH]; intros L0 E; cbn [lop_make] in E.
  - inversion E; subst. constructor.
  - destruct (mono_make io h [-3; -2; -1]%Z m) as [acts| | |] eqn:Em; try discriminate. cbn [lbind] in E.
    destruct (lop_make io h [-3; -2; -1]%Z e') as [Lt| | |] eqn:El; try discriminate. cbn [lbind] in E. inversion E; subst.
    constructor.
    + cbn [fst snd]. split; auto. pose proof real_lop as RL.
      eapply (mono_correct io Hio real_ops real_laws real_sq real_half (ll_comm _ _ _ RL) (half_0 real_ops real_sq real_half RL)); eauto. eapply C'; cbn; eauto.
    + apply IH; auto. intros m' c' i. eapply C'; cbn; eauto.
Qed.
Lemma esum_real (f : N -> R) (ent : list (N * S)) bas v : exact_scalars so mk phi -> NoDup bas -> NoDup (map fst ent) -> (forall x a, In (x, a) ent -> a = amp v x) ->
  (forall x, amp v x <> s_zero so -> In x (map fst ent)) -> (forall x, In x (map fst ent) -> In x bas) ->
  esum real_ops f (map (fun p => (fst p, phi (snd p))) ent) = ssum real_ops (fun x => (f x * phi (amp v x))%R) bas.
Proof.
  intros X NB N1 N2 N3 B. apply (esum_basis real_ops real_laws f (fun x => phi (amp v x))).
  - exact NB.
  - rewrite map_map. cbn [fst]. exact N1.
  - intros x a i. apply in_map_iff in i. destruct i as [[y b] [Q i]]. cbn in Q. inversion Q; subst. f_equal. eauto.
  - intros x nz. rewrite map_map. cbn [fst]. apply N3. intros Z0. apply nz. rewrite Z0. apply (ex_0 _ _ _ X).
  - intros x i. rewrite map_map in i. auto.
Qed.
(** The result of applying an operator, compared with the real operator of the
    same expression: exact, or the exception. *)
Theorem C69_exact bas v dst ent :
  index_order io -> scalar_laws so -> exact_scalars so mk phi -> sv_strict so sv ok amp size -> hs_fresh io h -> Forall int_mult (spaces h) ->
  canonical_expr io so e -> make_loperator io e h = LOk Lp -> basis_of (spaces h) bas ->
  state_of so ok amp size (spaces h) v -> ok dst -> 2 ^ N.of_nat (total_bits (spaces h)) <= size dst -> sv_entries sv v ent ->
  match x_lop_apply_to so mk sv Lp ent dst with
  | VOk w => ok w /\ size w = size dst /\ forall y, phi (amp w y) = ssum real_ops (fun x => (rmel y x * phi (amp v x))%R) bas
  | VThrow w => ok w /\ size w = size dst
  | VBad => False
  end.
Proof.
  intros Hio L X SS Fr IM C E [NB B] Vv Od Sd Ee. pose proof (svs_laws _ _ _ _ _ SS) as SV.
  pose proof (reachable_inv io Hio h (fresh_reachable io h Fr)) as [S0 [W _]].
  pose proof (x_make_impl Hio Fr IM C E) as HI. destruct (svl_zero _ _ _ _ _ SV dst Od) as [Oz [Zz Az]].
  destruct Vv as [Ov [Sv Hv]]. destruct (svl_entries _ _ _ _ _ SV v ent Ov Ee) as [N1 [_ [N2 N3]]].
  assert (Fv : Forall (fun p => valid_state (spaces h) (fst p)) ent).
  { apply Forall_forall. intros [x a] i. cbn. apply Hv. rewrite <- (N2 x a i). exact (svs_nonzero _ _ _ _ _ SS v ent x a Ov Ee i). }
  assert (Sz : 2 ^ N.of_nat (total_bits (spaces h)) <= size (sv_zero sv dst)) by lia.
  pose proof (x_entries_spec io Hio so mk phi X sv ok amp size SV (spaces h) e Lp S0 W HI ent (sv_zero sv dst) Fv Oz Sz) as P.
  unfold x_lop_apply_to. destruct (x_act_entries so mk sv Lp ent (sv_zero sv dst)) as [w|w|]; [| |exact P].
  - destruct P as [P1 [P2 P3]]. split; [exact P1|]. split; [congruence|]. intros y. rewrite P3, Az, (ex_0 _ _ _ X), Rplus_0_l.
    apply (esum_real _ ent bas v X NB N1 N2 N3). intros x i. apply B. apply in_map_iff in i. destruct i as [p [<- i]]. rewrite Forall_forall in Fv. now apply Fv.
  - destruct P as [P1 [P2 _]]. split; [exact P1|congruence].
Qed.

(** An amplitude that needs a non-integer factor is never rounded: there is an
    exception. *)
Theorem C69_must_throw v dst ent m c x k y :
  index_order io -> scalar_laws so -> exact_scalars so mk phi -> sv_strict so sv ok amp size -> hs_fresh io h -> Forall int_mult (spaces h) ->
  canonical_expr io so e -> make_loperator io e h = LOk Lp ->
  state_of so ok amp size (spaces h) v -> ok dst -> 2 ^ N.of_nat (total_bits (spaces h)) <= size dst -> sv_entries sv v ent ->
  In (m, c) e -> amp v x <> s_zero so -> ract m x = Some (k, y) -> ~ is_int k ->
  exists w, x_lop_apply_to so mk sv Lp ent dst = VThrow w.
Proof.
  intros Hio L X SS Fr IM C E Vv Od Sd Ee i nz Em nk. pose proof (svs_laws _ _ _ _ _ SS) as SV.
  destruct (basis_exists io h (reachable_inv io Hio h (fresh_reachable io h Fr))) as [bas HB].
  pose proof (C69_exact bas v dst ent Hio L X SS Fr IM C E HB Vv Od Sd Ee) as P.
  destruct (x_lop_apply_to so mk sv Lp ent dst) as [w|w|] eqn:Er; [|eauto|destruct P]. exfalso. apply nk.
  pose proof (x_make_impl Hio Fr IM C E) as HI.
  destruct Vv as [Ov [Sv Hv]]. destruct (svl_entries _ _ _ _ _ SV v ent Ov Ee) as [N1 [_ [N2 N3]]].
  assert (Ac : exists acts, In (acts, c) Lp /\ implements io real_ops real_sq real_half (spaces h) (mono_run real_ops real_sq real_half acts) m).
  { clear - HI i. induction HI as [|[m' c'] [a' d'] e' L' [H1 H2] HI IH]; [destruct i|]. cbn in *. subst d'.
    destruct i as [Q|i]; [inversion Q; subst; eauto|]. destruct (IH i) as [a [j q]]. eauto. }
  destruct Ac as [acts [j Im]].
  pose proof (ok_entries so mk sv Lp ent _ _ Er acts c x j (N3 x nz)) as NT.
  pose proof (sim_mono so mk phi X acts x (s_one so)) as Si. rewrite (ex_1 _ _ _ X) in Si.
  pose proof (mono_int so mk phi X acts x (s_one so)) as In1.
  assert (I1 : is_int (phi (s_one so))) by (exists 1%Z; apply (ex_1 _ _ _ X)). specialize (In1 I1).
  destruct (Im x 1%R (Hv x nz)) as [[k' [y' [E1 E2]]]|[E1 E2]].
  - rewrite Em in E1. inversion E1; subst k' y'. rewrite E2 in Si.
    destruct (x_mono_run so mk acts x (s_one so)) as [|q z| |]; cbn in Si, In1; try congruence.
    inversion Si as [[Q1 Q2]]. cbn in Q1. rewrite Rmult_1_l in Q1. rewrite Q1. exact In1.
  - specialize (E2 y). rewrite Em in E2. cbn in E2. rewrite N.eqb_refl in E2. rewrite E2. now exists 0%Z.
Qed.

(** Operators made of fermions, S+ and S- of spin 1/2 and Sz of integer spins
    never throw. *)
Theorem C69_never_throws bas v dst ent :
  index_order io -> scalar_laws so -> exact_scalars so mk phi -> sv_strict so sv ok amp size -> hs_fresh io h -> Forall int_mult (spaces h) ->
  canonical_expr io so e -> make_loperator io e h = LOk Lp -> basis_of (spaces h) bas ->
  (forall m c g, In (m, c) e -> In g m -> int_gen g) ->
  state_of so ok amp size (spaces h) v -> ok dst -> 2 ^ N.of_nat (total_bits (spaces h)) <= size dst -> sv_entries sv v ent ->
  exists w, x_lop_apply_to so mk sv Lp ent dst = VOk w /\
    forall y, phi (amp w y) = ssum real_ops (fun x => (rmel y x * phi (amp v x))%R) bas.
Proof.
  intros Hio L X SS Fr IM C E HB G Vv Od Sd Ee. pose proof (svs_laws _ _ _ _ _ SS) as SV.
  pose proof (C69_exact bas v dst ent Hio L X SS Fr IM C E HB Vv Od Sd Ee) as P.
  pose proof (reachable_inv io Hio h (fresh_reachable io h Fr)) as Hi. pose proof Hi as [S0 [W _]].
  assert (G' : forall m c, In (m, c) e -> Forall int_gen m) by (intros m c i; apply Forall_forall; eauto).
  pose proof (lop_never io Hio so mk phi X h _ e Lp Hi G' E) as NT.
  destruct (x_lop_apply_to so mk sv Lp ent dst) as [w|w|] eqn:Er; [exists w; split; [auto|apply P]| |destruct P].
  exfalso. pose proof (x_make_impl Hio Fr IM C E) as HI. destruct (svl_zero _ _ _ _ _ SV dst Od) as [Oz [Zz Az]].
  destruct Vv as [Ov [Sv Hv]]. destruct (svl_entries _ _ _ _ _ SV v ent Ov Ee) as [N1 [_ [N2 N3]]].
  assert (Fv : Forall (fun p => valid_state (spaces h) (fst p)) ent).
  { apply Forall_forall. intros [x a] i. cbn. apply Hv. rewrite <- (N2 x a i). exact (svs_nonzero _ _ _ _ _ SS v ent x a Ov Ee i). }
  assert (Sz : 2 ^ N.of_nat (total_bits (spaces h)) <= size (sv_zero sv dst)) by lia.
  pose proof (x_entries_spec io Hio so mk phi X sv ok amp size SV (spaces h) e Lp S0 W HI ent (sv_zero sv dst) Fv Oz Sz) as Q.
  unfold x_lop_apply_to in Er. rewrite Er in Q. destruct Q as [_ [_ [acts [c [x [i [_ T]]]]]]]. exact (NT acts c x _ i T).
Qed.
End C69.
Print Assumptions C69_exact.
Print Assumptions C69_must_throw.
Print Assumptions C69_never_throws.

(** ** Exceptions that the values do not require *)
Lemma sqrt_sq (n : N) : (sqrt (IZR (Z.of_N n)) * sqrt (IZR (Z.of_N n)))%R = IZR (Z.of_N n).
Proof. apply sqrt_sqrt. apply IZR_le. lia. Qed.
Definition hb4 : hspace Z := Eval vm_compute in fst (hs_of_vector ioZ [ESBoson 4 0%Z]).
Definition num_b : list (list (gen Z) * Z) := [([GBoson true 0%Z; GBoson false 0%Z], 1%Z)].
Definition Lnum : lop Z := Eval vm_compute in match make_loperator ioZ num_b hb4 with LOk L => L | _ => [] end.
Lemma hb4_fresh : hs_fresh ioZ hb4.
Proof. eapply hf_vector with (l := [ESBoson 4 0%Z]); [repeat constructor; cbn; lia|vm_compute; reflexivity]. Qed.
Lemma num_canonical : canonical_expr ioZ int_scalar_ops num_b.
Proof.
  split; [repeat constructor|]. intros m c [Q|[]]. inversion Q; subst. split; [|cbn; lia].
  split; [|split].
  - repeat constructor; left; constructor.
  - intros [|a1 [|a2 a3]] ga gb post E C; cbn in E; inversion E; subst.
    + inversion C.
    + destruct a3; discriminate.
  - apply no_spin_power. repeat constructor; cbn; discriminate.
Qed.
(** The number operator of a boson has the matrix elements 0, 1, 2, 3, and still
    it throws when applied to |2>: sqrt(2) is converted to an integer first. *)
Theorem C69_number_refuted :
  hs_fresh ioZ hb4 /\ canonical_expr ioZ int_scalar_ops num_b /\ make_loperator ioZ num_b hb4 = LOk Lnum /\
  (forall y x, valid_state (spaces hb4) x ->
     mel ioZ real_ops real_sq real_half (spaces hb4) (real_expr int_phi num_b) y x = (if y =? x then IZR (Z.of_N x) else 0)%R) /\
  exists w, x_lop_apply_to int_scalar_ops int_const (dense_sv int_scalar_ops) Lnum
              (dense_entries_from int_scalar_ops [0; 0; 1; 0]%Z 0) [0; 0; 0; 0]%Z = VThrow w.
Proof.
  split; [exact hb4_fresh|]. split; [exact num_canonical|]. split; [reflexivity|]. split.
  - intros y x [hx _]. cbn in hx.
    assert (Q : x = 0 \/ x = 1 \/ x = 2 \/ x = 3) by lia.
    unfold num_b, real_expr. cbn [map fst snd mel].
    assert (A : mono_act ioZ real_ops real_sq real_half (spaces hb4) [GBoson true 0%Z; GBoson false 0%Z] x =
      if x =? 0 then None else Some (1 * real_sq x * real_sq x, x)%R).
    { destruct Q as [->|[->|[->| ->]]]; reflexivity. }
    rewrite A. clear A Q hx. destruct (N.eqb_spec x 0) as [->|nx].
    + cbn. destruct (y =? 0); ring.
    + unfold amp1. cbn [s_add s_mul s_zero real_ops]. rewrite (N.eqb_sym y x). destruct (x =? y); [|ring]. unfold int_phi, real_sq.
      rewrite !Rmult_1_l, sqrt_sq. ring.
  - eexists. vm_compute. reflexivity.
Qed.
Print Assumptions C69_number_refuted.

(** The same for rational numbers: S_z of a spin 1/2 has the matrix elements
    -1/2 and 1/2, and still it throws. *)
Definition hs2 : hspace Z := Eval vm_compute in fst (hs_of_vector ioZ [ESSpin 2 0%Z]).
Definition sz_half : list (list (gen Z) * Qc) := [([GSpin 2 Zcomp 0%Z], Q2Qc 1)].
Definition Lsz : lop Qc := Eval vm_compute in match make_loperator ioZ sz_half hs2 with LOk L => L | _ => [] end.
Theorem C69_half_refuted :
  hs_fresh ioZ hs2 /\ canonical_expr ioZ rational_scalar_ops sz_half /\ make_loperator ioZ sz_half hs2 = LOk Lsz /\
  (forall x, valid_state (spaces hs2) x ->
     mel ioZ real_ops real_sq real_half (spaces hs2) (real_expr rat_phi sz_half) x x = rat_phi (Q2Qc (2 * Z.of_N x - 1 # 2))) /\
  exists w, x_lop_apply_to rational_scalar_ops rat_mk (dense_sv rational_scalar_ops) Lsz
              (dense_entries_from rational_scalar_ops [Q2Qc 1; Q2Qc 0] 0) [Q2Qc 0; Q2Qc 0] = VThrow w.
Proof.
  split; [eapply hf_vector with (l := [ESSpin 2 0%Z]); [repeat constructor; cbn; lia|vm_compute; reflexivity]|].
  split; [|split; [reflexivity|split]].
  - split; [repeat constructor|]. intros m c [Q|[]]. inversion Q; subst. split; [|cbn; discriminate].
    split; [|split].
    + repeat constructor.
    + intros [|a1 a2] ga gb post E C; cbn in E; inversion E; subst. destruct a2; discriminate.
    + intros (p & q & mu & c & i & n & _ & _ & h2 & E). destruct n as [|[|n]]; [lia|lia|]. cbn [repeat app] in E.
      destruct p as [|a1 [|a2 a3]]; cbn in E; inversion E.
  - intros x [hx _]. cbn in hx.
    assert (Q : x = 0 \/ x = 1) by lia.
    assert (A : mono_act ioZ real_ops real_sq real_half (spaces hs2) [GSpin 2 Zcomp 0%Z] x = Some (1 * real_half (2 * Z.of_N x - 1), x)%R).
    { destruct Q as [->| ->]; reflexivity. }
    unfold sz_half, real_expr. cbn [map fst snd mel]. rewrite A. unfold amp1. cbn [s_add s_mul s_zero real_ops]. rewrite N.eqb_refl.
    unfold rat_phi. unfold Q2Qc, this. rewrite !(Qeq_eqR _ _ (Qred_correct _)). unfold Q2R. cbn [Qnum Qden]. unfold real_half. field.
  - eexists. vm_compute. reflexivity.
Qed.
Print Assumptions C69_half_refuted.

(** An exception in the middle of L(src, dst) leaves dst overwritten: 1 + a+ a
    applied to |2>, with a target that contained 7, 7, 7, 7. *)
Definition one_num : list (list (gen Z) * Z) := ([], 1%Z) :: num_b.
Definition Lone_num : lop Z := Eval vm_compute in match make_loperator ioZ one_num hb4 with LOk L => L | _ => [] end.
Theorem C69_after_throw_refuted :
  hs_fresh ioZ hb4 /\ make_loperator ioZ one_num hb4 = LOk Lone_num /\
  sv_entries (dense_sv int_scalar_ops) [0; 0; 1; 0]%Z [(2, 1%Z)] /\
  x_lop_apply_to int_scalar_ops int_const (dense_sv int_scalar_ops) Lone_num [(2, 1%Z)] [7; 7; 7; 7]%Z = VThrow [0; 0; 1; 0]%Z.
Proof. split; [exact hb4_fresh|]. split; [reflexivity|]. split; vm_compute; reflexivity. Qed.
Print Assumptions C69_after_throw_refuted.

(** The hypotheses are met: integers, two fermions and a spin 1/2, the operator
    3 c+_0 c_1; and the number operator above, which must throw on |2> *)
Definition hfs : hspace Z := Eval vm_compute in fst (hs_of_vector ioZ [ESFermion 0%Z; ESFermion 1%Z; ESSpin 2 0%Z]).
Definition hop_i : list (list (gen Z) * Z) := [([GFermion true 0%Z; GFermion false 1%Z], 3%Z)].
Definition Lhop : lop Z := Eval vm_compute in match make_loperator ioZ hop_i hfs with LOk L => L | _ => [] end.
Example C69_never_ex :
  index_order ioZ /\ scalar_laws int_scalar_ops /\ exact_scalars int_scalar_ops int_const int_phi /\
  sv_strict int_scalar_ops (dense_sv int_scalar_ops) (fun _ => True) (dense_amp int_scalar_ops) dense_size /\
  hs_fresh ioZ hfs /\ Forall int_mult (spaces hfs) /\ canonical_expr ioZ int_scalar_ops hop_i /\ make_loperator ioZ hop_i hfs = LOk Lhop /\
  (forall m c g, In (m, c) hop_i -> In g m -> int_gen g) /\
  state_of int_scalar_ops (fun _ => True) (dense_amp int_scalar_ops) dense_size (spaces hfs) [5; 1; 2; 3; 4; 5; 6; 7]%Z /\
  sv_entries (dense_sv int_scalar_ops) [5; 1; 2; 3; 4; 5; 6; 7]%Z (combine [0; 1; 2; 3; 4; 5; 6; 7] [5; 1; 2; 3; 4; 5; 6; 7]%Z) /\
  x_lop_apply_to int_scalar_ops int_const (dense_sv int_scalar_ops) Lhop (combine [0; 1; 2; 3; 4; 5; 6; 7] [5; 1; 2; 3; 4; 5; 6; 7]%Z) (repeat 9%Z 8) =
    VOk [0; 6; 0; 0; 0; 18; 0; 0]%Z.
Proof.
  pose proof (sd_laws _ int_domain) as L.
  split; [exact sto_Z|]. split; [exact L|]. split; [exact int_exact|]. split; [now apply C32_dense|].
  split; [eapply hf_vector with (l := [ESFermion 0%Z; ESFermion 1%Z; ESSpin 2 0%Z]); [repeat constructor; cbn; lia|vm_compute; reflexivity]|].
  split; [repeat constructor|]. split; [|split; [reflexivity|]].
  { split; [repeat constructor|]. intros m c [Q|[]]. inversion Q; subst. split; [|cbn; lia].
    split; [|split].
    - repeat constructor; left; constructor.
    - intros [|a1 [|a2 a3]] ga gb post E C; cbn in E; inversion E; subst.
      + inversion C.
      + destruct a3; discriminate.
    - apply no_spin_power. repeat constructor; cbn; discriminate. }
  split; [intros m c g [Q|[]] i; inversion Q; subst; destruct i as [<-|[<-|[]]]; exact Logic.I|].
  split; [|split; vm_compute; reflexivity].
  split; [exact Logic.I|]. split; [vm_compute; discriminate|]. intros x nz. split.
  - cbn. unfold dense_amp in nz. destruct (N.lt_ge_cases x 8) as [q|q]; [exact q|]. exfalso. apply nz.
    rewrite nth_overflow; [reflexivity|cbn; lia].
  - intros k e E. assert (Q : x < 8) by (unfold dense_amp in nz; destruct (N.lt_ge_cases x 8) as [q|q]; [exact q|]; exfalso; apply nz; rewrite nth_overflow; [reflexivity|cbn; lia]).
    destruct k as [|[|[|k]]]; cbn in E; inversion E; subst; try (destruct k; discriminate); cbn [es_nbits es_dim];
      unfold bit_field; (eapply N.lt_le_trans; [apply N.mod_lt; discriminate|vm_compute; discriminate]).
Qed.
Definition cre_b : list (list (gen Z) * Z) := [([GBoson true 0%Z], 1%Z)].
Example C69_must_ex : exists k,
  exact_scalars int_scalar_ops int_const int_phi /\ hs_fresh ioZ hb4 /\ Forall int_mult (spaces hb4) /\
  canonical_expr ioZ int_scalar_ops cre_b /\ (exists Lp, make_loperator ioZ cre_b hb4 = LOk Lp) /\
  state_of int_scalar_ops (fun _ => True) (dense_amp int_scalar_ops) dense_size (spaces hb4) [0; 1; 0; 0]%Z /\
  dense_amp int_scalar_ops [0; 1; 0; 0]%Z 1 <> 0%Z /\
  mono_act ioZ real_ops real_sq real_half (spaces hb4) [GBoson true 0%Z] 1 = Some (k, 2) /\ ~ is_int k.
Proof.
  exists (1 * real_sq 2)%R.
  split; [exact int_exact|]. split; [exact hb4_fresh|]. split; [repeat constructor|]. split.
  { split; [repeat constructor|]. intros m c [Q|[]]. inversion Q; subst. split; [|cbn; lia].
    split; [|split].
    - repeat constructor.
    - intros [|a1 a2] ga gb post E C; cbn in E; inversion E; subst. destruct a2; discriminate.
    - apply no_spin_power. repeat constructor; cbn; discriminate. }
  split; [eexists; reflexivity|]. split; [|split; [vm_compute; discriminate|split; [reflexivity|]]].
  - split; [exact Logic.I|]. split; [vm_compute; discriminate|]. intros x nz.
    assert (Q : x < 4) by (unfold dense_amp in nz; destruct (N.lt_ge_cases x 4) as [q|q]; [exact q|]; exfalso; apply nz; rewrite nth_overflow; [reflexivity|cbn; lia]).
    split; [exact Q|]. intros k e E. destruct k as [|k]; cbn in E; inversion E; subst; [|destruct k; discriminate].
    unfold bit_field. eapply N.lt_le_trans; [apply N.mod_lt; discriminate|vm_compute; discriminate].
  - rewrite Rmult_1_l. destruct (C69_make_const (DSqrt 2)) as [_ [_ [Q _]]]. exact (proj1 Q eq_refl).
Qed.
