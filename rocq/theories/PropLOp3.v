(** Linear operators: C34 - C37 *)
From Coq Require Import NArith ZArith List Bool Sorted Permutation Lia Reals.
From Verif Require Import BitsModel BitsSpec BitsProofs ExprModel ExprSpec ExprOrder ExprMap ExprEval ExprStd ExprCanon ExprMain ExprThrow ExprInst PropExpr PropFactories
  HSModel HSSpec HSEnum HSProofs HSMain PropHS LOpModel LOpSpec LOpFermion LOpSite LOpActF LOpActB LOpActS LOpComm LOpApply
  LOpMatrix LOpThrow LOpReject LOpMain LOpReal PropLOp PropLOp2.
Import ListNotations.
Close Scope R_scope.
Close Scope nat_scope.
Open Scope N_scope.
Open Scope list_scope.

(** ** C34: truncated bosons.  With the expression p = a * a+ (stored as
    1 + a+ a), p v and a (a+ v) differ exactly by dim times the part of v whose
    occupation is the largest one, dim - 1. *)
Theorem C34_truncation : forall I (io : index_ops I) S V (so : scalar_ops S) sq half
  (sv : sv_ops V S) ok amp size (h : hspace I) i k e,
  index_order io -> scalar_domain so -> lop_laws so sq half -> sv_strict so sv ok amp size ->
  hs_fresh io h -> Forall int_mult (spaces h) ->
  nth_error (spaces h) k = Some e -> carries io (GBoson true i) e = true ->
  exists p La Lad Lp, e_mul (std_gen_ops io) so (gen_expr so (GBoson false i)) (gen_expr so (GBoson true i)) = Ok p /\
    make_loperator io (gen_expr so (GBoson false i)) h = LOk La /\
    make_loperator io (gen_expr so (GBoson true i)) h = LOk Lad /\ make_loperator io p h = LOk Lp /\
  forall v w u z, state_of so ok amp size (spaces h) v ->
    lop_run so sq half sv Lad v w -> lop_run so sq half sv La w u -> lop_run so sq half sv Lp v z ->
    forall y, amp z y = s_add so (amp u y)
      (if bit_field y (offset (spaces h) k) (es_nbits e) + 1 =? es_dim e
       then s_mul so (zmul so (Z.of_N (es_dim e)) (s_one so)) (amp v y) else s_zero so).
Proof.
  intros I io S V so sq half sv ok amp size h i k e Hio D LL SS Fr IM Ek Cr.
  pose proof (reachable_inv io Hio h (fresh_reachable io h Fr)) as Hi. pose proof (fresh_algs io Hio h Fr) as HA.
  pose proof (ll_ring _ _ _ LL) as L. pose proof (ll_comm _ _ _ LL) as MC. destruct (basis_exists io h Hi) as [bas HB].
  pose proof Hi as [S0 [W _]].
  set (B := [GBoson false i; GBoson true i]).
  assert (SC : spin_consistent B) by (split; [intros c c' m j [Q|[Q|[]]]; discriminate|intros m c j [Q|[Q|[]]]; discriminate]).
  assert (Cr' : carries io (GBoson false i) e = true) by (destruct e; auto).
  assert (KB : Forall (known io (spaces h)) B).
  { repeat constructor; exists e; split; auto; eapply nth_error_In; eauto. }
  assert (BG : forall d, built io so B (gen_expr so (GBoson d i))).
  { intros d. apply (b_mono io so B (s_one so) [GBoson d i]).
    - intros g [<-|[]]. destruct d; cbn; auto.
    - exact (C15_factories io so D (GBoson d i)). }
  pose proof (boson_reorder io so Hio D i) as Ep.
  set (p := [([], s_one so); ([GBoson true i; GBoson false i], s_one so)]) in *.
  assert (Bp : built io so B p) by (eapply b_mul; [apply (BG false)|apply (BG true)|exact Ep]).
  pose proof (fun e => built_make io Hio so h Hi HA D B SC KB e) as MK. pose proof (fun e => built_canonical io Hio so D B SC e) as CN.
  destruct (MK _ (BG false)) as [La Ea]. destruct (MK _ (BG true)) as [Lb Eb]. destruct (MK p Bp) as [Lp EL].
  exists p, La, Lb, Lp. repeat (split; [assumption|]). intros v w u z Vv R1 R2 R3 y.
  destruct (run_two io Hio so sq half LL sv ok amp size SS h Hi HA IM bas HB _ _ La Lb v w u (CN _ (BG false)) (CN _ (BG true)) Ea Eb Vv R1 R2) as [Vu Au].
  destruct (run_spec io Hio so sq half LL sv ok amp size SS h Hi HA IM bas HB p Lp v z (CN p Bp) EL Vv R3) as [Vz [_ Az]].
  pose proof (vec_zero so sq half LL ok amp size h bas HB) as VZ.
  destruct (in_bas_dec bas y) as [iy|ny].
  2: { rewrite (VZ u y Vu ny), (VZ v y Vv ny), (VZ z y Vz ny), (mul_0_r so L), (sl_add_0 so L). now destruct (_ =? _). }
  set (n := fun x => bit_field x (offset (spaces h) k) (es_nbits e)). fold (n y).
  set (tgt := fun x m => set_field x (offset (spaces h) k) (es_nbits e) m).
  pose proof (conj Ek Cr : site io (spaces h) (GBoson true i) k e) as St1. pose proof (conj Ek Cr' : site io (spaces h) (GBoson false i) k e) as St2.
  assert (GA : forall x, gen_act io so sq half (spaces h) (GBoson false i) x = if n x =? 0 then None else Some (sq (n x), tgt x (n x - 1))).
  { intros x. rewrite (gen_act_loc io Hio so sq half L (spaces h) _ k e x S0 St2). cbn [loc]. fold (n x). destruct (n x =? 0); auto.
    unfold jwf. cbn [is_f]. now rewrite (sl_mul_1_l so L). }
  assert (GB : forall x, gen_act io so sq half (spaces h) (GBoson true i) x = if n x + 1 <? es_dim e then Some (sq (n x + 1), tgt x (n x + 1)) else None).
  { intros x. rewrite (gen_act_loc io Hio so sq half L (spaces h) _ k e x S0 St1). cbn [loc]. fold (n x). destruct (n x + 1 <? es_dim e); auto.
    unfold jwf. cbn [is_f]. now rewrite (sl_mul_1_l so L). }
  assert (we : es_wf e) by (eapply Forall_forall; [exact W|eapply nth_error_In; eauto]).
  assert (FB : forall m, m < es_dim e -> m < 2 ^ N.of_nat (es_nbits e)) by (intros m hm; eapply N.lt_le_trans; [exact hm|now apply dim_le]).
  assert (hn : forall x, In x bas -> n x < es_dim e) by (intros x ix; apply (valid_field (spaces h) k e x); [now apply HB|exact Ek]).
  assert (TS : forall x, tgt x (n x) = x) by (intros x; apply set_field_same).
  assert (TT : forall x m, m < es_dim e -> tgt (tgt x m) (n x) = x).
  { intros x m hm. unfold tgt. rewrite set_field_set; [apply TS|now apply FB|apply bit_field_lt]. }
  assert (NT : forall x m, m < es_dim e -> n (tgt x m) = m) by (intros x m hm; apply bit_field_set; now apply FB).
  (* a+ a *)
  assert (MP : forall x, In x bas -> mel io so sq half (spaces h) p y x = if y =? x then half (2 * Z.of_N (N.add (n x) 1))%Z else s_zero so).
  { intros x ix. unfold p. cbn [mel mono_act obind amp1]. rewrite (N.eqb_sym x y), !(sl_mul_1_l so L), (sadd_0_r so L).
    rewrite GA. specialize (hn x ix). destruct (N.eqb_spec (n x) 0) as [z0|nz].
    - cbn [obind amp1]. rewrite z0, (sadd_0_r so L). destruct (y =? x); auto. symmetry. apply (ll_half_2 _ _ _ LL).
    - cbn [obind]. rewrite GB, NT by lia. destruct (N.ltb_spec (n x - 1 + 1) (es_dim e)); [|lia]. cbn [amp1].
      replace (n x - 1 + 1) with (n x) by lia. rewrite TT by lia. rewrite (N.eqb_sym x y), !(sl_mul_1_l so L).
      rewrite (sq_half so sq half LL). destruct (y =? x); [|apply (sl_add_0 so L)].
      rewrite <- (ll_half_2 _ _ _ LL), <- (ll_half_add _ _ _ LL). f_equal. lia. }
  (* a then a+ *)
  assert (MU : forall x, In x bas -> ssum so (fun z => s_mul so (mel io so sq half (spaces h) (gen_expr so (GBoson false i)) y z)
      (mel io so sq half (spaces h) (gen_expr so (GBoson true i)) z x)) bas =
      if y =? x then (if n x + 1 <? es_dim e then half (2 * Z.of_N (N.add (n x) 1))%Z else s_zero so) else s_zero so).
  { intros x ix. unfold gen_expr.
    rewrite (ssum_ext so _ (fun z => s_mul so (rho io so sq half (spaces h) (GBoson false i) y z) (rho io so sq half (spaces h) (GBoson true i) z x)))
      by (intros z0 _; now rewrite !(mel_gen io so sq half LL)).
    pose proof (rho_mul io Hio so sq half LL (spaces h) S0 W bas HB (GBoson false i) (GBoson true i) y x iy ix) as Q. cbn [rmul mat_ops] in Q. rewrite Q.
    unfold col. rewrite GB. destruct (N.ltb_spec (n x + 1) (es_dim e)) as [lt|ge]; cbn [obind amp1]; [|now destruct (y =? x)].
    rewrite GA, NT by auto. destruct (N.eqb_spec (n x + 1) 0); [lia|]. cbn [amp1]. replace (n x + 1 - 1) with (n x) by lia.
    rewrite TT by auto. rewrite (N.eqb_sym x y), (sq_half so sq half LL). reflexivity. }
  rewrite Az, Au.
  rewrite (ssum_single so L bas y _ (proj1 HB) iy), (ssum_single so L bas y _ (proj1 HB) iy).
  - rewrite (MP y iy), (MU y iy), N.eqb_refl. specialize (hn y iy).
    destruct (N.eqb_spec (n y + 1) (es_dim e)) as [top|ntop].
    + destruct (N.ltb_spec (n y + 1) (es_dim e)); [lia|]. rewrite (mul_0_l so L), (sl_add_0 so L). f_equal.
      rewrite (zmul_half so sq half LL), top. reflexivity.
    + destruct (N.ltb_spec (n y + 1) (es_dim e)); [|lia]. now rewrite (sadd_0_r so L).
  - intros x ix ne. rewrite (MU x ix). destruct (N.eqb_spec y x); [congruence|]. apply (mul_0_l so L).
  - intros x ix ne. rewrite (MP x ix). destruct (N.eqb_spec y x); [congruence|]. apply (mul_0_l so L).
Qed.
Print Assumptions C34_truncation.

(** ** C35: construction of an operator.  It throws unknown_generator exactly
    if some monomial contains a generator without an elementary space (with the
    exception of bosons behind a power of a boson operator that vanishes
    identically, see [rejected] in LOpReject.v); it never fails in another way,
    and an operator that has been constructed maps indices of basis states to
    indices of basis states. *)
Theorem C35_construction : forall I (io : index_ops I) C (h : hspace I) (e : list (list (gen I) * C)),
  index_order io -> hs_fresh io h -> (forall m c, In (m, c) e -> canonical_mono io m) ->
  (exists Lp, make_loperator io e h = LOk Lp) \/ (exists g, make_loperator io e h = LUnknown g).
Proof.
  intros I io C h e Hio Fr Cn.
  pose proof (lop_make_reject io Hio h e (reachable_inv io Hio h (fresh_reachable io h Fr)) (fresh_algs io Hio h Fr) Cn) as Q.
  destruct (make_loperator io e h); eauto; contradiction.
Qed.
Theorem C35_throws : forall I (io : index_ops I) C (h : hspace I) (e : list (list (gen I) * C)),
  index_order io -> hs_fresh io h -> (forall m c, In (m, c) e -> canonical_mono io m) ->
  ((exists g, make_loperator io e h = LUnknown g) <->
     exists m c g, In (m, c) e /\ rejected io (spaces h) m g) /\
  (forall g, make_loperator io e h = LUnknown g -> exists m c, In (m, c) e /\ rejected io (spaces h) m g).
Proof.
  intros I io C h e Hio Fr Cn.
  pose proof (lop_make_reject io Hio h e (reachable_inv io Hio h (fresh_reachable io h Fr)) (fresh_algs io Hio h Fr) Cn) as Q.
  split; [split|].
  - intros [g E]. rewrite E in Q. destruct Q as [m [c Q]]. eauto.
  - intros [m [c [g [Hi R]]]]. destruct (make_loperator io e h) as [a|g'| |]; try contradiction; eauto. exfalso. eapply Q; eauto.
  - intros g E. now rewrite E in Q.
Qed.
(** for expressions without bosons the condition is just that every generator
    is known; with bosons, knowing all generators is sufficient *)
Theorem C35_no_bosons : forall I (io : index_ops I) C (h : hspace I) (e : list (list (gen I) * C)),
  index_order io -> hs_fresh io h -> (forall m c, In (m, c) e -> canonical_mono io m) ->
  ((forall m c g, In (m, c) e -> In g m -> known io (spaces h) g) -> exists Lp, make_loperator io e h = LOk Lp) /\
  (forall m c g Lp, make_loperator io e h = LOk Lp -> In (m, c) e -> In g m -> algebra_id g <> (-2)%Z -> known io (spaces h) g).
Proof.
  intros I io C h e Hio Fr Cn. destruct (C35_throws I io C h e Hio Fr Cn) as [[T1 T2] _]. split.
  - intros K. destruct (C35_construction I io C h e Hio Fr Cn) as [Q|Q]; auto. exfalso.
    destruct (T1 Q) as [m [c [g [Hi (a & r & Em & nk & _)]]]]. apply nk. apply (K m c g Hi). rewrite Em, in_app_iff. right; now left.
  - intros m c g Lp E Hi Hg nb. assert (DK : known io (spaces h) g \/ ~ known io (spaces h) g).
    { unfold known. destruct (existsb (carries io g) (spaces h)) eqn:X.
      - left. apply existsb_exists in X. exact X.
      - right. intros X2. apply existsb_exists in X2. congruence. }
    destruct DK as [|nk]; auto. exfalso. destruct T2 as [g' Eg].
    + exists m, c, g. split; auto. destruct (in_split _ _ Hg) as [a [r Em]]. exists a, r. split; auto.
    + rewrite E in Eg. discriminate.
Qed.
Theorem C35_in_range : forall I (io : index_ops I) S (so : scalar_ops S) sq half (h : hspace I) e (Lp : lop S) acts c x k,
  index_order io -> lop_laws so sq half -> hs_fresh io h -> Forall int_mult (spaces h) ->
  (forall m c, In (m, c) e -> canonical_mono io m) -> make_loperator io e h = LOk Lp -> In (acts, c) Lp ->
  valid_state (spaces h) x ->
  match mono_run so sq half acts x k with
  | AVal _ y => valid_state (spaces h) y
  | AZero => True
  | ABad => False
  end.
Proof.
  intros I io S so sq half h e Lp acts c x k Hio LL Fr IM Cn E Hi Vx.
  pose proof (reachable_inv io Hio h (fresh_reachable io h Fr)) as HI. pose proof (fresh_algs io Hio h Fr) as HA.
  pose proof (ll_ring _ _ _ LL) as L.
  pose proof (lop_make_impl io Hio so L sq half (ll_comm _ _ _ LL) (half_0 so sq half LL) h e Lp HI HA IM Cn E) as F2.
  clear E Cn. induction F2 as [|[m c0] [a0 c1] e Lp [Hm _] F2 IH]; [destruct Hi|].
  destruct Hi as [Q|Hi]; [|exact (IH Hi)]. inversion Q; subst. cbn [fst snd] in Hm.
  destruct (Hm x k Vx) as [[k' [z [E1 ->]]]|[-> E1]]; [|exact Logic.I].
  pose proof HI as [S0 [W _]]. exact (mono_act_valid io Hio so sq half L (spaces h) m S0 W x k' z Vx E1).
Qed.
Print Assumptions C35_construction.
Print Assumptions C35_throws.
Print Assumptions C35_no_bosons.
Print Assumptions C35_in_range.

(** The claim "an unknown generator is rejected" is false without the exception
    for bosons: (a+_0)^2 a_7 is accepted on a space of one two-level boson 0. *)

(** *** Exceptions *)
Lemma sorted_pairs {A} (R : A -> A -> Prop) a b c : R a b -> R a c -> R b c -> StronglySorted R [a; b; c].
Proof. repeat constructor; auto. Qed.
Lemma no_spin_power {I} (m : list (gen I)) : Forall (fun g => algebra_id g <> (-1)%Z) m -> ~ has_nilpotent_power m.
Proof.
  intros F (p & q & mu & c & i & n & _ & _ & h2 & ->). rewrite !Forall_app in F. destruct F as [_ [F _]].
  destruct n as [|n]; [lia|]. inversion F; subst. cbn in *. congruence.
Qed.
(** "Unknown generators are rejected" is false of bosons without the exception
    made by [rejected]: (a+_0)^2 a_7 is accepted by a space of one boson with
    two states. *)
Theorem C35_unknown_boson_refuted : exists (h : hspace Z) Lp, hs_fresh ioZ h /\
  ~ known ioZ (spaces h) (GBoson false 7%Z) /\
  canonical_mono ioZ [GBoson true 0%Z; GBoson true 0%Z; GBoson false 7%Z] /\
  make_loperator ioZ [([GBoson true 0%Z; GBoson true 0%Z; GBoson false 7%Z], 1%Z)] h = LOk Lp.
Proof.
  exists (fst (hs_of_vector ioZ [ESBoson 2 0%Z])). eexists. split; [|split; [|split]].
  - eapply hf_vector with (l := [ESBoson 2 0%Z]); [repeat constructor; cbn; lia|vm_compute; reflexivity].
  - intros [e [He C]]. vm_compute in He. destruct He as [<-|[]]. vm_compute in C. discriminate.
  - split; [|split].
    + apply sorted_pairs; [left; reflexivity|right; constructor|right; constructor].
    + intros [|a1 [|a2 [|a3 a4]]] ga gb post0 E C; cbn in E; inversion E; subst; try (inversion C; fail); destruct a4; discriminate.
    + apply no_spin_power. repeat constructor; cbn; discriminate.
  - vm_compute. reflexivity.
Qed.
(** A copy of a Hilbert space has no algebra bit ranges, so that no operator
    with a fermion can be constructed from it ... *)
Theorem C35_copied_space_refuted : forall I (io : index_ops I) C (h : hspace I) d i (c : C),
  index_order io -> hs_fresh io h -> In (ESFermion i) (spaces h) ->
  (exists Lp, make_loperator io [([GFermion d i], c)] h = LOk Lp) /\
  make_loperator io [([GFermion d i], c)] (hs_copy h) = LNoAlgebra.
Proof.
  intros I io C h d i c Hio Fr Hi.
  assert (CM : canonical_mono io [GFermion d i]).
  { split; [repeat constructor|]. split; [|apply no_spin_power; repeat constructor; cbn; discriminate].
    intros [|? [|? ?]] ga gb post0 E; discriminate. }
  assert (Cr : carries io (GFermion d i) (ESFermion i) = true) by (cbn; now apply (i_eqb_refl io Hio)).
  split.
  - apply (C35_no_bosons I io C h [([GFermion d i], c)] Hio Fr).
    + intros m c' [Q|[]]. inversion Q; subst. auto.
    + intros m c' g [Q|[]] Hg. inversion Q; subst. destruct Hg as [<-|[]]. exists (ESFermion i). auto.
  - unfold make_loperator. cbn [lop_make mono_make algebra_subrange algebra_id Z.ltb Z.compare Pos.compare Pos.compare_cont Z.eqb Pos.eqb lbind single_make CompOpp].
    unfold single_make. cbn [Z.eqb Pos.eqb fermion_make fermion_loop lbind].
    pose proof (site_model io Hio h (GFermion d i) (reachable_inv io Hio h (fresh_reachable io h Fr))) as SM. cbn [gslot] in SM.
    destruct (find_site io (spaces h) 0 (GFermion d i)) as [[o e]|] eqn:FS.
    + destruct SM as [E1 [_ [k [St _]]]]. unfold hs_bit_range in *. cbn [hs_copy hs_es] in *. rewrite E1.
      assert (es_nbits e = 1%nat) by (destruct St as [_ X]; destruct e; try discriminate; reflexivity). rewrite H.
      replace (Z.of_nat o + Z.of_nat 1 - 1)%Z with (Z.of_nat o) by lia. rewrite Z.eqb_refl. cbn [negb].
      destruct d; reflexivity.
    + pose proof (find_site_gen io (spaces h) (GFermion d i) 0) as F. rewrite FS in F. rewrite (F _ Hi) in Cr. discriminate.
Qed.
(** ... and a Hilbert space that was assigned to keeps the old ranges: operators
    are constructed, but get wrong signs.  Here c+_2 |010> = -|110>, for a space
    of three fermions assigned to a space of one fermion. *)
Definition h3 : hspace Z := Eval vm_compute in fst (hs_of_vector ioZ [ESFermion 0%Z; ESFermion 1%Z; ESFermion 2%Z]).
Definition h1 : hspace Z := Eval vm_compute in fst (hs_of_vector ioZ [ESFermion 0%Z]).
Theorem C35_assigned_space_refuted : hs_fresh ioZ h3 /\ hs_fresh ioZ h1 /\
  spaces (hs_assign h1 h3) = spaces h3 /\
  gen_act ioZ int_scalar_ops (fun _ => 0%Z) (fun _ => 0%Z) (spaces h3) (GFermion true 2%Z) 2 = Some ((-1)%Z, 6) /\
  exists a a', make_loperator ioZ [([GFermion true 2%Z], 1%Z)] h3 = LOk [(a, 1%Z)] /\
    make_loperator ioZ [([GFermion true 2%Z], 1%Z)] (hs_assign h1 h3) = LOk [(a', 1%Z)] /\
    mono_run int_scalar_ops (fun _ => 0%Z) (fun _ => 0%Z) a 2 1%Z = AVal (-1)%Z 6 /\
    mono_run int_scalar_ops (fun _ => 0%Z) (fun _ => 0%Z) a' 2 1%Z = AVal 1%Z 6.
Proof.
  split; [|split; [|split; [|split]]].
  - eapply hf_vector with (l := [ESFermion 0%Z; ESFermion 1%Z; ESFermion 2%Z]); [repeat constructor; cbn; lia|vm_compute; reflexivity].
  - eapply hf_vector with (l := [ESFermion 0%Z]); [repeat constructor; cbn; lia|vm_compute; reflexivity].
  - vm_compute. reflexivity.
  - vm_compute. reflexivity.
  - do 2 eexists. split; [vm_compute; reflexivity|]. split; [vm_compute; reflexivity|]. split; vm_compute; reflexivity.
Qed.
Print Assumptions C35_unknown_boson_refuted.
Print Assumptions C35_copied_space_refuted.
Print Assumptions C35_assigned_space_refuted.

(** ** C36: parametric operators.  [val f args] is the value of the functor; a
    functor is called with std::forward-ed arguments, so what it leaves of them
    matters. *)
Section C36.
Context {S V A I : Type} (so : scalar_ops S) (sq : N -> S) (half : Z -> S) (sv : sv_ops V S).
Notation functor := (@functor S A).
(** no functor changes its arguments *)
Definition pure_functors (P : lop functor) : Prop := forall m (f : functor) a, In (m, f) P -> snd (f a) = a.

Lemma eval_pure (P : lop functor) args : pure_functors P -> forall acc,
  eval_coeffs P args acc = acc ++ map (fun mf : _ * functor => fst (snd mf args)) P.
Proof.
  induction P as [|[m f] P IH]; intros H acc; cbn [eval_coeffs map]; [now rewrite app_nil_r|].
  pose proof (H m f args (or_introl eq_refl)) as Q. cbn [snd]. destruct (f args) as [c a'] eqn:E. cbn in Q. subst a'.
  rewrite IH by (intros ? ? ? i; eapply H; right; exact i). rewrite <- app_assoc. cbn [app fst]. reflexivity.
Qed.
Lemma at_pure (P : lop functor) args : pure_functors P -> plop_at P args = map (fun mf : _ * functor => (fst mf, fst (snd mf args))) P.
Proof.
  induction P as [|[m f] P IH]; intros H; cbn [plop_at map]; auto.
  pose proof (H m f args (or_introl eq_refl)) as Q. cbn [fst snd]. destruct (f args) as [c a'] eqn:E. cbn in Q. subst a'.
  rewrite IH by (intros ? ? ? i; eapply H; right; exact i). reflexivity.
Qed.
Lemma act_ec (P : lop functor) args x a dst :
  act_monos_ec so sq half sv P (map (fun mf : _ * functor => fst (snd mf args)) P) x a dst =
  act_monos so sq half sv (map (fun mf : _ * functor => (fst mf, fst (snd mf args))) P) x a dst.
Proof.
  revert dst. induction P as [|[m f] P IH]; intros dst; cbn [act_monos_ec act_monos map fst snd]; auto.
  destruct (mono_run so sq half m x (s_one so)); auto. destruct (sv_add _ _ _ _); auto.
Qed.
Lemma act_entries_ec_eq (P : lop functor) args l dst :
  act_entries_ec so sq half sv P (map (fun mf : _ * functor => fst (snd mf args)) P) l dst =
  act_entries so sq half sv (map (fun mf : _ * functor => (fst mf, fst (snd mf args))) P) l dst.
Proof.
  revert dst. induction l as [|[x a] l IH]; intros dst; cbn; auto. rewrite act_ec. destruct (act_monos _ _ _ _ _ _ _ _); auto.
Qed.

(** P(v, args), P(v, dst, args) and act_and_store_coeffs have the effect of the
    operator P.at(args), whatever the state vector type and the order of
    traversal; the coefficients of P.at(args) are the values of the functors. *)
Theorem C36_at : forall (P : lop functor) args v dst ent old, pure_functors P ->
  plop_apply so sq half sv P v ent args = lop_apply so sq half sv (plop_at P args) v ent /\
  plop_apply_to so sq half sv P ent dst args = lop_apply_to so sq half sv (plop_at P args) ent dst /\
  plop_store so sq half sv P ent dst old args =
    (lop_apply_to so sq half sv (plop_at P args) ent dst, map (fun mf : _ * functor => fst (snd mf args)) P) /\
  plop_at P args = map (fun mf : _ * functor => (fst mf, fst (snd mf args))) P.
Proof.
  intros P args v dst ent old H. unfold plop_apply, plop_apply_to, plop_store, lop_apply, lop_apply_to. cbv zeta.
  rewrite (eval_pure P args H), (at_pure P args H). cbn [app]. rewrite !act_entries_ec_eq. repeat split.
Qed.
End C36.
(** Substituting the arguments commutes with the construction: P.at(args), for P
    made from an expression, is the operator made from the expression with the
    evaluated coefficients (and one construction throws iff the other does). *)
Theorem C36_substitution : forall I (io : index_ops I) S A (h : hspace I) (e : list (list (gen I) * @functor S A)) args,
  (forall m f a, In (m, f) e -> snd (f a) = a) ->
  match make_loperator io e h, make_loperator io (map (fun mf => (fst mf, fst (snd mf args))) e) h with
  | LOk P, LOk Lp => plop_at P args = Lp
  | LUnknown g, LUnknown g' => g = g'
  | LNoAlgebra, LNoAlgebra | LBad, LBad => True
  | _, _ => False
  end.
Proof.
  intros I io S A h e args. unfold make_loperator. induction e as [|[m f] e IH]; intros H; cbn [lop_make map fst snd]; auto.
  destruct (mono_make io h [-3; -2; -1]%Z m) as [a|g| |]; cbn [lbind]; auto.
  specialize (IH (fun m f a i => H m f a (or_intror i))).
  set (e' := map (fun mf : list (gen I) * (A -> S * A) => (fst mf, fst (snd mf args))) e) in *.
  destruct (lop_make io h [(-3)%Z; (-2)%Z; (-1)%Z] e) as [P|g| |], (lop_make io h [(-3)%Z; (-2)%Z; (-1)%Z] e') as [Lp|g'| |]; cbn [lbind]; try contradiction; auto.
  cbn [plop_at]. pose proof (H m f args (or_introl eq_refl)) as Q. destruct (f args) as [c a'] eqn:E. cbn in Q. subst a'. now rewrite IH.
Qed.
(** With a functor that moves from its (rvalue) argument the claim is false: the
    functors of the other monomials see the moved-from argument.  Here both
    functors take a string by value and return its length; P.at("ab") has the
    coefficients 2 and 0. *)
Definition move_len : @functor Z (list N) := fun s => (Z.of_nat (length s), []).
Theorem C36_moved_arguments_refuted :
  map snd (plop_at [([], move_len); ([ActF (mk_fa false 0 1 0 0)], move_len)] [97; 98]) = [2%Z; 0%Z] /\
  map (fun mf : list action * _ => fst (snd mf [97; 98])) [([], move_len); ([ActF (mk_fa false 0 1 0 0)], move_len)] = [2%Z; 2%Z].
Proof. split; reflexivity. Qed.
Print Assumptions C36_at.
Print Assumptions C36_substitution.
Print Assumptions C36_moved_arguments_refuted.

(** ** The hypotheses of C27-C36 are met: real numbers, the space of two
    fermions, a boson with 5 states and a spin 1, and the operator
    c+_0 c_1 a+_0 S+_0 acting on sparse and dense vectors. *)
Definition ex_mono : list (gen Z) := [GFermion true 0%Z; GFermion false 1%Z; GBoson true 0%Z; GSpin 3 Plus 0%Z].
Example lop_hypotheses_met :
  index_order ioZ /\ lop_laws real_ops real_sq real_half /\ scalar_domain real_ops /\
  sv_strict real_ops (sparse_sv real_ops) (sparse_nz real_ops) (sparse_amp real_ops) sp_size /\
  sv_strict real_ops (dense_sv real_ops) (fun _ => True) (dense_amp real_ops) dense_size /\
  hs_fresh ioZ hs_ex /\ Forall int_mult (spaces hs_ex) /\
  canonical_expr ioZ real_ops [(ex_mono, s_one real_ops)] /\
  (exists Lp, make_loperator ioZ [(ex_mono, s_one real_ops)] hs_ex = LOk Lp) /\
  (* a vector with the single amplitude of the basis state |n_1=1, n_b=3, n_s=1> *)
  state_of real_ops (sparse_nz real_ops) (sparse_amp real_ops) sp_size (spaces hs_ex)
    (mk_sparse (2 ^ 7) [(46, s_one real_ops)]).
Proof.
  pose proof real_lop as LL. pose proof (ll_ring _ _ _ LL) as L.
  assert (one0 : s_one real_ops <> s_zero real_ops) by (cbn; apply R1_neq_R0).
  assert (CM : canonical_mono ioZ ex_mono).
  { split; [|split].
    - unfold ex_mono. repeat constructor; right; constructor.
    - intros [|a1 [|a2 [|a3 [|a4 a5]]]] ga gb post0 E C; cbn in E; inversion E; subst; try (inversion C; fail). destruct a5; discriminate.
    - intros (p & q & mu & c & i & n & _ & _ & h2 & E). unfold ex_mono in E.
      destruct n as [|[|n]]; [lia|lia|]. cbn [repeat app] in E.
      destruct p as [|a1 [|a2 [|a3 [|a4 a5]]]]; cbn in E; inversion E; subst; try (destruct a5; discriminate). }
  split; [exact sto_Z|]. split; [exact LL|]. split; [exact real_domain|]. split; [now apply C32_sparse|]. split; [now apply C32_dense|].
  split; [exact hs_ex_fresh|]. split; [destruct hs_ex_facts as [-> _]; repeat constructor; reflexivity|]. split; [|split].
  - split; [repeat constructor|]. intros m c [E|[]]. inversion E; subst. auto.
  - apply (C35_no_bosons Z ioZ _ hs_ex [(ex_mono, s_one real_ops)] sto_Z hs_ex_fresh).
    + intros m c [E|[]]. inversion E; subst. exact CM.
    + intros m c g [E|[]] Hg. inversion E; subst. destruct hs_ex_facts as [-> _]. unfold ex_mono in Hg.
      destruct Hg as [<-|[<-|[<-|[<-|[]]]]].
      * exists (ESFermion 0%Z). split; [cbn; auto|reflexivity].
      * exists (ESFermion 1%Z). split; [cbn; auto|reflexivity].
      * exists (ESBoson 5 0%Z). split; [cbn; auto|reflexivity].
      * exists (ESSpin 3 0%Z). split; [cbn; auto|reflexivity].
  - split; [|split].
    + repeat constructor; cbn; auto.
    + vm_compute. discriminate.
    + intros x hx. assert (x = 46) as ->.
      { unfold sparse_amp, dat_amp in hx. cbn [sp_data sp_find] in hx. destruct (N.eq_dec x 46) as [E|E]; auto.
        exfalso. apply hx. destruct (N.eqb_spec 46 x); [congruence|]. destruct (N.eqb_spec x 46); [congruence|]. reflexivity. }
      split; [vm_compute; reflexivity|].
      destruct hs_ex_facts as [-> _]. intros [|[|[|[|k]]]] e E; cbn in E; try (destruct k; discriminate); inversion E; subst; vm_compute; reflexivity.
Qed.
