(** Actions with exact scalars simulate actions with real scalars. *)
From Coq Require Import NArith ZArith List Bool Sorted Permutation Lia QArith Qcanon Qreals Reals Lra.
From Verif Require Import BitsModel BitsSpec BitsProofs ExprModel ExprSpec ExprOrder ExprMap ExprEval ExprInst
  HSModel HSSpec HSEnum HSProofs HSMain LOpModel LOpSpec LOpFermion LOpSite LOpActF LOpActB LOpActS LOpComm LOpApply
  LOpMatrix LOpThrow LOpMain LOpReal ExactModel ExactSpec.
Import ListNotations.
Close Scope R_scope.
Close Scope Qc_scope.
Close Scope Q_scope.
Close Scope nat_scope.
Open Scope N_scope.
Open Scope list_scope.

(** ** The conversion of doubles *)
Lemma sqrt_square n : (0 <= n)%Z -> sqrt (IZR (n * n)) = IZR n.
Proof. intros H. rewrite mult_IZR. apply sqrt_square. now apply IZR_le. Qed.
Lemma int_const_exact d z : int_const d = Some z -> dreal d = IZR z.
Proof.
  destruct d as [n|w p]; cbn [int_const dreal].
  - destruct (N.eqb_spec (N.sqrt n * N.sqrt n) n) as [E|]; [|discriminate]. intros H. inversion H; subst z.
    rewrite <- E at 1. rewrite N2Z.inj_mul. apply sqrt_square. lia.
  - destruct ((p =? 0)%nat || Z.even w) eqn:E; [|discriminate]. intros H. inversion H; subst z.
    apply orb_true_iff in E. destruct E as [E|E].
    + apply Nat.eqb_eq in E. subst p. reflexivity.
    + rewrite <- pow_IZR. f_equal.
      apply Zeven_bool_iff, Zeven_div2 in E. rewrite Z.div2_div in E. rewrite E at 1. rewrite mult_IZR. field.
Qed.
Lemma odd_pow w p : Z.odd w = true -> Z.odd (w ^ Z.of_nat p) = true.
Proof.
  intros H. destruct p as [|p]; [reflexivity|]. rewrite Z.odd_pow by lia. exact H.
Qed.
Lemma int_const_total d : is_int (dreal d) -> int_const d <> None.
Proof.
  destruct d as [n|w p]; cbn [int_const dreal]; intros [z E].
  - destruct (N.eqb_spec (N.sqrt n * N.sqrt n) n) as [|ne]; [discriminate|]. exfalso. apply ne.
    assert (P : (0 <= IZR z)%R) by (rewrite <- E; apply sqrt_pos). apply le_IZR in P.
    assert (Q : Z.of_N n = (z * z)%Z).
    { apply eq_IZR. rewrite mult_IZR, <- E, sqrt_sqrt; auto. apply IZR_le. lia. }
    assert (Q' : n = Z.to_N z * Z.to_N z) by lia. rewrite Q', N.sqrt_square. reflexivity.
  - destruct ((p =? 0)%nat || Z.even w) eqn:B; [discriminate|]. exfalso. apply orb_false_iff in B. destruct B as [B1 B2].
    apply Nat.eqb_neq in B1. rewrite <- Z.negb_odd in B2. apply negb_false_iff in B2.
    assert (Q : (w ^ Z.of_nat p = z * 2 ^ Z.of_nat p)%Z).
    { apply eq_IZR. rewrite mult_IZR, <- !pow_IZR, <- E. unfold Rdiv. rewrite Rpow_mult_distr, Rmult_assoc, <- Rpow_mult_distr.
      rewrite Rinv_l by lra. rewrite pow1. ring. }
    pose proof (odd_pow w p B2) as O. rewrite Q, Z.odd_mul, Z.odd_pow in O by lia. rewrite andb_false_r in O. discriminate.
Qed.
Lemma int_exact : exact_scalars int_scalar_ops int_const int_phi.
Proof.
  constructor; unfold int_phi; cbn.
  - reflexivity.
  - reflexivity.
  - apply plus_IZR.
  - apply mult_IZR.
  - apply opp_IZR.
  - apply eq_IZR.
  - intros d s H. symmetry. now apply int_const_exact.
  - intros d. split.
    + destruct (int_const d) as [z|] eqn:E; [|congruence]. intros _. exists z. now apply int_const_exact.
    + apply int_const_total.
Qed.
Lemma Q2R_Q2Qc q : Q2R (Q2Qc q) = Q2R q.
Proof. apply Qeq_eqR. apply Qred_correct. Qed.
Lemma Q2R_inject z : Q2R (inject_Z z) = IZR z.
Proof. unfold Q2R. cbn. field. Qed.
Lemma rat_exact : exact_scalars rational_scalar_ops rat_mk rat_phi.
Proof.
  constructor; unfold rat_phi, rat_mk; cbn [s_zero s_one s_add s_mul s_neg rational_scalar_ops].
  - rewrite Q2R_Q2Qc. apply (Q2R_inject 0).
  - rewrite Q2R_Q2Qc. apply (Q2R_inject 1).
  - intros x y. unfold Qcplus. rewrite Q2R_Q2Qc. apply Q2R_plus.
  - intros x y. unfold Qcmult. rewrite Q2R_Q2Qc. apply Q2R_mult.
  - intros x. unfold Qcopp. rewrite Q2R_Q2Qc. apply Q2R_opp.
  - intros x y H. apply Qc_is_canon. now apply eqR_Qeq.
  - intros d s. destruct (int_const d) as [z|] eqn:E; cbn; intros H; inversion H; subst.
    rewrite Q2R_Q2Qc, Q2R_inject. symmetry. now apply int_const_exact.
  - intros d. split.
    + destruct (int_const d) as [z|] eqn:E; [|cbn; congruence]. intros _. exists z. now apply int_const_exact.
    + intros H. apply int_const_total in H. destruct (int_const d); cbn; congruence.
Qed.

(** ** Simulation *)
Section Sim.
Context {S : Type} (so : scalar_ops S) (mk : dval -> option S) (phi : S -> R) (X : exact_scalars so mk phi).
Notation rrun := (mono_run real_ops real_sq real_half).

Definition sim (t : tres S) (a : ares R) : Prop :=
  match t with TZero => a = AZero | TVal c i => a = AVal (phi c) i | TThrow => True | TBad => a = ABad end.

Lemma sim_roots size ns : forall c,
  match x_mul_roots so mk size ns c with
  | XOk c' => mul_roots real_ops real_sq size ns (phi c) = Some (phi c')
  | XThrow => True
  | XBad => mul_roots real_ops real_sq size ns (phi c) = None \/ True
  end.
Proof.
  induction ns as [|n ns IH]; intros c; cbn [x_mul_roots mul_roots]; auto.
  unfold x_sqr_root, sqr_root. destruct (n <? max_sqrt) eqn:M; cbn [andb].
  - destruct (N.leb_spec size n) as [h|h]; cbn; auto. rewrite (proj2 (N.ltb_lt n size)) by lia.
    destruct (mk (DSqrt n)) as [r|] eqn:E; auto. specialize (IH (s_mul so c r)).
    rewrite (ex_mul _ _ _ X), (ex_mk _ _ _ X _ _ E) in IH. exact IH.
  - destruct (mk (DSqrt n)) as [r|] eqn:E; auto. specialize (IH (s_mul so c r)).
    rewrite (ex_mul _ _ _ X), (ex_mk _ _ _ X _ _ E) in IH. exact IH.
Qed.
(** a read beyond the table is met by the real action as well, unless ... *)
Lemma bad_roots size ns : forall c c', x_mul_roots so mk size ns c = XBad -> mul_roots real_ops real_sq size ns c' = None.
Proof.
  induction ns as [|n ns IH]; intros c c'; cbn [x_mul_roots mul_roots]; [discriminate|].
  unfold x_sqr_root, sqr_root. destruct (n <? max_sqrt) eqn:M; cbn [andb].
  - destruct (N.leb_spec size n) as [h|h]; cbn.
    + rewrite (proj2 (N.ltb_ge n size)) by lia. auto.
    + rewrite (proj2 (N.ltb_lt n size)) by lia. destruct (mk (DSqrt n)); [|discriminate]. eauto.
  - destruct (mk (DSqrt n)); [|discriminate]. eauto.
Qed.
Lemma spow_real x n : spow real_ops x n = (x ^ n)%R.
Proof. induction n as [|n IH]; [reflexivity|]. cbn [spow pow]. now rewrite IH. Qed.

Lemma sim_boson size u x c : sim (x_boson_update_act so mk size u x c) (boson_update_act real_ops real_sq size u x (phi c)).
Proof.
  unfold x_boson_update_act, boson_update_act. destruct (_ || _); [reflexivity|].
  match goal with |- context [x_mul_roots _ _ _ ?l _] => set (ns := l) end.
  pose proof (sim_roots size ns c) as H. pose proof (bad_roots size ns c (phi c)) as B.
  destruct (x_mul_roots so mk size ns c); cbn [sim]; auto.
  - now rewrite H.
  - now rewrite B.
Qed.
Lemma sim_spin size u x c : sim (x_spin_update_act so mk size u x c) (spin_update_act real_ops real_sq real_half size u x (phi c)).
Proof.
  unfold x_spin_update_act, spin_update_act. destruct (su_c u).
  - destruct (_ <? _); [reflexivity|].
    match goal with |- context [x_mul_roots _ _ _ ?l _] => set (ns := l) end.
    pose proof (sim_roots size ns c) as H. pose proof (bad_roots size ns c (phi c)) as B.
    destruct (x_mul_roots so mk size ns c); cbn [sim]; auto; [now rewrite H|now rewrite B].
  - destruct (_ <? _); [reflexivity|].
    match goal with |- context [x_mul_roots _ _ _ ?l _] => set (ns := l) end.
    pose proof (sim_roots size ns c) as H. pose proof (bad_roots size ns c (phi c)) as B.
    destruct (x_mul_roots so mk size ns c); cbn [sim]; auto; [now rewrite H|now rewrite B].
  - destruct (_ && _); [reflexivity|]. destruct (mk _) as [f|] eqn:E; cbn [sim]; auto.
    rewrite (ex_mul _ _ _ X), (ex_mk _ _ _ X _ _ E), spow_real. reflexivity.
Qed.
Lemma sim_run {U} (f : U -> N -> S -> tres S) (g : U -> N -> R -> ares R) us :
  (forall u x c, In u us -> sim (f u x c) (g u x (phi c))) -> forall x c, sim (x_run f us x c) (run_updates g us x (phi c)).
Proof.
  induction us as [|u us IH]; intros H x c; cbn [x_run run_updates]; [reflexivity|].
  pose proof (H u x c (or_introl eq_refl)) as Hu. destruct (f u x c) as [|c' i| |]; cbn [sim] in Hu; rewrite ?Hu; cbn [sim]; auto.
  apply IH. intros; apply H; cbn; auto.
Qed.
Lemma sim_single a x c : sim (x_single_act so mk a x c) (single_act real_ops real_sq real_half a x (phi c)).
Proof.
  destruct a as [a|a|a]; cbn [x_single_act single_act].
  - unfold x_fermion_act, fermion_act. destruct (fa_const a); [reflexivity|].
    destruct (negb _); [reflexivity|]. destruct (negb _); [reflexivity|]. cbn [sim].
    destruct (parity _); auto. f_equal. rewrite (ex_mul _ _ _ X). unfold minus_one. now rewrite (ex_neg _ _ _ X), (ex_1 _ _ _ X).
  - unfold x_boson_act, boson_act. destruct (ba_vanishing a); [reflexivity|]. apply sim_run. intros. apply sim_boson.
  - unfold x_spin_act, spin_act. apply sim_run. intros. apply sim_spin.
Qed.
Lemma sim_mono l x c : sim (x_mono_run so mk l x c) (rrun l x (phi c)).
Proof. apply sim_run. intros. apply sim_single. Qed.
End Sim.

(** ** Application to vectors *)
Lemma lop_make_map {I C D} (io : index_ops I) (f : C -> D) h ids (e : list (list (gen I) * C)) Lp : lop_make io h ids e = LOk Lp ->
  lop_make io h ids (map (fun p => (fst p, f (snd p))) e) = LOk (map (fun p => (fst p, f (snd p))) Lp).
Proof.
  revert Lp. induction e as [|[m c] e IH]; intros Lp E; cbn [lop_make map fst snd] in *; [now inversion E|].
  destruct (mono_make io h ids m) as [a| | |]; try discriminate. cbn [lbind] in *.
  destruct (lop_make io h ids e) as [Lt| | |]; try discriminate. cbn [lbind] in *. rewrite (IH Lt eq_refl). inversion E; subst. reflexivity.
Qed.

Section Vec.
Context {I S V : Type} (io : index_ops I) (Hio : index_order io) (so : scalar_ops S) (L : scalar_laws so)
  (mk : dval -> option S) (phi : S -> R) (X : exact_scalars so mk phi)
  (sv : sv_ops V S) (ok : V -> Prop) (amp : V -> N -> S) (size : V -> N) (SV : sv_laws so sv ok amp size).
Notation rmel := (mel io real_ops real_sq real_half).
Notation impl := (implements io real_ops real_sq real_half).

Definition x_impl (l : list (espace I)) (e : list (list (gen I) * S)) (Lp : lop S) : Prop :=
  Forall2 (fun mc ac => impl l (mono_run real_ops real_sq real_half (fst ac)) (fst mc) /\ snd mc = snd ac) e Lp.

Lemma x_monos_spec l e Lp : StronglySorted (es_before io) l -> Forall es_wf l -> x_impl l e Lp ->
  forall x a dst, valid_state l x -> ok dst -> 2 ^ N.of_nat (total_bits l) <= size dst ->
  match x_act_monos so mk sv Lp x a dst with
  | VOk dst' => ok dst' /\ size dst' = size dst /\
      forall y, phi (amp dst' y) = (phi (amp dst y) + rmel l (real_expr phi e) y x * phi a)%R
  | VThrow d => ok d /\ size d = size dst /\ exists acts c, In (acts, c) Lp /\ x_mono_run so mk acts x (s_one so) = TThrow
  | VBad => False
  end.
Proof.
  intros S0 W. induction 1 as [|[m c] [acts c'] e Lp [Hm Hc] F IH]; intros x a dst V0 O Sz; cbn [x_act_monos].
  - repeat split; auto. intros y. cbn. ring.
  - cbn [fst snd] in *. subst c'. pose proof (sim_mono so mk phi X acts x (s_one so)) as Si. rewrite (ex_1 _ _ _ X) in Si.
    destruct (x_mono_run so mk acts x (s_one so)) as [|k z| |] eqn:Er; cbn [sim] in Si.
    + destruct (Hm x 1%R V0) as [[k' [z' [E1 E2]]]|[E1 E2]]; [rewrite E2 in Si; discriminate|].
      specialize (IH x a dst V0 O Sz). destruct (x_act_monos so mk sv Lp x a dst) as [d2|d2|]; auto.
      * destruct IH as [O2 [Z2 A2]]. repeat split; auto. intros y. rewrite A2. unfold real_expr. cbn [map fst snd LOpSpec.mel].
        rewrite (E2 y). cbn. ring.
      * destruct IH as [O2 [Z2 [ac [cc [i T]]]]]. repeat split; auto. exists ac, cc. cbn; auto.
    + destruct (Hm x 1%R V0) as [[k' [z' [E1 E2]]]|[E1 E2]]; [|rewrite E1 in Si; discriminate].
      rewrite Si in E2. injection E2 as Ek <-.
      assert (Vz : valid_state l z) by (exact (mono_act_valid io Hio real_ops real_sq real_half real_laws l m S0 W x k' z V0 E1)).
      destruct (svl_add _ _ _ _ _ SV dst z (s_mul so (s_mul so c k) a) O) as [d1 [-> [O1 [Z1 A1]]]].
      { destruct Vz as [hz _]. lia. }
      assert (Sz1 : 2 ^ N.of_nat (total_bits l) <= size d1) by lia.
      specialize (IH x a d1 V0 O1 Sz1). destruct (x_act_monos so mk sv Lp x a d1) as [d2|d2|]; auto.
      * destruct IH as [O2 [Z2 A2]]. repeat split; auto; [congruence|]. intros y. rewrite A2, A1. unfold real_expr. cbn [map fst snd LOpSpec.mel].
        rewrite E1. cbn [amp1]. cbn in Ek. destruct (N.eqb_spec z y); cbn; [|ring].
        rewrite (ex_add _ _ _ X), !(ex_mul _ _ _ X), Ek. cbn. ring.
      * destruct IH as [O2 [Z2 [ac [cc [i T]]]]]. repeat split; auto; [congruence|]. exists ac, cc. cbn; auto.
    + repeat split; auto. exists acts, c. cbn; auto.
    + destruct (Hm x 1%R V0) as [[k' [z' [E1 E2]]]|[E1 E2]]; congruence.
Qed.
Lemma x_entries_spec l e Lp : StronglySorted (es_before io) l -> Forall es_wf l -> x_impl l e Lp ->
  forall ent dst, Forall (fun p => valid_state l (fst p)) ent -> ok dst -> 2 ^ N.of_nat (total_bits l) <= size dst ->
  match x_act_entries so mk sv Lp ent dst with
  | VOk dst' => ok dst' /\ size dst' = size dst /\
      forall y, phi (amp dst' y) = (phi (amp dst y) + esum real_ops (rmel l (real_expr phi e) y) (map (fun p => (fst p, phi (snd p))) ent))%R
  | VThrow d => ok d /\ size d = size dst /\
      exists acts c x, In (acts, c) Lp /\ In x (map fst ent) /\ x_mono_run so mk acts x (s_one so) = TThrow
  | VBad => False
  end.
Proof.
  intros S0 W HL. induction ent as [|[x a] ent IH]; intros dst F O Sz; cbn [x_act_entries].
  - repeat split; auto. intros y. cbn. ring.
  - inversion F as [|? ? Vx F']; subst. cbn [fst] in Vx.
    pose proof (x_monos_spec l e Lp S0 W HL x a dst Vx O Sz) as M.
    destruct (x_act_monos so mk sv Lp x a dst) as [d1|d1|]; auto.
    + destruct M as [O1 [Z1 A1]]. assert (Sz1 : 2 ^ N.of_nat (total_bits l) <= size d1) by lia.
      specialize (IH d1 F' O1 Sz1). destruct (x_act_entries so mk sv Lp ent d1) as [d2|d2|]; auto.
      * destruct IH as [O2 [Z2 A2]]. repeat split; auto; [congruence|]. intros y. rewrite A2, A1. cbn [map fst snd esum]. cbn. ring.
      * destruct IH as [O2 [Z2 [ac [cc [z [i [j T]]]]]]]. repeat split; auto; [congruence|]. exists ac, cc, z. cbn; auto.
    + destruct M as [O1 [Z1 [ac [cc [i T]]]]]. repeat split; auto. exists ac, cc, x. cbn; auto.
Qed.
End Vec.

(** ** No exception means: integer factors only *)
Section Ints.
Context {S : Type} (so : scalar_ops S) (mk : dval -> option S) (phi : S -> R) (X : exact_scalars so mk phi).
Definition int_val (t : tres S) : Prop := match t with TVal c _ => is_int (phi c) | _ => True end.
Lemma mk_int d s : mk d = Some s -> is_int (phi s).
Proof. intros E. rewrite (ex_mk _ _ _ X _ _ E). apply (ex_int _ _ _ X). congruence. Qed.
Lemma is_int_mul a b : is_int (phi a) -> is_int (phi b) -> is_int (phi (s_mul so a b)).
Proof. intros [x Ex] [y Ey]. exists (x * y)%Z. now rewrite (ex_mul _ _ _ X), Ex, Ey, mult_IZR. Qed.
Lemma roots_int size ns : forall c c', is_int (phi c) -> x_mul_roots so mk size ns c = XOk c' -> is_int (phi c').
Proof.
  induction ns as [|n ns IH]; intros c c' Hc E; cbn [x_mul_roots] in E; [inversion E; subst; auto|].
  unfold x_sqr_root in E. destruct (_ && _); [discriminate|]. destruct (mk (DSqrt n)) as [r|] eqn:Em; [|discriminate].
  eapply IH; [|exact E]. apply is_int_mul; auto. eapply mk_int; eauto.
Qed.
Lemma run_int {U} (f : U -> N -> S -> tres S) us : (forall u x c, is_int (phi c) -> int_val (f u x c)) ->
  forall x c, is_int (phi c) -> int_val (x_run f us x c).
Proof.
  intros H. induction us as [|u us IH]; intros x c Hc; cbn [x_run]; [exact Hc|].
  pose proof (H u x c Hc) as Hu. destruct (f u x c); cbn in *; auto.
Qed.
Lemma single_int a x c : is_int (phi c) -> int_val (x_single_act so mk a x c).
Proof.
  intros Hc. destruct a as [a|a|a]; cbn [x_single_act].
  - unfold x_fermion_act, fermion_act. destruct (fa_const a); [exact Hc|]. destruct (negb _); [exact Logic.I|].
    destruct (negb _); [exact Logic.I|]. cbn [int_val]. destruct (parity _); auto. apply is_int_mul; auto.
    exists (-1)%Z. unfold minus_one. rewrite (ex_neg _ _ _ X), (ex_1 _ _ _ X). reflexivity.
  - unfold x_boson_act. destruct (ba_vanishing a); [exact Logic.I|]. apply run_int; auto. clear - X. intros u x c Hc.
    unfold x_boson_update_act. destruct (_ || _); [exact Logic.I|].
    destruct (x_mul_roots so mk _ _ c) eqn:E; cbn [int_val]; auto. eapply roots_int; eauto.
  - unfold x_spin_act. apply run_int; auto. clear - X. intros u x c Hc.
    unfold x_spin_update_act. destruct (su_c u).
    + destruct (_ <? _); [exact Logic.I|]. destruct (x_mul_roots so mk _ _ c) eqn:E; cbn [int_val]; auto. eapply roots_int; eauto.
    + destruct (_ <? _); [exact Logic.I|]. destruct (x_mul_roots so mk _ _ c) eqn:E; cbn [int_val]; auto. eapply roots_int; eauto.
    + destruct (_ && _); [exact Logic.I|]. destruct (mk _) as [f|] eqn:E; cbn [int_val]; auto. apply is_int_mul; auto. eapply mk_int; eauto.
Qed.
Lemma mono_int l x c : is_int (phi c) -> int_val (x_mono_run so mk l x c).
Proof. apply run_int. intros. now apply single_int. Qed.

Context {V : Type} (sv : sv_ops V S).
Lemma ok_monos Lp x a : forall dst w, x_act_monos so mk sv Lp x a dst = VOk w ->
  forall acts c, In (acts, c) Lp -> x_mono_run so mk acts x (s_one so) <> TThrow.
Proof.
  induction Lp as [|[m c] Lp IH]; intros dst w E acts c' i; [destruct i|]. cbn [x_act_monos] in E.
  destruct (x_mono_run so mk m x (s_one so)) as [|k z| |] eqn:Em; try discriminate.
  - destruct i as [Ei|i]; [inversion Ei; subst; congruence|]. eapply IH; eauto.
  - destruct (sv_add _ _ _ _); try discriminate. destruct i as [Ei|i]; [inversion Ei; subst; congruence|]. eapply IH; eauto.
Qed.
Lemma ok_entries Lp l : forall dst w, x_act_entries so mk sv Lp l dst = VOk w ->
  forall acts c x, In (acts, c) Lp -> In x (map fst l) -> x_mono_run so mk acts x (s_one so) <> TThrow.
Proof.
  induction l as [|[x a] l IH]; intros dst w E acts c z i j; [destruct j|]. cbn [x_act_entries] in E.
  destruct (x_act_monos so mk sv Lp x a dst) as [d|d|] eqn:Em; try discriminate.
  destruct j as [<-|j]; [eapply ok_monos; eauto|eapply IH; eauto].
Qed.
End Ints.

(** ** Operators that never throw *)
Section Never.
Context {I S : Type} (io : index_ops I) (Hio : index_order io) (so : scalar_ops S) (mk : dval -> option S) (phi : S -> R) (X : exact_scalars so mk phi).

Definition su_int (u : spin_update) : Prop :=
  1 <= su_power u /\
  match su_c u with Zcomp => N.even (su_s2 u) = true | _ => su_s2 u = 1 /\ su_mask u = 1 end.
Lemma spin_loop_int (h : hspace I) m : hs_inv io h -> Forall int_gen m -> forall power size ups ups' size',
  1 <= power -> Forall su_int ups ->
  spin_loop io h m power size ups = LOk (ups', size') -> Forall su_int ups'.
Proof.
  intros Hi. induction 1 as [|g t Hg F IH]; intros power size ups ups' size' hp Hu E; cbn [spin_loop] in E; [inversion E; subst; auto|].
  destruct g as [d i|d i|mm c i]; try discriminate. destruct (last_of_run io (GSpin mm c i) t).
  - pose proof (site_model io Hio h (GSpin mm c i) Hi) as SM. cbn [gslot] in SM.
    destruct (find_site io (spaces h) 0 (GSpin mm c i)) as [[o e]|]; [|destruct SM as [SM _]; rewrite SM in E; discriminate].
    destruct SM as [SM [_ [k [[_ C] _]]]]. rewrite SM in E.
    eapply IH; [| |exact E]; [lia|]. apply Forall_app. split; auto. constructor; auto. split; auto. cbn [su_c su_s2 su_mask].
    assert (P : mm = 2%nat -> N.of_nat mm - 1 = 1 /\
      sub64 (w64 (N.shiftl 1 (Z.to_N (Z.of_nat o + Z.of_nat (es_nbits e) - 1 - Z.of_nat o + 1)))) 1 = 1).
    { intros ->. split; [reflexivity|]. destruct e as [j|d j|m' j]; cbn [carries] in C; try discriminate.
      apply andb_true_iff in C. destruct C as [C _]. apply Nat.eqb_eq in C. subst m'.
      replace (Z.of_nat o + Z.of_nat (es_nbits (ESSpin 2 j)) - 1 - Z.of_nat o + 1)%Z with 1%Z by (cbn; lia). reflexivity. }
    destruct c; cbn [int_gen] in Hg; auto.
    replace (N.of_nat mm - 1) with (N.of_nat (mm - 1)) by lia.
    apply Nat.odd_spec in Hg. destruct Hg as [q Hg]. apply N.even_spec. exists (N.of_nat q). lia.
  - eapply IH; [| |exact E]; auto. lia.
Qed.
Lemma mk_total d : is_int (dreal d) -> exists s, mk d = Some s.
Proof. intros H. apply (ex_int _ _ _ X) in H. destruct (mk d); eauto. congruence. Qed.
Lemma dsqrt1 : is_int (dreal (DSqrt 1)).
Proof. exists 1%Z. cbn. apply sqrt_1. Qed.
Lemma spin_int size u x c : su_int u -> x_spin_update_act so mk size u x c <> TThrow.
Proof.
  intros [hp H]. unfold x_spin_update_act. destruct mk_total with (d := DSqrt 1) as [r1 E1]; [apply dsqrt1|].
  assert (R1 : forall sz, x_mul_roots so mk sz [1] c <> XThrow).
  { intros sz. cbn [x_mul_roots]. unfold x_sqr_root. destruct (_ && _); [discriminate|]. rewrite E1. discriminate. }
  destruct (su_c u).
  - destruct H as [-> _]. destruct (N.ltb_spec 1 (N.land (N.shiftr x (Z.to_N (su_shift u))) (su_mask u) + su_power u)) as [|h]; [discriminate|].
    assert (P : N.land (N.shiftr x (Z.to_N (su_shift u))) (su_mask u) = 0 /\ su_power u = 1) by lia. destruct P as [-> ->].
    replace (map _ (zrange (N.to_nat 1))) with [1] by reflexivity.
    specialize (R1 size). destruct (x_mul_roots so mk size [1] c); congruence.
  - destruct H as [-> Hm]. rewrite Hm.
    set (n := N.land (N.shiftr x (Z.to_N (su_shift u))) 1).
    assert (hn : n <= 1).
    { unfold n. change 1 with (N.ones 1). rewrite N.land_ones. apply N.lt_succ_r. apply N.mod_lt. discriminate. }
    destruct (N.ltb_spec n (su_power u)) as [|h]; [discriminate|].
    assert (P : n = 1 /\ su_power u = 1) by lia. destruct P as [-> ->].
    replace (map _ (zrange (N.to_nat 1))) with [1] by reflexivity.
    specialize (R1 size). destruct (x_mul_roots so mk size [1] c); congruence.
  - destruct (_ && _); [discriminate|]. apply N.even_spec in H. destruct H as [q Hq].
    edestruct mk_total as [s ->]; [|discriminate]. rewrite Hq. exists ((Z.of_N (N.land (N.shiftr x (Z.to_N (su_shift u))) (su_mask u)) - Z.of_N q) ^ Z.of_nat (N.to_nat (su_power u)))%Z.
    cbn [dreal]. rewrite <- pow_IZR. f_equal. rewrite N2Z.inj_mul, <- Z.mul_sub_distr_l. rewrite mult_IZR. change (Z.of_N 2) with 2%Z. field.
Qed.
Lemma run_never {U} (f : U -> N -> S -> tres S) us : (forall u x c, In u us -> f u x c <> TThrow) -> forall x c, x_run f us x c <> TThrow.
Proof.
  induction us as [|u us IH]; intros H x c; cbn [x_run]; [discriminate|].
  pose proof (H u x c (or_introl eq_refl)). destruct (f u x c); try discriminate; try congruence. apply IH. intros; apply H; cbn; auto.
Qed.
Lemma single_never (h : hspace I) id m a : hs_inv io h -> Forall int_gen m -> single_make io h id m = LOk a ->
  forall x c, x_single_act so mk a x c <> TThrow.
Proof.
  intros Hi F E x c. unfold single_make in E. destruct (Z.eqb id (-3)); [|destruct (Z.eqb id (-2)); [|destruct (Z.eqb id (-1)); [|discriminate]]].
  - destruct (fermion_make io h m) as [f| | |]; try discriminate. inversion E; subst. cbn [x_single_act]. unfold x_fermion_act.
    destruct (fermion_act so f x c); discriminate.
  - unfold boson_make in E. destruct F as [|g t Hg F].
    + cbn in E. inversion E; subst. cbn. discriminate.
    + cbn [boson_loop] in E. destruct g; cbn in Hg; try contradiction; cbn in E; discriminate.
  - unfold spin_make in E. destruct (spin_loop io h m 1 0 []) as [[ups size]| | |] eqn:El; try discriminate. cbn [lbind] in E. inversion E; subst.
    pose proof (spin_loop_int h m Hi F 1 0 [] ups size ltac:(lia) ltac:(auto) El) as Hu. cbn [x_single_act]. unfold x_spin_act. cbn [sa_updates sa_sqrt].
    apply run_never. intros u z k i. apply spin_int. rewrite Forall_forall in Hu. apply Hu. now apply in_rev.
Qed.
Lemma subrange_app id (m a b : list (gen I)) : algebra_subrange id m = LOk (a, b) -> m = a ++ b.
Proof.
  revert a b. induction m as [|g m IH]; intros a b E; cbn [algebra_subrange] in E; [inversion E; subst; reflexivity|].
  destruct (_ <? _)%Z; [discriminate|]. destruct (_ =? _)%Z; [|inversion E; subst; reflexivity].
  destruct (algebra_subrange id m) as [[a' b']| | |]; try discriminate. cbn [lbind] in E. inversion E; subst. cbn. f_equal. now apply IH.
Qed.
Lemma mono_never (h : hspace I) m : hs_inv io h -> forall ids l, Forall int_gen m -> mono_make io h ids m = LOk l ->
  forall x c, x_mono_run so mk l x c <> TThrow.
Proof.
  intros Hi ids. revert m. induction ids as [|id ids IH]; intros m l F E; cbn [mono_make] in E.
  - destruct m; inversion E; subst. intros x c. discriminate.
  - destruct ids as [|id' ids].
    + destruct (single_make io h id m) as [a| | |] eqn:Es; try discriminate. inversion E; subst. intros x c. unfold x_mono_run. apply run_never.
      intros u z k [<-|[]]. eapply single_never; eauto.
    + destruct (algebra_subrange id m) as [[mh mt]| | |] eqn:Ea; try discriminate. cbn [lbind] in E.
      destruct (single_make io h id mh) as [a| | |] eqn:Es; try discriminate. cbn [lbind] in E.
      destruct (mono_make io h (id' :: ids) mt) as [l'| | |] eqn:El; try discriminate. cbn [lbind] in E. inversion E; subst.
      apply subrange_app in Ea. subst m. apply Forall_app in F. destruct F as [F1 F2].
      intros x c. unfold x_mono_run. cbn [x_run]. pose proof (single_never h id mh a Hi F1 Es x c) as H1.
      destruct (x_single_act so mk a x c); try discriminate; try congruence. now apply (IH mt l' F2 El).
Qed.
Lemma lop_never (h : hspace I) ids e Lp : hs_inv io h -> (forall m c, In (m, c) e -> Forall int_gen m) -> lop_make io h ids e = LOk Lp ->
  forall acts (c : S) x k, In (acts, c) Lp -> x_mono_run so mk acts x k <> TThrow.
Proof.
  intros Hi. revert Lp. induction e as [|[m c] e IH]; intros Lp H E acts c' x k i; cbn [lop_make] in E; [inversion E; subst; destruct i|].
  destruct (mono_make io h ids m) as [l| | |] eqn:Em; try discriminate. cbn [lbind] in E.
  destruct (lop_make io h ids e) as [Lt| | |] eqn:El; try discriminate. cbn [lbind] in E. inversion E; subst.
  destruct i as [Ei|i].
  - inversion Ei; subst. refine (mono_never h m Hi ids acts (H m c' (or_introl eq_refl)) Em x k).
  - eapply IH; eauto. intros; eapply H; cbn; eauto.
Qed.
End Never.
