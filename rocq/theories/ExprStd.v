(** The structure constants of the built-in algebras are sound. *)
From Coq Require Import ZArith Bool Lia List Setoid Morphisms Ncring Ncring_tac.
From Verif Require Import ExprModel ExprSpec ExprOrder ExprMap ExprEval.
Import ListNotations.
Open Scope nat_scope.
Open Scope list_scope.

Section Halves.
Context {S : Type} (so : scalar_ops S) (L : scalar_laws so).
Lemma make_half h : s_make so (VRat 1 2) = Some h -> s_add so h h = s_one so.
Proof.
  intros E. apply (sl_make_rat _ L) in E. simpl in E.
  now rewrite !(s_add_0_r so L) in E.
Qed.
Lemma make_mhalf h : s_make so (VRat (-1) 2) = Some h ->
  s_add so (s_neg so h) (s_neg so h) = s_one so.
Proof.
  intros E. apply (sl_make_rat _ L) in E. simpl in E.
  rewrite !(s_add_0_r so L) in E.
  rewrite <- (s_neg_add so L), E. apply (s_neg_neg so L).
Qed.
Lemma make_quarter q : s_make so (VRat 1 4) = Some q ->
  exists h, s_add so h h = s_one so /\ s_mul so h h = q.
Proof.
  intros E. apply (sl_make_rat _ L) in E. simpl in E.
  rewrite !(s_add_0_r so L) in E.
  exists (s_add so q q).
  assert (K : s_add so (s_add so q q) (s_add so q q) = s_one so).
  { rewrite <- (sl_add_assoc _ L). exact E. }
  split; auto.
  rewrite (sl_dist_r _ L), <- (sl_dist_l _ L).
  now rewrite K, (sl_mul_1_r _ L).
Qed.
End Halves.

(** The relations of the built-in algebras for the generators in a set [K]
    only (all of them when [K] is always true). *)
Record relations_on {I S R} (K : gen I -> Prop) (so : scalar_ops S) (ro : ring_ops R)
  (inj : S -> R) (rho : gen I -> R) : Prop := {
  (* fermions: canonical anticommutation relations *)
  kr_c_sq : forall d i, K (GFermion d i) -> 
    req ro (rmul ro (rho (GFermion d i)) (rho (GFermion d i))) (r0 ro);
  kr_c_anti : forall d d' i j, K (GFermion d i) -> K (GFermion d' j) -> i <> j ->
    req ro (rmul ro (rho (GFermion d i)) (rho (GFermion d' j)))
           (ropp ro (rmul ro (rho (GFermion d' j)) (rho (GFermion d i))));
  kr_c_cdag : forall i, K (GFermion false i) -> K (GFermion true i) -> 
    req ro (radd ro (rmul ro (rho (GFermion false i)) (rho (GFermion true i)))
                    (rmul ro (rho (GFermion true i)) (rho (GFermion false i))))
           (r1 ro);
  (* bosons: canonical commutation relations *)
  kr_a_comm : forall d i j, K (GBoson d i) -> K (GBoson d j) -> 
    req ro (rmul ro (rho (GBoson d i)) (rho (GBoson d j)))
           (rmul ro (rho (GBoson d j)) (rho (GBoson d i)));
  kr_a_adag_diff : forall i j, K (GBoson false i) -> K (GBoson true j) -> i <> j ->
    req ro (rmul ro (rho (GBoson false i)) (rho (GBoson true j)))
           (rmul ro (rho (GBoson true j)) (rho (GBoson false i)));
  kr_a_adag : forall i, K (GBoson false i) -> K (GBoson true i) -> 
    req ro (rmul ro (rho (GBoson false i)) (rho (GBoson true i)))
           (radd ro (r1 ro) (rmul ro (rho (GBoson true i)) (rho (GBoson false i))));
  (* spins: different sites commute *)
  kr_s_comm : forall m m' c c' i j, K (GSpin m c i) -> K (GSpin m' c' j) -> (m, i) <> (m', j) ->
    req ro (rmul ro (rho (GSpin m c i)) (rho (GSpin m' c' j)))
           (rmul ro (rho (GSpin m' c' j)) (rho (GSpin m c i)));
  (* [S_+, S_-] = 2 S_z, [S_z, S_+-] = +- S_+- *)
  kr_s_pm : forall m i, K (GSpin m Plus i) -> 
    req ro (rmul ro (rho (GSpin m Plus i)) (rho (GSpin m Minus i)))
           (radd ro (rmul ro (rho (GSpin m Minus i)) (rho (GSpin m Plus i)))
                    (radd ro (rho (GSpin m Zcomp i)) (rho (GSpin m Zcomp i))));
  kr_s_zp : forall m i, K (GSpin m Plus i) -> 
    req ro (rmul ro (rho (GSpin m Zcomp i)) (rho (GSpin m Plus i)))
           (radd ro (rmul ro (rho (GSpin m Plus i)) (rho (GSpin m Zcomp i)))
                    (rho (GSpin m Plus i)));
  kr_s_zm : forall m i, K (GSpin m Minus i) -> 
    req ro (rmul ro (rho (GSpin m Zcomp i)) (rho (GSpin m Minus i)))
           (radd ro (rmul ro (rho (GSpin m Minus i)) (rho (GSpin m Zcomp i)))
                    (ropp ro (rho (GSpin m Minus i))));
  (* (2S+1)-th powers of the ladder operators vanish *)
  kr_s_nil : forall m i c, K (GSpin m c i) -> c <> Zcomp -> 1 <= m ->
    req ro (rpow ro (rho (GSpin m c i)) m) (r0 ro);
  (* spin 1/2: S_+ S_- = 1/2 + S_z, S_+ S_z = -1/2 S_+, S_- S_z = 1/2 S_-,
     S_z S_z = 1/4 *)
  kr_h_pm : forall i h, K (GSpin 2 Plus i) -> s_add so h h = s_one so ->
    req ro (rmul ro (rho (GSpin 2 Plus i)) (rho (GSpin 2 Minus i)))
           (radd ro (inj h) (rho (GSpin 2 Zcomp i)));
  kr_h_pz : forall i h, K (GSpin 2 Plus i) -> s_add so h h = s_one so ->
    req ro (rmul ro (rho (GSpin 2 Plus i)) (rho (GSpin 2 Zcomp i)))
           (ropp ro (rmul ro (inj h) (rho (GSpin 2 Plus i))));
  kr_h_mz : forall i h, K (GSpin 2 Minus i) -> s_add so h h = s_one so ->
    req ro (rmul ro (rho (GSpin 2 Minus i)) (rho (GSpin 2 Zcomp i)))
           (rmul ro (inj h) (rho (GSpin 2 Minus i)));
  kr_h_zz : forall i h, K (GSpin 2 Zcomp i) -> s_add so h h = s_one so ->
    req ro (rmul ro (rho (GSpin 2 Zcomp i)) (rho (GSpin 2 Zcomp i)))
           (inj (s_mul so h h));
  (* generators of different algebras commute *)
  kr_fb : forall d i d' j, K (GFermion d i) -> K (GBoson d' j) -> 
    req ro (rmul ro (rho (GFermion d i)) (rho (GBoson d' j)))
           (rmul ro (rho (GBoson d' j)) (rho (GFermion d i)));
  kr_fs : forall d i m c j, K (GFermion d i) -> K (GSpin m c j) -> 
    req ro (rmul ro (rho (GFermion d i)) (rho (GSpin m c j)))
           (rmul ro (rho (GSpin m c j)) (rho (GFermion d i)));
  kr_bs : forall d i m c j, K (GBoson d i) -> K (GSpin m c j) -> 
    req ro (rmul ro (rho (GBoson d i)) (rho (GSpin m c j)))
           (rmul ro (rho (GSpin m c j)) (rho (GBoson d i)))
}.

Lemma relations_all {I S R} (so : scalar_ops S) (ro : ring_ops R) (inj : S -> R) (rho : gen I -> R) :
  relations so ro inj rho -> relations_on (fun _ => True) so ro inj rho.
Proof.
  intros RL. constructor; intros; try (eapply RL; eauto; fail).
Qed.

Section StdOn.
Context {I S R : Type} (io : index_ops I) (Hio : index_order io).
Context (so : scalar_ops S) (L : scalar_laws so).
Context (ro : ring_ops R) (inj : S -> R) (rho : gen I -> R).
Context (Hr : is_ring ro) (SI : scalar_image so ro inj rho).
Context (Kn : gen I -> Prop) (Ksite : forall m c c' i, Kn (GSpin m c i) -> Kn (GSpin m c' i)).
Context (RL : relations_on Kn so ro inj rho).

Local Instance opsI : @Ring_ops R (r0 ro) (r1 ro) (radd ro) (rmul ro) (rsub ro) (ropp ro) (req ro)
  := nc_ops ro.
Local Instance ringI : @Ring _ _ _ _ _ _ _ _ opsI := nc_ring ro Hr.
Local Instance eqI : Equivalence (req ro) := ri_equiv _ Hr.
Local Instance addI : Proper (req ro ==> req ro ==> req ro) (radd ro) := ri_add_ext _ Hr.
Local Instance mulI : Proper (req ro ==> req ro ==> req ro) (rmul ro) := ri_mul_ext _ Hr.
Local Instance oppI : Proper (req ro ==> req ro) (ropp ro) := ri_opp_ext _ Hr.
Notation "x == y" := (req ro x y) (at level 70).
Notation "x + y" := (radd ro x y).
Notation "x * y" := (rmul ro x y).
Notation "- x" := (ropp ro x).
Ltac ncr := non_commutative_ring.
Notation go := (std_gen_ops io).

(** generators whose degree of freedom occurs in [B] *)
Definition admissible (B : list (gen I)) (g : gen I) : Prop :=
  match g with
  | GFermion _ i => exists d, In (GFermion d i) B
  | GBoson _ i => exists d, In (GBoson d i) B
  | GSpin m _ i => exists c', In (GSpin m c' i) B
  end.

Lemma admissible_self B : Forall (admissible B) B.
Proof.
  rewrite Forall_forall. intros [d i|d i|m c i] h; simpl; eexists; exact h.
Qed.

Lemma inj_1 : inj (zmul so 1 (s_one so)) == r1 ro.
Proof. rewrite (zmul_1 so L). apply (si_1 _ _ _ _ SI). Qed.
Lemma inj_m1 : inj (zmul so (-1) (s_one so)) == - r1 ro.
Proof.
  rewrite (zmul_m1 so L), (inj_neg so L ro Hr inj rho SI). now rewrite (si_1 _ _ _ _ SI).
Qed.
Lemma inj_m2 : inj (zmul so (-2) (s_one so)) == - (r1 ro + r1 ro).
Proof.
  change (zmul so (-2) (s_one so)) with (s_neg so (s_add so (s_one so) (s_add so (s_one so) (s_zero so)))).
  rewrite (s_add_0_r so L), (inj_neg so L ro Hr inj rho SI), (si_add _ _ _ _ SI).
  now rewrite (si_1 _ _ _ _ SI).
Qed.

Lemma base_eq_idx (g h : gen I) : base_equal io g h = true <-> gen_index g = gen_index h.
Proof. apply (sto_eq _ _ _ Hio). Qed.
Lemma base_eq_idx_f (g h : gen I) : base_equal io g h = false <-> gen_index g <> gen_index h.
Proof. apply (sto_eqb_false Hio). Qed.

Lemma gt_before g h : gen_gtb io g h = true -> gen_before io h g.
Proof. rewrite (gen_gtb_ltb io Hio). apply (gen_before_ltb io Hio). Qed.
Lemma ngt_before g h : gen_gtb io g h = false -> gen_before_eq io g h.
Proof.
  rewrite (gen_gtb_ltb io Hio). intros E.
  destruct (gen_before_total io Hio g h) as [K|[K|K]]; [left|right|]; auto.
  apply (gen_before_ltb io Hio) in K. congruence.
Qed.

Ltac kk := solve [auto | eapply Ksite; eauto | congruence].
Ltac clos := repeat constructor; cbn; auto; kk.
Ltac mk H := rewrite (sl_make_int _ L) in H.

Definition adm (B : list (gen I)) (g : gen I) : Prop := admissible B g /\ Kn g.

Lemma std_swap B : spin_consistent B -> forall g h c f,
  adm B g -> adm B h -> gen_gtb io g h = true -> gen_swap io g h = (c, f) ->
  closed (adm B) f /\
  forall r, lval so ro inj rho f = Some r ->
      (vn_eqb c (VInt 0) = true -> rho g * rho h == r) /\
      (forall x, vn_eqb c (VInt 0) = false -> s_make so c = Some x ->
         rho g * rho h == inj x * (rho h * rho g) + r).
Proof.
  intros HB g h c f [Pg Kg] [Ph Kh] Hgt Es. apply gt_before in Hgt.
  destruct g as [d i|d i|m cc i], h as [d' j|d' j|m' cc' j]; simpl in Es.
  - (* fermions *)
    inversion Es; subst; clear Es. split; [constructor|]. intros r Hrr.
    split; [discriminate|]. intros x _ Hx. mk Hx. inversion Hx; subst; clear Hx.
    rewrite inj_m1. unfold lval, cval in Hrr. simpl const_term in Hrr. simpl terms in Hrr.
    destruct (base_equal io (GFermion d i) (GFermion d' j)) eqn:Eb; simpl in Hrr.
    + apply base_eq_idx in Eb. simpl in Eb. subst j.
      destruct d, d'; simpl in Hrr.
      * now apply (gen_before_irrefl io Hio) in Hgt.
      * inversion Hgt.
      * rewrite (sl_make_int _ L) in Hrr. inversion Hrr; subst. simpl.
        rewrite inj_1.
        transitivity ((rho (GFermion false i) * rho (GFermion true i) +
                       rho (GFermion true i) * rho (GFermion false i)) +
                      - (rho (GFermion true i) * rho (GFermion false i))); [ncr|].
        rewrite (kr_c_cdag _ _ _ _ _ RL) by kk. ncr.
      * now apply (gen_before_irrefl io Hio) in Hgt.
    + apply base_eq_idx_f in Eb. simpl in Eb. inversion Hrr; subst.
      rewrite (kr_c_anti _ _ _ _ _ RL d d' i j) by kk. ncr.
  - inversion Hgt.
  - inversion Hgt.
  - inversion Es; subst; clear Es. split; [constructor|]. intros r Hrr.
    split; [discriminate|]. intros x _ Hx. mk Hx. inversion Hx; subst; clear Hx.
    unfold lval, cval in Hrr. simpl in Hrr. inversion Hrr; subst.
    rewrite inj_1, (kr_fb _ _ _ _ _ RL) by kk. ncr.
  - (* bosons *)
    inversion Es; subst; clear Es. split; [constructor|]. intros r Hrr.
    split; [discriminate|]. intros x _ Hx. mk Hx. inversion Hx; subst; clear Hx.
    rewrite inj_1. unfold lval, cval in Hrr. simpl const_term in Hrr. simpl terms in Hrr.
    destruct (base_equal io (GBoson d i) (GBoson d' j)) eqn:Eb; simpl in Hrr.
    + apply base_eq_idx in Eb. simpl in Eb. subst j.
      destruct d, d'; simpl in Hrr.
      * now apply (gen_before_irrefl io Hio) in Hgt.
      * inversion Hgt.
      * rewrite (sl_make_int _ L) in Hrr. inversion Hrr; subst. simpl.
        rewrite inj_1, (kr_a_adag _ _ _ _ _ RL) by kk. ncr.
      * now apply (gen_before_irrefl io Hio) in Hgt.
    + apply base_eq_idx_f in Eb. simpl in Eb. inversion Hrr; subst.
      destruct d, d'.
      * rewrite (kr_a_comm _ _ _ _ _ RL) by kk. ncr.
      * inversion Hgt.
      * rewrite (kr_a_adag_diff _ _ _ _ _ RL) by kk. ncr.
      * rewrite (kr_a_comm _ _ _ _ _ RL) by kk. ncr.
  - inversion Hgt.
  - inversion Es; subst; clear Es. split; [constructor|]. intros r Hrr.
    split; [discriminate|]. intros x _ Hx. mk Hx. inversion Hx; subst; clear Hx.
    unfold lval, cval in Hrr. simpl in Hrr. inversion Hrr; subst.
    rewrite inj_1, (kr_fs _ _ _ _ _ RL) by kk. ncr.
  - inversion Es; subst; clear Es. split; [constructor|]. intros r Hrr.
    split; [discriminate|]. intros x _ Hx. mk Hx. inversion Hx; subst; clear Hx.
    unfold lval, cval in Hrr. simpl in Hrr. inversion Hrr; subst.
    rewrite inj_1, (kr_bs _ _ _ _ _ RL) by kk. ncr.
  - (* spins *)
    destruct (base_equal io (GSpin m cc i) (GSpin m' cc' j)) eqn:Eb; simpl in Es.
    + apply base_eq_idx in Eb. simpl in Eb. subst j.
      destruct (Nat.eqb_spec m m') as [e|ne]; simpl in Es.
      * subst m'. destruct (Nat.eqb_spec m 2) as [e2|ne2].
        -- subst m. inversion Es; subst; clear Es.
           destruct cc, cc'; try (now apply (gen_before_irrefl io Hio) in Hgt);
             try (inversion Hgt; subst; try lia; exfalso; eapply (idx_lt_irrefl io Hio); eauto; fail).
           ++ (* S- S+ = 1/2 - Sz *)
              split; [clos|]. intros r Hrr. split; [|discriminate]. intros _.
              unfold lval, cval in Hrr. simpl const_term in Hrr. simpl terms in Hrr. simpl vn_is_zero in Hrr.
              destruct (s_make so (VRat 1 2)) as [hf|] eqn:Eh; [|discriminate].
              apply (make_half so L) in Eh. simpl in Hrr.
              rewrite (sl_make_int _ L) in Hrr. inversion Hrr; subst. rewrite inj_m1.
              transitivity (rho (GSpin 2 Plus i) * rho (GSpin 2 Minus i)
                            + - (rho (GSpin 2 Zcomp i) + rho (GSpin 2 Zcomp i))).
              { rewrite (kr_s_pm _ _ _ _ _ RL) by kk. ncr. }
              rewrite (kr_h_pm _ _ _ _ _ RL i hf ltac:(kk) Eh) by kk. ncr.
           ++ (* Sz S+ = 1/2 S+ *)
              split; [clos|]. intros r Hrr. split; [|discriminate]. intros _.
              unfold lval, cval in Hrr. simpl const_term in Hrr. simpl terms in Hrr. simpl vn_is_zero in Hrr.
              simpl in Hrr.
              destruct (s_make so (VRat 1 2)) as [hf|] eqn:Eh; [|discriminate].
              apply (make_half so L) in Eh. inversion Hrr; subst.
              rewrite (kr_s_zp _ _ _ _ _ RL), (kr_h_pz _ _ _ _ _ RL i hf ltac:(kk) Eh) by kk.
              assert (K : inj hf + inj hf == r1 ro).
              { rewrite <- (si_add _ _ _ _ SI), Eh. apply (si_1 _ _ _ _ SI). }
              transitivity (- (inj hf * rho (GSpin 2 Plus i)) + r1 ro * rho (GSpin 2 Plus i)); [ncr|].
              rewrite <- K. ncr.
           ++ (* Sz S- = -1/2 S- *)
              split; [clos|]. intros r Hrr. split; [|discriminate]. intros _.
              unfold lval, cval in Hrr. simpl const_term in Hrr. simpl terms in Hrr. simpl vn_is_zero in Hrr.
              simpl in Hrr.
              destruct (s_make so (VRat (-1) 2)) as [hf|] eqn:Eh; [|discriminate].
              apply (make_mhalf so L) in Eh. inversion Hrr; subst.
              rewrite (kr_s_zm _ _ _ _ _ RL), (kr_h_mz _ _ _ _ _ RL i _ ltac:(kk) Eh) by kk.
              assert (K : inj (s_neg so hf) + inj (s_neg so hf) == r1 ro).
              { rewrite <- (si_add _ _ _ _ SI), Eh. apply (si_1 _ _ _ _ SI). }
              transitivity (inj (s_neg so hf) * rho (GSpin 2 Minus i) + - (r1 ro * rho (GSpin 2 Minus i))); [ncr|].
              rewrite <- K, (inj_neg so L ro Hr inj rho SI). ncr.
        -- inversion Es; subst; clear Es.
           destruct cc, cc'; try (now apply (gen_before_irrefl io Hio) in Hgt);
             try (inversion Hgt; subst; try lia; exfalso; eapply (idx_lt_irrefl io Hio); eauto; fail).
           ++ split; [clos|]. intros r Hrr. split; [discriminate|].
              intros x _ Hx. mk Hx. inversion Hx; subst; clear Hx. rewrite inj_1.
              unfold lval, cval in Hrr. simpl const_term in Hrr. simpl terms in Hrr. simpl vn_is_zero in Hrr.
              simpl in Hrr. rewrite (sl_make_int _ L) in Hrr. inversion Hrr; subst.
              rewrite inj_m2, (kr_s_pm _ _ _ _ _ RL) by kk. ncr.
           ++ split; [clos|]. intros r Hrr. split; [discriminate|].
              intros x _ Hx. mk Hx. inversion Hx; subst; clear Hx. rewrite inj_1.
              unfold lval, cval in Hrr. simpl const_term in Hrr. simpl terms in Hrr. simpl vn_is_zero in Hrr.
              simpl in Hrr. rewrite (sl_make_int _ L) in Hrr. inversion Hrr; subst.
              rewrite inj_1, (kr_s_zp _ _ _ _ _ RL) by kk. ncr.
           ++ split; [clos|]. intros r Hrr. split; [discriminate|].
              intros x _ Hx. mk Hx. inversion Hx; subst; clear Hx. rewrite inj_1.
              unfold lval, cval in Hrr. simpl const_term in Hrr. simpl terms in Hrr. simpl vn_is_zero in Hrr.
              simpl in Hrr. rewrite (sl_make_int _ L) in Hrr. inversion Hrr; subst.
              rewrite inj_m1, (kr_s_zm _ _ _ _ _ RL) by kk. ncr.
      * inversion Es; subst; clear Es. split; [constructor|]. intros r Hrr.
        split; [discriminate|]. intros x _ Hx. mk Hx. inversion Hx; subst; clear Hx.
        unfold lval, cval in Hrr. simpl in Hrr. inversion Hrr; subst.
        rewrite inj_1, (kr_s_comm _ _ _ _ _ RL m m') by kk; ncr.
    + apply base_eq_idx_f in Eb. simpl in Eb.
      inversion Es; subst; clear Es. split; [constructor|]. intros r Hrr.
      split; [discriminate|]. intros x _ Hx. mk Hx. inversion Hx; subst; clear Hx.
      unfold lval, cval in Hrr. simpl in Hrr. inversion Hrr; subst.
      rewrite inj_1, (kr_s_comm _ _ _ _ _ RL m m') by kk; ncr.
Qed.

Lemma std_simplify B : spin_consistent B -> forall g h f,
  adm B g -> adm B h -> gen_gtb io g h = false -> gen_simplify io g h = Some f ->
  closed (adm B) f /\ forall r, lval so ro inj rho f = Some r -> rho g * rho h == r.
Proof.
  intros HB g h f [Pg Kg] [Ph Kh] Hgt Es. apply ngt_before in Hgt.
  destruct g as [d i|d i|m cc i], h as [d' j|d' j|m' cc' j]; simpl in Es; try discriminate.
  - destruct (gen_eqb io (GFermion d i) (GFermion d' j)) eqn:E; [|discriminate].
    apply (gen_eqb_eq io Hio) in E. inversion E; subst. inversion Es; subst.
    split; [constructor|]. intros r Hrr. unfold lval, cval in Hrr. simpl in Hrr. inversion Hrr; subst.
    rewrite (kr_c_sq _ _ _ _ _ RL) by kk. ncr.
  - destruct (base_equal io (GSpin m cc i) (GSpin m' cc' j)) eqn:Eb; [|discriminate].
    simpl in Es. destruct (Nat.eqb_spec m 2) as [e|]; [|discriminate]. simpl in Es. subst m.
    apply base_eq_idx in Eb. simpl in Eb. subst j.
    assert (m' = 2).
    { simpl in Pg, Ph. destruct Pg as [c1 i1], Ph as [c2 i2]. eapply (proj1 HB); eauto. }
    subst m'.
    assert (Hc : cc = cc' \/ gen_before io (GSpin 2 cc i) (GSpin 2 cc' i)).
    { destruct Hgt as [E|E]; [inversion E; auto|auto]. }
    injection Es as Es. subst f.
    assert (NB : cc <> cc' -> comp_code cc < comp_code cc').
    { intros n. destruct Hc as [|Hc]; [contradiction|].
      inversion Hc; subst; simpl; try lia. exfalso. eapply (idx_lt_irrefl io Hio); eauto. }
    destruct cc, cc'; try (specialize (NB ltac:(discriminate)); simpl in NB; lia); simpl comp_eqb; cbv iota.
    + split; [constructor|]. intros r Hrr. unfold lval, cval in Hrr. simpl in Hrr. inversion Hrr; subst.
      assert (K : rpow ro (rho (GSpin 2 Plus i)) 2 == r0 ro)
        by (apply (kr_s_nil _ _ _ _ _ RL); [kk|discriminate|lia]).
      simpl in K. transitivity (rho (GSpin 2 Plus i) * (rho (GSpin 2 Plus i) * r1 ro)); [ncr|].
      rewrite K. ncr.
    + split; [clos|]. intros r Hrr.
      unfold lval, cval in Hrr. simpl const_term in Hrr. simpl terms in Hrr. simpl vn_is_zero in Hrr.
      destruct (s_make so (VRat 1 2)) as [hf|] eqn:Eh; [|discriminate].
      apply (make_half so L) in Eh. simpl in Hrr.
      rewrite (sl_make_int _ L) in Hrr. inversion Hrr; subst. rewrite inj_1.
      rewrite (kr_h_pm _ _ _ _ _ RL i hf ltac:(kk) Eh) by kk. ncr.
    + split; [clos|]. intros r Hrr.
      unfold lval, cval in Hrr. simpl const_term in Hrr. simpl terms in Hrr. simpl vn_is_zero in Hrr.
      simpl in Hrr.
      destruct (s_make so (VRat (-1) 2)) as [hf|] eqn:Eh; [|discriminate].
      apply (make_mhalf so L) in Eh. inversion Hrr; subst.
      rewrite (kr_h_pz _ _ _ _ _ RL i _ ltac:(kk) Eh), (inj_neg so L ro Hr inj rho SI) by kk. ncr.
    + split; [constructor|]. intros r Hrr. unfold lval, cval in Hrr. simpl in Hrr. inversion Hrr; subst.
      assert (K : rpow ro (rho (GSpin 2 Minus i)) 2 == r0 ro)
        by (apply (kr_s_nil _ _ _ _ _ RL); [kk|discriminate|lia]).
      simpl in K. transitivity (rho (GSpin 2 Minus i) * (rho (GSpin 2 Minus i) * r1 ro)); [ncr|].
      rewrite K. ncr.
    + split; [clos|]. intros r Hrr.
      unfold lval, cval in Hrr. simpl const_term in Hrr. simpl terms in Hrr. simpl vn_is_zero in Hrr.
      simpl in Hrr.
      destruct (s_make so (VRat 1 2)) as [hf|] eqn:Eh; [|discriminate].
      apply (make_half so L) in Eh. inversion Hrr; subst.
      rewrite (kr_h_mz _ _ _ _ _ RL i _ ltac:(kk) Eh) by kk. ncr.
    + split; [constructor|]. intros r Hrr.
      unfold lval, cval in Hrr. simpl const_term in Hrr. simpl terms in Hrr. simpl vn_is_zero in Hrr.
      destruct (s_make so (VRat 1 4)) as [q|] eqn:Eq; [|discriminate].
      apply (make_quarter so L) in Eq. destruct Eq as [hf [Eh Eq]]. simpl in Hrr. inversion Hrr; subst.
      rewrite (kr_h_zz _ _ _ _ _ RL i _ ltac:(kk) Eh) by kk. ncr.
Qed.

Lemma rpow_add x a b : rpow ro x (a + b) == rpow ro x a * rpow ro x b.
Proof. induction a as [|a IH]; simpl; [ncr|]. rewrite IH. ncr. Qed.

Lemma std_reduce B : spin_consistent B -> forall g n f,
  adm B g -> 2 < n -> gen_reduce g n = Some f ->
  closed (adm B) f /\ (lf_vanishing f = true -> rpow ro (rho g) n == r0 ro) /\
  forall r, lval2 so ro inj rho f = Some r -> rpow ro (rho g) n == r.
Proof.
  intros HB g n f [Pg Kg] Hn Es. destruct g as [d i|d i|m cc i]; simpl in Es; try discriminate.
  destruct (comp_eqb cc Zcomp) eqn:Ec; [discriminate|]. simpl in Es.
  destruct (Nat.leb_spec m n); [|discriminate]. inversion Es; subst; clear Es.
  assert (Hc : cc <> Zcomp) by (intros ->; discriminate).
  assert (Z : rpow ro (rho (GSpin m cc i)) n == r0 ro).
  { replace n with (m + (n - m))%nat by lia. rewrite rpow_add, (kr_s_nil _ _ _ _ _ RL); auto.
    - ncr.
    - destruct Pg as [c' Hin]. eapply (proj2 HB); eauto. }
  split; [constructor|]. split; auto.
  intros r Hrr. unfold lval2 in Hrr. simpl const_term in Hrr. rewrite (sl_make_int _ L) in Hrr.
  simpl in Hrr. inversion Hrr; subst. rewrite Z, (si_0 _ _ _ _ SI). ncr.
Qed.

Lemma std_sound_on B : spin_consistent B -> alg_sound go so ro inj rho (adm B).
Proof.
  intros HB. constructor.
  - apply (std_swap B HB).
  - apply (std_simplify B HB).
  - apply (std_reduce B HB).
Qed.

End StdOn.

Lemma alg_sound_iff {G S R} (go : gen_ops G) (so : scalar_ops S) (ro : ring_ops R) inj rho (P Q : G -> Prop) :
  (forall g, P g <-> Q g) -> alg_sound go so ro inj rho P -> alg_sound go so ro inj rho Q.
Proof.
  intros H [h1 h2 h3].
  assert (C : forall f, closed P f -> closed Q f).
  { intros f F. unfold closed in *. eapply Forall_impl; [|exact F]. intros t. apply H. }
  constructor.
  - intros g h c f Pg Ph Hg E. destruct (h1 g h c f (proj2 (H g) Pg) (proj2 (H h) Ph) Hg E). split; auto.
  - intros g h f Pg Ph Hg E. destruct (h2 g h f (proj2 (H g) Pg) (proj2 (H h) Ph) Hg E). split; auto.
  - intros g n f Pg Hn E. destruct (h3 g n f (proj2 (H g) Pg) Hn E). split; auto.
Qed.

Lemma std_sound {I S R} (io : index_ops I) (Hio : index_order io) (so : scalar_ops S) (L : scalar_laws so)
  (ro : ring_ops R) (inj : S -> R) (rho : gen I -> R) (REP : representation so ro inj rho) B :
  spin_consistent B -> alg_sound (std_gen_ops io) so ro inj rho (admissible B).
Proof.
  intros HB. destruct REP as [Hr SI RL].
  apply (alg_sound_iff (std_gen_ops io) so ro inj rho (adm (fun _ => True) B)).
  - intros g. unfold adm. tauto.
  - apply (std_sound_on io Hio so L ro inj rho Hr SI (fun _ => True)); auto using relations_all.
Qed.
