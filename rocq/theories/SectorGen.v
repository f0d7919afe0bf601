(** The generator of multisector states enumerates the product of the
    generators of its sectors, in lexicographic order. *)
From Coq Require Import NArith ZArith List Bool Arith Sorted Lia.
From Verif Require Import BitsModel BitsSpec BitsProofs RankModel RankSpec RankProofs HSModel HSEnum
  PropRank SectorModel SectorProofs SectorMain.
Import ListNotations.
Open Scope N_scope.
Open Scope list_scope.

(** states of one sector, and of a list of sectors *)
Definition full (p : sector_params) : list N :=
  match ug_all (unranking_generator_init p) with Some us => us | None => [] end.
Definition dep (m u : N) : N := match deposit_bits u m with Some r => r | None => 0 end.
Fixpoint suf (ps : list sector_params) : list N :=
  match ps with
  | [] => [0]
  | p :: t => flat_map (fun u => map (fun y => dep (pmask p) u + y) (suf t)) (full p)
  end.
Definition par_ok (p : sector_params) : Prop := (pM p <= 62)%nat /\ (pN p <= pM p)%nat /\ u64 (pmask p).

Lemma dep_some m u : u64 m -> deposit_bits u m = Some (dep m u).
Proof. intros h. destruct (deposit_bits_spec u m h) as [r [E _]]. unfold dep. now rewrite E. Qed.

(** remaining output of one generator *)
Definition gen_rem (p : sector_params) (g : unranking_generator) (us : list N) : Prop :=
  ug_reset g = unranking_generator_init p /\
  exists g', ug_run (length us) g = Some (g', us) /\ ug_done g' = true.

Lemma run_shorter n : forall g g' us, ug_run n g = Some (g', us) -> ug_done g' = true -> ug_run (length us) g = Some (g', us).
Proof.
  induction n as [|n IH]; intros g g' us E D.
  - cbn in E. inversion E; subst. reflexivity.
  - cbn [ug_run] in E. destruct (ug_done g) eqn:Dg.
    + inversion E; subst. reflexivity.
    + destruct (ug_next g) as [[g1 x]|] eqn:En; [|discriminate]. cbn [obind fst snd] in E.
      destruct (ug_run n g1) as [[g2 t]|] eqn:Er; [|discriminate]. cbn [obind fst snd] in E. inversion E; subst.
      cbn [length ug_run]. rewrite Dg, En. cbn [obind fst snd]. rewrite (IH _ _ _ Er D). reflexivity.
Qed.
Lemma gen_rem_fresh p : par_ok p -> gen_rem p (unranking_generator_init p) (full p) /\ full p <> [] /\
  N.of_nat (length (full p)) = binom (pM p) (pN p) /\
  (forall x, In x (full p) <-> in_sector (pM p) (pN p) x = true) /\
  (forall i x, nth_error (full p) i = Some x -> cr_rank (combination_ranking_init p) x = Some (N.of_nat i)).
Proof.
  intros [hM [hN _]]. destruct (ug_all_spec p hM hN) as [us [E [L [A R]]]]. rewrite ug_reset_init in E. unfold full. rewrite E.
  assert (P : 0 < binom (pM p) (pN p)) by (apply binom_pos; auto).
  split; [|split; [intros ->; cbn in L; lia|auto]]. split; [reflexivity|].
  unfold ug_all in E. destruct (ug_run _ _) as [[g' l]|] eqn:Er; [|discriminate]. destruct (ug_done g') eqn:D; [|discriminate].
  inversion E; subst. exists g'. split; auto. eapply run_shorter; eauto.
Qed.
Lemma gen_rem_nil p g : gen_rem p g [] -> ug_done g = true.
Proof. intros [_ [g' [E D]]]. cbn in E. inversion E; subst. auto. Qed.
Lemma gen_rem_cons p g u t : gen_rem p g (u :: t) -> ug_done g = false /\ exists g1, ug_next g = Some (g1, u) /\ gen_rem p g1 t.
Proof.
  intros [Rs [g' [E D]]]. cbn [length ug_run] in E. destruct (ug_done g) eqn:Dg; [inversion E|]. split; auto.
  destruct (ug_next g) as [[g1 x]|] eqn:En; [|discriminate]. cbn [obind fst snd] in E.
  destruct (ug_run (length t) g1) as [[g2 t']|] eqn:Er; [|discriminate]. cbn [obind fst snd] in E. inversion E; subst.
  exists g1. split; auto. split; [|exists g'; auto]. rewrite <- Rs. unfold ug_next in En.
  destruct (ug_i g =? 0); [inversion En; reflexivity|]. destruct (next_state (ug_unranked g)); [|discriminate]. cbn in En. inversion En; reflexivity.
Qed.

Lemma upd_length {A} (l : list A) k x : length (upd l k x) = length l.
Proof. revert k; induction l; intros [|k]; cbn; auto. Qed.
Lemma nth_upd {A} (l : list A) k x j : (k < length l)%nat -> nth_error (upd l k x) j = if (j =? k)%nat then Some x else nth_error l j.
Proof.
  revert k j. induction l as [|a l IH]; intros [|k] [|j] h; cbn in *; auto; try lia. apply IH. lia.
Qed.

Lemma last_nth {A} (l : list A) d : forall j v, nth_error l j = Some v -> length l = Datatypes.S j -> last l d = v.
Proof.
  induction l as [|a l IH]; intros j v E1 Ll; [discriminate|]. destruct l as [|b l].
  - cbn in Ll. destruct j; [cbn in E1; inversion E1; auto|lia].
  - destruct j; [cbn in Ll; lia|]. cbn in E1, Ll. change (last (a :: b :: l) d) with (last (b :: l) d). apply (IH j); auto.
Qed.

Section Gen.
Context (ps : list sector_params) (Hps : Forall par_ok ps).
Notation k := (length ps).

Definition upf {A} (f : nat -> A) (j : nat) (x : A) : nat -> A := fun i => if (i =? j)%nat then x else f i.
Lemma upf_same {A} (f : nat -> A) j x : upf f j x j = x.
Proof. unfold upf. now rewrite Nat.eqb_refl. Qed.
Lemma upf_other {A} (f : nat -> A) j x i : i <> j -> upf f j x i = f i.
Proof. intros. unfold upf. destruct (Nat.eqb_spec i j); auto. contradiction. Qed.
(** [rem j]: what the j-th generator has still to produce, [pt j]: the j-th partial sum *)
Definition st_ok (gs : list unranking_generator) (part : list N) (rem : nat -> list N) (pt : nat -> N) : Prop :=
  length gs = k /\ length part = k /\
  (forall j p, nth_error ps j = Some p -> exists g, nth_error gs j = Some g /\ gen_rem p g (rem j)) /\
  (forall j, (j < k)%nat -> nth_error part j = Some (pt j)).
Definition fullj (j : nat) : list N := match nth_error ps j with Some p => full p | None => [] end.
Definition depj (j : nat) (u : N) : N := match nth_error ps j with Some p => dep (pmask p) u | None => 0 end.
Definition prev (pt : nat -> N) (j : nat) : N := match j with O => 0 | Datatypes.S i => pt i end.
(** the remaining output if the first [j] generators are in use and the others fresh *)
Fixpoint out (rem : nat -> list N) (pt : nat -> N) (j : nat) : list N :=
  match j with
  | O => []
  | Datatypes.S i =>
      flat_map (fun u => map (fun y => w64 (prev pt i + depj i u + y)) (suf (skipn j ps))) (rem i) ++ out rem pt i
  end.
Definition fresh_from (rem : nat -> list N) (j : nat) : Prop := forall i, (j <= i < k)%nat -> rem i = fullj i.

Lemma out_ext rem rem' pt pt' j : (forall i, (i < j)%nat -> rem i = rem' i) -> (forall i, (i + 1 < j)%nat -> pt i = pt' i) ->
  out rem pt j = out rem' pt' j.
Proof.
  revert rem rem' pt pt'. induction j as [|j IH]; intros rem rem' pt pt' H1 H2; auto. cbn [out].
  rewrite (H1 j ltac:(lia)). f_equal.
  - assert (prev pt j = prev pt' j) as ->; auto. destruct j; auto. cbn. apply H2. lia.
  - apply IH; intros; [apply H1|apply H2]; lia.
Qed.
Lemma skipn_nth j p : nth_error ps j = Some p -> skipn j ps = p :: skipn (Datatypes.S j) ps.
Proof. clear Hps. revert j. induction ps as [|q t IH]; intros [|j] E; cbn in *; try discriminate; [inversion E; auto|]. now apply IH. Qed.

Lemma par_nth j p : nth_error ps j = Some p -> par_ok p.
Proof. intros E. rewrite Forall_forall in Hps. apply Hps. eapply nth_error_In; eauto. Qed.

(** going down from a generator that is not exhausted *)
Lemma descend d : forall j gs part rem pt u t fuel, (j + d + 1 = k)%nat -> (d < fuel)%nat ->
  st_ok gs part rem pt -> fresh_from rem (Datatypes.S j) -> rem j = u :: t ->
  exists gs' part' rem' pt', mg_loop fuel ps gs (Z.of_nat j) part = Some (gs', Z.of_nat k - 1, part')%Z /\
    st_ok gs' part' rem' pt' /\
    out rem pt (Datatypes.S j) = last part' 0 :: out rem' pt' k.
Proof.
  induction d as [|d IH]; intros j gs part rem pt u t fuel hj hf Ok Fr Er.
  all: destruct fuel as [|fuel]; [lia|]; cbn [mg_loop]; destruct (Z.ltb_spec (Z.of_nat j) 0); [lia|]; rewrite Nat2Z.id.
  all: destruct (nth_error ps j) as [p|] eqn:Ep; [|apply nth_error_None in Ep; lia].
  all: pose proof (par_nth _ _ Ep) as [hM [hN hu]].
  all: destruct Ok as [Lg [Lp [G P]]]; destruct (G j p Ep) as [g [Eg Gr]]; rewrite Eg.
  all: rewrite Er in Gr; destruct (gen_rem_cons p g u t Gr) as [Dg [g1 [En Gr1]]]; rewrite Dg, En, (dep_some _ u hu).
  all: assert (EP : (if Z.eqb (Z.of_nat j) 0 then Some 0 else nth_error part (Z.to_nat (Z.of_nat j - 1))) = Some (prev pt j)).
  1, 3: destruct j as [|j']; [reflexivity|]; cbn [prev]; destruct (Z.eqb_spec (Z.of_nat (Datatypes.S j')) 0); [lia|];
    replace (Z.to_nat (Z.of_nat (Datatypes.S j') - 1)) with j' by lia; apply P; lia.
  all: rewrite EP.
  all: set (gs1 := upd gs j g1); set (v := w64 (prev pt j + dep (pmask p) u)); set (part1 := upd part j v).
  all: assert (Ok1 : st_ok gs1 part1 (upf rem j t) (upf pt j v)).
  1, 3: (split; [unfold gs1; now rewrite upd_length|split; [unfold part1; now rewrite upd_length|split]];
    [intros i q Ei; unfold gs1; rewrite nth_upd by lia; unfold upf; destruct (Nat.eqb_spec i j) as [->|];
      [rewrite Ep in Ei; inversion Ei; subst q; eauto|now apply G]
    |intros i hi; unfold part1; rewrite nth_upd by lia; unfold upf; destruct (i =? j)%nat; auto]).
  - destruct (Z.ltb_spec (Z.of_nat j) (Z.of_nat (length gs) - 1)); [lia|].
    exists gs1, part1, (upf rem j t), (upf pt j v). split; [replace (Z.of_nat j) with (Z.of_nat k - 1)%Z by lia; reflexivity|]. split; [exact Ok1|].
    assert (Hl : last part1 0 = v).
    { assert (E1 : nth_error part1 j = Some v) by (unfold part1; rewrite nth_upd by lia; now rewrite Nat.eqb_refl).
      apply (last_nth part1 0 j v E1). unfold part1; rewrite upd_length; lia. }
    rewrite Hl. replace k with (Datatypes.S j) by lia. cbn [out]. rewrite Er. cbn [flat_map].
    assert (Sk : skipn (Datatypes.S j) ps = []) by (apply skipn_all2; lia). rewrite Sk. cbn [suf map app].
    rewrite upf_same. assert (Ed : depj j u = dep (pmask p) u) by (unfold depj; now rewrite Ep). rewrite Ed, N.add_0_r. fold v. f_equal. f_equal.
    + assert (Eprev : prev (upf pt j v) j = prev pt j) by (destruct j; auto; cbn; unfold upf; destruct (Nat.eqb_spec j (Datatypes.S j)); auto; lia).
      rewrite Eprev. reflexivity.
    + apply out_ext; intros i hi; unfold upf; destruct (Nat.eqb_spec i j); auto; lia.
  - destruct (Z.ltb_spec (Z.of_nat j) (Z.of_nat (length gs) - 1)); [|lia].
    replace (Z.of_nat j + 1)%Z with (Z.of_nat (Datatypes.S j)) by lia.
    destruct (nth_error ps (Datatypes.S j)) as [q|] eqn:Eq; [|apply nth_error_None in Eq; lia].
    assert (F1 : rem (Datatypes.S j) = full q) by (rewrite (Fr (Datatypes.S j) ltac:(lia)); unfold fullj; now rewrite Eq).
    destruct (full q) as [|u' t'] eqn:Fq; [exfalso; now apply (proj1 (proj2 (gen_rem_fresh q (par_nth _ _ Eq))))|].
    destruct (IH (Datatypes.S j) gs1 part1 (upf rem j t) (upf pt j v) u' t' fuel) as [gs' [part' [rem' [pt' [E [Ok' O]]]]]].
    + lia. + lia. + exact Ok1.
    + intros i hi. unfold upf. destruct (Nat.eqb_spec i j); [lia|]. apply Fr. lia.
    + unfold upf. destruct (Nat.eqb_spec (Datatypes.S j) j); [lia|]. exact F1.
    + exists gs', part', rem', pt'. split; [exact E|]. split; [exact Ok'|]. rewrite <- O. clear O E Ok' IH.
      cbn [out]. rewrite Er. cbn [flat_map]. rewrite <- app_assoc.
      assert (Eprev : prev (upf pt j v) j = prev pt j) by (destruct j; auto; cbn; unfold upf; destruct (Nat.eqb_spec j (Datatypes.S j)); auto; lia).
      rewrite Eprev. f_equal.
      * rewrite (skipn_nth _ _ Eq). cbn [suf]. rewrite (upf_other rem j t (Datatypes.S j)) by lia. rewrite F1, <- Fq.
        cbn [prev]. rewrite upf_same. unfold depj. rewrite Ep, Eq. unfold v.
        rewrite !flat_map_concat_map, concat_map, map_map. f_equal. apply map_ext. intros a. rewrite map_map. apply map_ext. intros y.
        unfold w64. rewrite <- (N.add_assoc _ (dep (pmask q) a) y). rewrite N.add_mod_idemp_l by discriminate. reflexivity.
      * rewrite upf_same. f_equal. apply out_ext; intros i hi; unfold upf; destruct (Nat.eqb_spec i j); auto; lia.
Qed.

(** one call of next() from level j - 1 *)
Lemma step j : forall gs part rem pt fuel, (j <= k)%nat -> (j + k < fuel)%nat ->
  st_ok gs part rem pt -> fresh_from rem j -> out rem pt j <> [] ->
  exists gs' part' rem' pt', mg_loop fuel ps gs (Z.of_nat j - 1) part = Some (gs', Z.of_nat k - 1, part')%Z /\
    st_ok gs' part' rem' pt' /\ out rem pt j = last part' 0 :: out rem' pt' k.
Proof.
  induction j as [|j IH]; intros gs part rem pt fuel hj hf Ok Fr Ne; [now cbn in Ne|].
  replace (Z.of_nat (Datatypes.S j) - 1)%Z with (Z.of_nat j) by lia.
  destruct (rem j) as [|u t] eqn:Er.
  - destruct fuel as [|fuel]; [lia|]. cbn [mg_loop]. destruct (Z.ltb_spec (Z.of_nat j) 0); [lia|]. rewrite Nat2Z.id.
    destruct (nth_error ps j) as [p|] eqn:Ep; [|apply nth_error_None in Ep; lia].
    pose proof (par_nth _ _ Ep) as PO.
    pose proof Ok as [Lg [Lp [G P]]]. destruct (G j p Ep) as [g [Eg Gr]]. rewrite Eg. rewrite Er in Gr. rewrite (gen_rem_nil _ _ Gr).
    cbn [out] in Ne. rewrite Er in Ne. cbn [flat_map app] in Ne.
    destruct (IH (upd gs j (ug_reset g)) part (upf rem j (full p)) pt fuel) as [gs' [part' [rem' [pt' [E [Ok' O]]]]]].
    + lia. + lia.
    + split; [now rewrite upd_length|split; [auto|split; [|auto]]]. intros i q Ei. rewrite nth_upd by lia. unfold upf.
      destruct (Nat.eqb_spec i j) as [->|]; [|now apply G]. rewrite Ep in Ei. inversion Ei; subst q.
      exists (ug_reset g). split; auto. destruct Gr as [-> _]. apply gen_rem_fresh. exact PO.
    + intros i hi. unfold upf. destruct (Nat.eqb_spec i j) as [->|]; [unfold fullj; now rewrite Ep|]. apply Fr. lia.
    + rewrite (out_ext _ rem _ pt); auto. intros i hi. unfold upf. destruct (Nat.eqb_spec i j); auto; lia.
    + exists gs', part', rem', pt'. split; [exact E|]. split; [exact Ok'|]. rewrite <- O. cbn [out]. rewrite Er. cbn [flat_map app].
      apply out_ext; auto. intros i hi. unfold upf. destruct (Nat.eqb_spec i j); auto; lia.
  - apply (descend (k - 1 - j) j gs part rem pt u t fuel); auto; lia.
Qed.

(** the loop while(!done()) next() *)
Lemma run_spec (kpos : (0 < k)%nat) n : forall j gs part rem pt i total, (j <= k)%nat -> (0 < j)%nat ->
  st_ok gs part rem pt -> fresh_from rem j -> length (out rem pt j) = n -> total < 2 ^ 64 -> i + N.of_nat n = total ->
  exists g', mg_run n (mk_mg ps gs total i (Z.of_nat j - 1) part) = Some (g', out rem pt j) /\ mg_done g' = true.
Proof.
  induction n as [|n IH]; intros j gs part rem pt i total hj hj0 Ok Fr Ln ht Hi.
  - cbn [mg_run]. destruct (out rem pt j); [|discriminate]. eexists. split; [reflexivity|]. unfold mg_done. cbn. apply N.eqb_eq. lia.
  - cbn [mg_run]. assert (Dn : mg_done (mk_mg ps gs total i (Z.of_nat j - 1) part) = false) by (unfold mg_done; cbn; apply N.eqb_neq; lia).
    rewrite Dn. destruct (step j gs part rem pt (3 * length gs + 1)) as [gs' [part' [rem' [pt' [E [Ok' O]]]]]]; auto.
    + destruct Ok as [-> _]. lia.
    + intros Q. rewrite Q in Ln. discriminate.
    + unfold mg_next. cbn [mg_gens mg_params mg_s mg_partial mg_total mg_i]. pose proof (proj1 Ok) as Lg.
      destruct gs as [|g0 gs0]; [cbn in Lg; lia|]. rewrite E.
      rewrite w64_small by lia. rewrite O in Ln |- *. cbn [length] in Ln.
      destruct (IH k gs' part' rem' pt' (i + 1) total) as [g' [E' D']]; auto.
      * intros i0 h0. lia.
      * lia.
      * rewrite E'. exists g'. auto.
Qed.

Definition prodb : N := fold_right (fun p acc => binom (pM p) (pN p) * acc) 1 ps.
End Gen.

Lemma suf_length ps : Forall par_ok ps -> N.of_nat (length (suf ps)) = prodb ps.
Proof.
  induction 1 as [|p ps Hp H IH]; auto. cbn [suf]. rewrite blocks_length, Nat2N.inj_mul, IH.
  rewrite (proj1 (proj2 (proj2 (gen_rem_fresh p Hp)))). reflexivity.
Qed.

Lemma int_acc_small sizes : forall acc, 0 < acc -> fold_right N.mul 1 sizes * acc < 2 ^ 31 -> Forall (fun s => 0 < s) sizes ->
  fold_left (fun acc s => to_int32 (w64 (z_to_u64 acc * s))) sizes (Z.of_N acc) = Z.of_N (fold_right N.mul 1 sizes * acc).
Proof.
  induction sizes as [|s t IH]; intros acc h0 hb F; cbn [fold_left fold_right]; [f_equal; lia|].
  inversion F as [|? ? hs F']; subst. cbn [fold_right] in hb.
  assert (hp : 0 < fold_right N.mul 1 t). { clear - F'. induction F'; cbn; [lia|nia]. }
  assert (Q : acc * s < 2 ^ 31). { change (2 ^ 31) with 2147483648 in *. nia. }
  assert (E : to_int32 (w64 (z_to_u64 (Z.of_N acc) * s)) = Z.of_N (s * acc)).
  { assert (acc < 2 ^ 31) by (change (2 ^ 31) with 2147483648 in *; nia).
    assert (z_to_u64 (Z.of_N acc) = acc) as ->. { unfold z_to_u64. rewrite Z.mod_small; [lia|]. change (2 ^ 64)%Z with 18446744073709551616%Z. change (2 ^ 31) with 2147483648 in *. lia. }
    rewrite w64_small by (change (2 ^ 31) with 2147483648 in *; change (2 ^ 64) with 18446744073709551616; lia).
    unfold to_int32. rewrite N.mod_small by (change (2 ^ 32) with 4294967296; change (2 ^ 31) with 2147483648 in *; lia).
    destruct (Z.ltb_spec (Z.of_N (acc * s)) (2 ^ 31)); [f_equal; lia|]. change (2 ^ 31)%Z with 2147483648%Z in *. change (2 ^ 31) with 2147483648 in *. lia. }
  rewrite E, IH; [f_equal; lia|nia| |auto]. change (2 ^ 31) with 2147483648 in *. nia.
Qed.

Lemma mg_all_spec ps : Forall par_ok ps -> prodb ps < 2 ^ 31 -> Forall (fun y => y < 2 ^ 64) (suf ps) ->
  mg_all (mg_reset (multi_gen_make ps)) = Some (suf ps).
Proof.
  intros Hps Hb Hs.
  assert (Et : z_to_u64 (int_accumulate (map ug_total (map unranking_generator_init ps))) = prodb ps).
  { unfold int_accumulate. change 1%Z with (Z.of_N 1).
    assert (Ep : fold_right N.mul 1 (map ug_total (map unranking_generator_init ps)) = prodb ps).
    { clear Hb Hs. induction Hps as [|p ps [h1 [h2 _]] H IH]; auto. cbn [map fold_right prodb]. rewrite IH, ug_total_binom; auto. }
    rewrite int_acc_small; rewrite ?Ep, ?N.mul_1_r; auto; try lia.
    - unfold z_to_u64. rewrite Z.mod_small; [lia|]. change (2 ^ 64)%Z with 18446744073709551616%Z. change (2 ^ 31) with 2147483648 in *. lia.
    - rewrite map_map. apply Forall_forall. intros s Hi. apply in_map_iff in Hi. destruct Hi as [p [<- Hp]]. rewrite Forall_forall in Hps.
      destruct (Hps p Hp) as [h1 [h2 _]]. rewrite ug_total_binom by auto. now apply binom_pos. }
  unfold multi_gen_make, mg_reset. cbn [mg_params mg_gens mg_total mg_partial]. rewrite Et.
  unfold mg_all. cbn [mg_total]. destruct ps as [|p0 pt0] eqn:Eps; [reflexivity|]. rewrite <- Eps in *.
  set (gs := map ug_reset (map unranking_generator_init ps)). set (part := map (fun _ : unranking_generator => 0) (map unranking_generator_init ps)).
  assert (kpos : (0 < length ps)%nat) by (rewrite Eps; cbn; lia).
  assert (Ok : st_ok ps gs part (fullj ps) (fun _ => 0)).
  { split; [unfold gs; now rewrite !map_length|]. split; [unfold part; now rewrite !map_length|]. split.
    - intros j p Ep. exists (unranking_generator_init p). unfold gs. rewrite !nth_error_map, Ep. cbn [option_map]. split; [reflexivity|].
      unfold fullj. rewrite Ep. apply gen_rem_fresh. rewrite Forall_forall in Hps. apply Hps. eapply nth_error_In; eauto.
    - intros j hj. unfold part. rewrite !nth_error_map. destruct (nth_error ps j) eqn:Q; [reflexivity|]. apply nth_error_None in Q. lia. }
  assert (Eo : out ps (fullj ps) (fun _ => 0) 1 = suf ps).
  { cbn [out]. rewrite app_nil_r. cbn [prev]. unfold fullj, depj. rewrite Eps. cbn [nth_error skipn suf].
    rewrite !flat_map_concat_map. f_equal. apply map_ext_in. intros u Hu. apply map_ext_in. intros y Hy.
    rewrite N.add_0_l. apply w64_small. rewrite Forall_forall in Hs. apply Hs. rewrite Eps. cbn [suf]. apply blocks_In. eauto. }
  pose proof (suf_length ps Hps) as Ls.
  destruct (run_spec ps Hps kpos (N.to_nat (prodb ps)) 1 gs part (fullj ps) (fun _ => 0) 0 (prodb ps)) as [g' [E D]]; auto; try lia.
  - intros i hi. reflexivity.
  - rewrite Eo. lia.
  - change (Z.of_nat 1 - 1)%Z with 0%Z in E. rewrite E, D. now rewrite Eo.
Qed.
