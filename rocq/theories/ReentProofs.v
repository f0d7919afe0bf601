(** Proofs for C73: foreach over sector views as a loop over shared state *)
From Coq Require Import NArith ZArith List Bool Arith Lia.
From Verif Require Import BitsModel BitsSpec BitsProofs ExprModel HSModel HSEnum RankModel RankSpec RankProofs LOpModel SectorModel SectorSpec SectorProofs SectorMain SectorGen ReentModel ReentSpec.
Import ListNotations.
Open Scope N_scope.
Open Scope list_scope.

(** the sequence of states of a generator that is run to the end *)
Inductive steps {G} (gdone : G -> bool) (gnext : G -> option (G * N)) : G -> list N -> G -> Prop :=
| st_end : forall g, gdone g = true -> steps gdone gnext g [] g
| st_next : forall g g' u us ge, gdone g = false -> gnext g = Some (g', u) -> steps gdone gnext g' us ge -> steps gdone gnext g (u :: us) ge.

Section Generic.
Context {G A S : Type} (is_zero : S -> bool) (get : A -> N -> option S).
Context (ginit : G -> G) (gdone : G -> bool) (gnext : G -> option (G * N)) (row : N -> list N).
Notation rows_loop := (fe_rows is_zero get gdone gnext row).
Notation vis := (visit is_zero).
Notation lv := (@leaves G A S).

Lemma visit_leaves f : forall xs k g a,
  vis (fun p => get (snd p)) (lv f) xs k (g, a) = fmap (fun a' => (g, a')) (vis get f xs k a).
Proof.
  induction xs as [|x r IH]; intros k g a; cbn [visit]; auto. cbn [snd]. destruct (get a k) as [s|]; auto.
  destruct (is_zero s); auto. unfold leaves at 1. cbn [fst snd]. destruct (f x s a); cbn [fmap]; auto.
Qed.
Lemma visit_app {T} (gt : T -> N -> option S) f : forall xs ys k t,
  vis gt f (xs ++ ys) k t = match vis gt f xs k t with FOk t' => vis gt f ys (k + N.of_nat (length xs)) t' | e => e end.
Proof.
  induction xs as [|x r IH]; intros ys k t; cbn [visit app length]; [f_equal; lia|].
  destruct (gt t k) as [s|]; auto. replace (k + N.of_nat (Datatypes.S (length r))) with (k + 1 + N.of_nat (length r)) by lia.
  destruct (is_zero s); [apply IH|]. destruct (f x s t); auto.
Qed.

(** a loop whose functor does not use the view *)
Lemma rows_leaves f : forall us g ge fuel k a, steps gdone gnext g us ge -> (length us <= fuel)%nat ->
  match rows_loop fuel (lv f) k (g, a), vis get f (flat_map row us) k a with
  | FOk (g', a'), FOk a'' => a' = a'' /\ g' = ge
  | FThrow (g', a'), FThrow a'' => a' = a'' /\ exists pre, steps gdone gnext g' pre ge
  | FBad, FBad => True
  | _, _ => False
  end.
Proof.
  induction us as [|u us IH]; intros g ge fuel k a Hs hf; inversion Hs as [? Hd|? g' ? ? ? Dg Ng Hs']; subst.
  - cbn [flat_map visit]. destruct fuel; cbn [fe_rows fst]; rewrite Hd; auto.
  - destruct fuel as [|fuel]; [cbn in hf; lia|]. cbn [fe_rows fst]. rewrite Dg, Ng. cbn [flat_map snd].
    rewrite visit_leaves, visit_app. destruct (vis get f (row u) k a) as [a1|a1|] eqn:E; cbn [fmap]; auto.
    + apply IH; auto. cbn in hf. lia.
    + split; auto. eauto.
Qed.

(** functors with nested loops *)
Context (g0 : G) (us : list N).
Notation ok := (gen_state ginit gnext g0).
Context (Hall : forall g, ok g -> exists ge, steps gdone gnext (ginit g) us ge).
Lemma ok_steps g l ge : ok g -> steps gdone gnext g l ge -> ok ge.
Proof. intros Hg Hs. revert Hg. induction Hs; intros Hg; auto. apply IHHs. eapply gs_next; eauto. Qed.

Context (fuel : nat) (Hf : (length us <= fuel)%nat).
Definition gloop (f : @functor G A S) (st : G * A) : fres (G * A) := rows_loop fuel f 0 (ginit (fst st), snd st).
Notation l := (flat_map row us).

Lemma steps_done g us' ge : steps gdone gnext g us' ge -> gdone ge = true.
Proof. induction 1; auto. Qed.
Lemma loop_leaves f g a : ok g ->
  match gloop (lv f) (g, a), vis get f l 0 a with
  | FOk (g', a'), FOk a'' => a' = a'' /\ ok g' /\ gdone g' = true
  | FThrow (g', a'), FThrow a'' => a' = a''
  | FBad, FBad => True
  | _, _ => False
  end.
Proof.
  intros Hg. destruct (Hall g Hg) as [ge Hs]. pose proof (rows_leaves f us (ginit g) ge fuel 0 a Hs Hf) as R.
  unfold gloop. cbn [fst snd]. destruct (rows_loop fuel (lv f) 0 (ginit g, a)) as [[g' a']|[g' a']|]; destruct (vis get f l 0 a); auto.
  - destruct R as [-> ->]. split; auto. split; [|eapply steps_done; eauto]. eapply ok_steps; [|exact Hs]. now apply gs_init.
  - tauto.
Qed.
Lemma steps_split g pre u post ge : steps gdone gnext g (pre ++ u :: post) ge -> ok g -> exists g', ok g'.
Proof. intros _ H. now exists g. Qed.
Lemma rows_ok (f : @functor G A S) : (forall x s g a, ok g -> match f x s (g, a) with FOk (g', _) | FThrow (g', _) => ok g' | FBad => True end) ->
  forall n k g a, ok g -> match rows_loop n f k (g, a) with FOk (g', _) | FThrow (g', _) => ok g' | FBad => True end.
Proof.
  intros Hf'. assert (V : forall xs k g a, ok g -> match vis (fun p => get (snd p)) f xs k (g, a) with FOk (g', _) | FThrow (g', _) => ok g' | FBad => True end).
  { induction xs as [|x r IH]; intros k g a Hg; cbn [visit snd]; auto. destruct (get a k) as [s|]; auto. destruct (is_zero s); [now apply IH|].
    pose proof (Hf' x s g a Hg) as Q. destruct (f x s (g, a)) as [[g' a']|[g' a']|]; [apply IH; exact Q|exact Q|exact Logic.I]. }
  induction n as [|n IH]; intros k g a Hg; cbn [fe_rows fst]; destruct (gdone g); auto.
  destruct (gnext g) as [[g' u]|] eqn:E; auto. cbn [snd]. assert (Hg' : ok g') by (eapply gs_next; eauto). pose proof (V (row u) k g' a Hg') as Q.
  destruct (vis (fun p => get (snd p)) f (row u) k (g', a)) as [[g1 a1]|[g1 a1]|]; [apply IH; exact Q|exact Q|exact Logic.I].
Qed.
(** the generator of the outer loop after a row *)
Context (body : N -> S -> A -> A) (nests : N -> S -> A -> bool) (inner : N -> S -> N -> S -> A -> fres A).
Notation nst := (nesting gloop body nests inner).
Notation fc := (full_call is_zero get body nests inner l).
Lemma row_nested : forall xs k g g1 a (b : bool), ok g -> (if b then ok g1 /\ gdone g1 = true else g1 = g) ->
  match vis (fun p => get (snd p)) nst xs k (g1, a), vis (fun t => get (fst t)) fc xs k (a, b) with
  | FOk (g', a'), FOk (a'', b') => a' = a'' /\ (if b' then ok g' /\ gdone g' = true else g' = g)
  | FThrow (g', a'), FThrow (a'', _) => a' = a''
  | FBad, FBad => True
  | _, _ => False
  end.
Proof.
  induction xs as [|x r IH]; intros k g g1 a b Hg Hb; cbn [visit]; auto. cbn [fst snd].
  destruct (get a k) as [s|]; auto. destruct (is_zero s); [now apply IH|].
  assert (E1 : nst x s (g1, a) = if nests x s a then gloop (lv (inner x s)) (g1, body x s a) else FOk (g1, body x s a)) by reflexivity.
  assert (E2 : fc x s (a, b) = if nests x s a then fmap (fun a => (a, true)) (vis get (inner x s) l 0 (body x s a)) else FOk (body x s a, b)) by reflexivity.
  rewrite E1, E2. clear E1 E2.
  destruct (nests x s a).
  - assert (O1 : ok g1) by (destruct b; [tauto|now subst]).
    pose proof (loop_leaves (inner x s) g1 (body x s a) O1) as R.
    destruct (gloop (lv (inner x s)) (g1, body x s a)) as [[g' a']|[g' a']|]; destruct (vis get (inner x s) l 0 (body x s a)) as [a2|a2|]; cbn [fmap]; try contradiction; auto.
    destruct R as [-> [R1 R2]]. apply (IH (k + 1) g g' a2 true); auto.
  - apply IH; auto.
Qed.
Lemma rows_nested : forall us' g ge fuel' k a, ok g -> steps gdone gnext g us' ge -> (length us' <= fuel')%nat ->
  match rows_loop fuel' nst k (g, a), rows_until_nested is_zero get body nests inner l (map row us') k a with
  | FOk (_, a'), FOk a'' => a' = a''
  | FThrow (_, a'), FThrow a'' => a' = a''
  | FBad, FBad => True
  | _, _ => False
  end.
Proof.
  induction us' as [|u us' IH]; intros g ge fuel' k a Hg Hs hf; inversion Hs as [? Hd|? g' ? ? ? Dg Ng Hs']; subst.
  - cbn [map rows_until_nested]. destruct fuel'; cbn [fe_rows fst]; rewrite Hd; auto.
  - destruct fuel' as [|fuel']; [cbn in hf; lia|]. cbn [fe_rows fst]. rewrite Dg, Ng. cbn [map rows_until_nested snd].
    assert (Hg' : ok g') by (eapply gs_next; eauto).
    pose proof (row_nested (row u) k g' g' a false Hg' eq_refl) as R.
    destruct (vis (fun p => get (snd p)) nst (row u) k (g', a)) as [[g1 a1]|[g1 a1]|];
      destruct (vis (fun t => get (fst t)) fc (row u) k (a, false)) as [[a2 b]|[a2 b]|]; try contradiction; auto.
    destruct R as [-> R]. destruct b.
    + destruct R as [_ R]. destruct fuel'; cbn [fe_rows fst]; now rewrite R.
    + subst g1. eapply IH; eauto. cbn in hf. lia.
Qed.
Lemma loop_nested g a : ok g ->
  match gloop nst (g, a), rows_until_nested is_zero get body nests inner l (map row us) 0 a with
  | FOk (_, a'), FOk a'' => a' = a''
  | FThrow (_, a'), FThrow a'' => a' = a''
  | FBad, FBad => True
  | _, _ => False
  end.
Proof.
  intros Hg. destruct (Hall g Hg) as [ge Hs]. apply (rows_nested us (ginit g) ge fuel 0 a); auto. now apply gs_init.
Qed.
End Generic.

(** ** single sectors *)
Lemma ug_steps : forall n g g' l, ug_run n g = Some (g', l) -> ug_done g' = true -> steps ug_done ug_next g l g'.
Proof.
  induction n as [|n IH]; intros g g' l E D; cbn [ug_run] in E.
  - inversion E; subst. now constructor.
  - destruct (ug_done g) eqn:Dg; [inversion E; subst; now constructor|].
    destruct (ug_next g) as [[g1 x]|] eqn:N1; [|discriminate]. cbn [obind fst snd] in E.
    destruct (ug_run n g1) as [[g2 l2]|] eqn:R2; [|discriminate]. cbn [obind fst snd] in E. inversion E; subst.
    econstructor; eauto.
Qed.
Lemma ug_state_reset p g : gen_state ug_reset ug_next (unranking_generator_init p) g -> ug_reset g = ug_reset (unranking_generator_init p).
Proof.
  intros H. assert (Q : ug_counted g = ug_counted (unranking_generator_init p) /\ ug_total g = ug_total (unranking_generator_init p) /\ ug_mask g = ug_mask (unranking_generator_init p)).
  { induction H; auto. destruct IHgen_state as [<- [<- <-]]. unfold ug_next in H0. destruct (ug_i g =? 0).
    - inversion H0; subst; auto.
    - destruct (next_state (ug_unranked g)); [|discriminate]. cbn in H0. inversion H0; subst; auto. }
  destruct Q as [Q1 [Q2 Q3]]. unfold ug_reset. now rewrite Q1, Q2, Q3.
Qed.
Lemma ug_all_steps p us : ug_all (ug_reset (unranking_generator_init p)) = Some us ->
  forall g, gen_state ug_reset ug_next (unranking_generator_init p) g -> exists ge, steps ug_done ug_next (ug_reset g) us ge.
Proof.
  intros E g Hg. rewrite (ug_state_reset p g Hg). unfold ug_all in E.
  destruct (ug_run _ _) as [[g' l]|] eqn:R; [|discriminate]. destruct (ug_done g') eqn:D; [|discriminate]. inversion E; subst. exists g'. eapply ug_steps; eauto.
Qed.

(** ** multisectors *)
Lemma mg_steps : forall n g g' l, mg_run n g = Some (g', l) -> mg_done g' = true -> steps mg_done mg_next g l g'.
Proof.
  induction n as [|n IH]; intros g g' l E D; cbn [mg_run] in E.
  - inversion E; subst. now constructor.
  - destruct (mg_done g) eqn:Dg; [inversion E; subst; now constructor|].
    destruct (mg_next g) as [[g1 x]|] eqn:N1; [|discriminate].
    destruct (mg_run n g1) as [[g2 l2]|] eqn:R2; [|discriminate]. inversion E; subst.
    econstructor; eauto.
Qed.
Definition ug_same (p : sector_params) (g : unranking_generator) : Prop := ug_reset g = ug_reset (unranking_generator_init p).
Lemma ug_next_reset g g' x : ug_next g = Some (g', x) -> ug_reset g' = ug_reset g.
Proof.
  unfold ug_next. destruct (ug_i g =? 0); intros E; [inversion E; reflexivity|].
  destruct (next_state (ug_unranked g)); [|discriminate]. cbn in E. inversion E; reflexivity.
Qed.
Lemma upd_Forall2 {A B} (R : A -> B -> Prop) l l' j b : Forall2 R l l' -> (forall a, nth_error l j = Some a -> R a b) -> Forall2 R l (upd l' j b).
Proof.
  intros F. revert j. induction F as [|a b' l l' H F IH]; intros [|j] Hj; cbn; constructor; auto.
Qed.
Lemma Forall2_nth {A B} (R : A -> B -> Prop) l l' j a b : Forall2 R l l' -> nth_error l j = Some a -> nth_error l' j = Some b -> R a b.
Proof. intros F. revert j. induction F; intros [|j] E1 E2; cbn in *; try discriminate; [congruence|eauto]. Qed.
Lemma mg_loop_same ps : forall fuel gs s part gs' s' part', Forall2 ug_same ps gs -> length part = length ps ->
  mg_loop fuel ps gs s part = Some (gs', s', part') -> Forall2 ug_same ps gs' /\ length part' = length ps.
Proof.
  induction fuel as [|f IH]; intros gs s part gs' s' part' F L E; cbn [mg_loop] in E; [discriminate|].
  destruct (s <? 0)%Z; [inversion E; subst; auto|].
  destruct (nth_error gs (Z.to_nat s)) as [g|] eqn:Eg; [|discriminate]. destruct (nth_error ps (Z.to_nat s)) as [p|] eqn:Ep; [|discriminate].
  pose proof (Forall2_nth _ _ _ _ _ _ F Ep Eg) as Sg.
  destruct (ug_done g).
  - eapply IH; [|exact L|exact E]. apply upd_Forall2; auto. intros a Ea. rewrite Ep in Ea. injection Ea as <-. unfold ug_same in *. rewrite <- Sg. reflexivity.
  - destruct (ug_next g) as [[g1 x]|] eqn:N1; [|discriminate]. destruct (deposit_bits x (pmask p)); [|discriminate].
    destruct (if (s =? 0)%Z then _ else _); [|discriminate].
    assert (F' : Forall2 ug_same ps (upd gs (Z.to_nat s) g1)).
    { apply upd_Forall2; auto. intros a Ea. rewrite Ep in Ea. injection Ea as <-. unfold ug_same in *. now rewrite (ug_next_reset _ _ _ N1). }
    destruct (s <? Z.of_nat (length gs) - 1)%Z.
    + eapply IH; [exact F'|rewrite upd_length; exact L|exact E].
    + inversion E; subst. split; auto. now rewrite upd_length.
Qed.
Lemma mg_state_inv ps g : gen_state mg_reset mg_next (multi_gen_make ps) g ->
  mg_params g = ps /\ Forall2 ug_same ps (mg_gens g) /\ mg_total g = mg_total (multi_gen_make ps) /\ length (mg_partial g) = length ps.
Proof.
  induction 1 as [|g H IH|g g' x H IH E].
  - cbn. split; auto. split; [|split; [auto|now rewrite !map_length]].
    induction ps; constructor; auto. reflexivity.
  - destruct IH as [I1 [I2 [I3 I4]]]. cbn. split; auto. split; [|auto]. clear -I2. induction I2; constructor; auto. 
  - destruct IH as [I1 [I2 [I3 I4]]]. unfold mg_next in E. destruct (mg_gens g) as [|g1 gs] eqn:Eg.
    + inversion E; subst. cbn. auto.
    + rewrite <- Eg in *. destruct (mg_loop _ _ _ _ _) as [[[gs' s'] part']|] eqn:El; [|discriminate]. inversion E; subst.
      destruct (mg_loop_same _ _ _ _ _ _ _ _ I2 I4 El) as [K1 K2]. cbn. auto.
Qed.
Lemma mg_state_reset ps g : gen_state mg_reset mg_next (multi_gen_make ps) g ->
  exists part, length part = length ps /\
    mg_reset g = mk_mg ps (map ug_reset (map unranking_generator_init ps)) (mg_total (multi_gen_make ps)) 0 0 part.
Proof.
  intros H. destruct (mg_state_inv ps g H) as [I1 [I2 [I3 I4]]]. exists (mg_partial g). split; auto.
  unfold mg_reset. rewrite I1, I3. f_equal. rewrite map_map. clear -I2. induction I2; cbn; auto. f_equal; auto.
Qed.
Lemma mg_all_part ps : Forall par_ok ps -> prodb ps < 2 ^ 31 -> Forall (fun y => y < 2 ^ 64) (suf ps) ->
  forall g, gen_state mg_reset mg_next (multi_gen_make ps) g -> exists ge, steps mg_done mg_next (mg_reset g) (suf ps) ge.
Proof.
  intros Hps Hb Hs g Hg. destruct (mg_state_reset ps g Hg) as [part [Lp ->]]. clear g Hg.
  assert (Et : mg_total (multi_gen_make ps) = prodb ps).
  { unfold multi_gen_make. cbn [mg_total]. unfold int_accumulate. change 1%Z with (Z.of_N 1).
    assert (Ep : fold_right N.mul 1 (map ug_total (map unranking_generator_init ps)) = prodb ps).
    { clear Hb Hs Lp. induction Hps as [|p ps [h1 [h2 _]] H IH]; auto. cbn [map fold_right prodb]. rewrite IH, ug_total_binom; auto. }
    rewrite int_acc_small; rewrite ?Ep, ?N.mul_1_r; auto; try lia.
    - unfold z_to_u64. rewrite Z.mod_small; [lia|]. change (2 ^ 64)%Z with 18446744073709551616%Z. change (2 ^ 31) with 2147483648 in *. lia.
    - rewrite map_map. apply Forall_forall. intros s Hi. apply in_map_iff in Hi. destruct Hi as [p [<- Hp]]. rewrite Forall_forall in Hps.
      destruct (Hps p Hp) as [h1 [h2 _]]. rewrite ug_total_binom by auto. now apply binom_pos. }
  rewrite Et. destruct ps as [|p0 pt0] eqn:Eps.
  { eexists. cbn. eapply st_next; [reflexivity|reflexivity|]. now constructor. }
  rewrite <- Eps in *. set (gs := map ug_reset (map unranking_generator_init ps)).
  assert (kpos : (0 < length ps)%nat) by (rewrite Eps; cbn; lia).
  assert (Ok : st_ok ps gs part (fullj ps) (fun j => nth j part 0)).
  { split; [unfold gs; now rewrite !map_length|]. split; [exact Lp|]. split.
    - intros j p Ep. exists (unranking_generator_init p). unfold gs. rewrite !nth_error_map, Ep. cbn [option_map]. split; [reflexivity|].
      unfold fullj. rewrite Ep. apply gen_rem_fresh. rewrite Forall_forall in Hps. apply Hps. eapply nth_error_In; eauto.
    - intros j hj. apply nth_error_nth'. lia. }
  assert (Eo : out ps (fullj ps) (fun j => nth j part 0) 1 = suf ps).
  { cbn [out]. rewrite app_nil_r. cbn [prev]. unfold fullj, depj. rewrite Eps. cbn [nth_error skipn suf].
    rewrite !flat_map_concat_map. f_equal. apply map_ext_in. intros u Hu. apply map_ext_in. intros y Hy.
    rewrite N.add_0_l. apply w64_small. rewrite Forall_forall in Hs. apply Hs. rewrite Eps. cbn [suf]. apply blocks_In. eauto. }
  pose proof (suf_length ps Hps) as Ls.
  destruct (run_spec ps Hps kpos (N.to_nat (prodb ps)) 1 gs part (fullj ps) (fun j => nth j part 0) 0 (prodb ps)) as [g' [E D]]; auto; try lia.
  - intros i hi. reflexivity.
  - rewrite Eo. lia.
  - change (Z.of_nat 1 - 1)%Z with 0%Z in E. rewrite Eo in E. exists g'. eapply mg_steps; eauto.
Qed.
