(** The fermionic action implements products of Jordan-Wigner operators. *)
From Coq Require Import NArith ZArith List Bool Sorted Permutation Lia.
From Verif Require Import BitsModel BitsSpec BitsProofs ExprModel ExprSpec ExprOrder HSModel HSSpec HSEnum
  HSProofs HSMain PropHS LOpModel LOpSpec LOpFermion LOpSite.
Import ListNotations.
Open Scope N_scope.
Open Scope list_scope.

Section ActF.
Context {I S : Type} (io : index_ops I) (Hio : index_order io).
Context (so : scalar_ops S) (L : scalar_laws so) (sq : N -> S) (half : Z -> S).
Notation es := (espace I).
Notation gact := (gen_act io so sq half).
Notation mact := (mono_act io so sq half).
Notation bnd := (obind so).

Lemma mul_0_l x : s_mul so (s_zero so) x = s_zero so.
Proof.
  assert (E : s_add so (s_mul so (s_zero so) x) (s_mul so (s_zero so) x) = s_mul so (s_zero so) x).
  { rewrite <- (sl_dist_r so L), (sl_add_0 so L). reflexivity. }
  set (z := s_mul so (s_zero so) x) in *.
  assert (A : s_add so (s_add so z z) (s_neg so z) = s_add so z (s_neg so z)) by now rewrite E.
  rewrite <- (sl_add_assoc so L), (sl_neg so L), (sl_add_comm so L), (sl_add_0 so L) in A. exact A.
Qed.
Lemma mul_0_r x : s_mul so x (s_zero so) = s_zero so.
Proof.
  assert (E : s_add so (s_mul so x (s_zero so)) (s_mul so x (s_zero so)) = s_mul so x (s_zero so)).
  { rewrite <- (sl_dist_l so L), (sl_add_0 so L). reflexivity. }
  set (z := s_mul so x (s_zero so)) in *.
  assert (A : s_add so (s_add so z z) (s_neg so z) = s_add so z (s_neg so z)) by now rewrite E.
  rewrite <- (sl_add_assoc so L), (sl_neg so L), (sl_add_comm so L), (sl_add_0 so L) in A. exact A.
Qed.

Lemma obind_assoc o f g : bnd (bnd o f) g = bnd o (fun x => bnd (f x) g).
Proof.
  destruct o as [[b y]|]; cbn; auto. destruct (f y) as [[b' z]|]; cbn; auto.
  destruct (g z) as [[b'' w]|]; cbn; auto. now rewrite (sl_mul_assoc so L).
Qed.
Lemma obind_ext o f g : (forall y, f y = g y) -> bnd o f = bnd o g.
Proof. intros H. destruct o as [[b y]|]; cbn; auto. now rewrite H. Qed.
Lemma mact_app l a b x : mact l (a ++ b) x = bnd (mact l b x) (mact l a).
Proof.
  induction a as [|g a IH]; cbn [app mono_act].
  - destruct (mact l b x) as [[c y]|]; cbn; auto. now rewrite (sl_mul_1_r so L).
  - rewrite IH, obind_assoc. reflexivity.
Qed.

(** f implements the product m on the valid states of l *)
Definition implements (l : list es) (f : N -> S -> ares S) (m : list (gen I)) : Prop :=
  forall x c, valid_state l x ->
  (exists k y, mact l m x = Some (k, y) /\ f x c = AVal (s_mul so c k) y) \/
  (f x c = AZero /\ forall y, amp1 so (mact l m x) y = s_zero so).

Lemma amp1_zero_cases o : (forall y, amp1 so o y = s_zero so) -> o = None \/ exists y, o = Some (s_zero so, y).
Proof.
  intros H. destruct o as [[c y]|]; auto. right. exists y. specialize (H y). cbn in H.
  rewrite N.eqb_refl in H. now subst.
Qed.
Lemma implements_seq l f1 f2 m1 m2 : StronglySorted (es_before io) l -> Forall es_wf l ->
  implements l f1 m1 -> implements l f2 m2 ->
  implements l (fun x c => match f1 x c with AVal c' i => f2 i c' | r => r end) (m2 ++ m1).
Proof.
  intros S0 W H1 H2 x c V. rewrite mact_app. destruct (H1 x c V) as [[k [y [E1 E2]]]|[E1 E2]].
  - rewrite E1, E2. cbn [obind].
    assert (Vy : valid_state l y) by (eapply mono_act_valid; eauto).
    destruct (H2 y (s_mul so c k) Vy) as [[k2 [y2 [E3 E4]]]|[E3 E4]].
    + left. rewrite E3. exists (s_mul so k k2), y2. split; auto. rewrite E4. now rewrite (sl_mul_assoc so L).
    + right. split; auto. intros z. destruct (amp1_zero_cases _ E4) as [->|[w ->]]; cbn; auto.
      destruct (_ =? _); auto. apply mul_0_r.
  - right. rewrite E1. split; auto. intros z. destruct (amp1_zero_cases _ E2) as [->|[w ->]]; cbn; auto.
    destruct (mact l m2 w) as [[k z2]|]; cbn; auto. destruct (_ =? _); auto. apply mul_0_l.
Qed.
Lemma implements_nil l : implements l (fun x c => AVal c x) [].
Proof.
  intros x c V. left. exists (s_one so), x. split; auto. now rewrite (sl_mul_1_r so L).
Qed.
Lemma implements_ext l f f' m : (forall x c, valid_state l x -> f x c = f' x c) -> implements l f m -> implements l f' m.
Proof.
  intros E H x c V. destruct (H x c V) as [[k [y [E1 E2]]]|[E1 E2]].
  - left. exists k, y. rewrite <- E; auto.
  - right. rewrite <- E; auto.
Qed.

(** *** fermions *)
Definition fsite (l : list es) (g : gen I) (dp : bool * nat) : Prop :=
  exists i k, g = GFermion (fst dp) i /\ nth_error l k = Some (ESFermion i) /\ snd dp = offset l k.
Lemma fsite_site l g dp : fsite l g dp -> exists k i, site io l g k (ESFermion i) /\ g = GFermion (fst dp) i /\ snd dp = offset l k.
Proof.
  intros [i [k [E1 [E2 E3]]]]. exists k, i. split; auto. split; auto. subst g. cbn.
  now apply (sto_eq _ _ _ Hio).
Qed.

Lemma sign_mul a b : s_mul so (sign so a) (sign so b) = sign so (xorb a b).
Proof.
  destruct a, b; cbn; rewrite ?(sl_mul_1_l so L), ?(sl_mul_1_r so L); auto.
  assert (E : s_add so (s_mul so (s_neg so (s_one so)) (s_neg so (s_one so))) (s_neg so (s_one so)) = s_zero so).
  { rewrite <- (sl_mul_1_r so L (s_neg so (s_one so))) at 3. rewrite <- (sl_dist_l so L).
    rewrite (sl_add_comm so L), (sl_neg so L). apply mul_0_r. }
  set (z := s_mul so (s_neg so (s_one so)) (s_neg so (s_one so))) in *.
  assert (A : s_add so (s_add so z (s_neg so (s_one so))) (s_one so) = s_one so) by now rewrite E, (sl_add_0 so L).
  rewrite <- (sl_add_assoc so L) in A.
  rewrite (sl_add_comm so L (s_neg so (s_one so))), (sl_neg so L), (sl_add_comm so L), (sl_add_0 so L) in A. exact A.
Qed.

Lemma gact_fstep l g dp x : StronglySorted (es_before io) l -> fsite l g dp ->
  gact l g x = option_map (fun p => (sign so (fst p), snd p)) (fstep dp x).
Proof.
  intros S0 H. destruct (fsite_site _ _ _ H) as [k [i [H1 [-> H2]]]].
  rewrite (gen_act_loc io Hio so sq half L l _ k _ x S0 H1). cbn [es_nbits]. rewrite bit_field_1.
  destruct dp as [d p]; cbn [fst snd] in *. subst p. unfold fstep, jwf; cbn [is_f fst snd].
  destruct d; cbn [loc].
  - destruct (tb x (offset l k)) eqn:T; cbn; auto.
    now rewrite setbit_field, (sl_mul_1_r so L).
  - destruct (tb x (offset l k)) eqn:T; cbn; auto.
    now rewrite clearbit_field, (sl_mul_1_r so L).
Qed.
Lemma mact_fcomp l m pm x : StronglySorted (es_before io) l -> Forall2 (fsite l) m pm ->
  mact l m x = option_map (fun p => (sign so (fst p), snd p)) (fcomp pm x).
Proof.
  intros S0. induction 1 as [|g dp m pm H F IH]; cbn [mono_act fcomp]; auto.
  rewrite IH. destruct (fcomp pm x) as [[b y]|]; cbn; auto.
  rewrite (gact_fstep l g dp y S0 H). destruct (fstep dp y) as [[b' z]|]; cbn; auto.
  now rewrite sign_mul.
Qed.

Definition cpos (pm : list (bool * nat)) : list nat := map snd (filter fst pm).
Definition apos (pm : list (bool * nat)) : list nat := map snd (filter (fun p => negb (fst p)) pm).
Lemma memb_app i a b : memb i (a ++ b) = memb i a || memb i b.
Proof. unfold memb. apply existsb_app. Qed.

Lemma lor_mask m d p : (p < 64)%nat -> is_mask m d ->
  is_mask (N.lor m (w64 (N.shiftl 1 (Z.to_N (Z.of_nat p))))) (d ++ [p]).
Proof.
  intros hp H i. replace (Z.to_N (Z.of_nat p)) with (N.of_nat p) by lia.
  rewrite N.shiftl_1_l, w64_small by (apply N.pow_lt_mono_r; lia).
  rewrite N.lor_spec, H, testbit_pow2, memb_app. f_equal. cbn. rewrite orb_false_r.
  destruct (Nat.eqb_spec i p) as [->|ne]; [apply N.eqb_refl|apply N.eqb_neq; lia].
Qed.

Lemma fermion_loop_spec (h : hspace I) m : hs_inv io h -> forall cs an cm am dc da,
  is_mask cm dc -> is_mask am da -> cs = map Z.of_nat dc -> an = map Z.of_nat da ->
  match fermion_loop io h m cs an cm am with
  | LOk (cs', an', cm', am') => exists pm, Forall2 (fsite (spaces h)) m pm /\
      cs' = map Z.of_nat (dc ++ cpos pm) /\ an' = map Z.of_nat (da ++ apos pm) /\
      is_mask cm' (dc ++ cpos pm) /\ is_mask am' (da ++ apos pm)
  | LUnknown g => In g m /\ (is_f g = false \/ ~ known io (spaces h) g)
  | _ => False
  end.
Proof.
  intros Hi. pose proof Hi as [S0 [W [P [_ [B63 _]]]]].
  induction m as [|g m IH]; intros cs an cm am dc da Mc Ma -> ->; cbn [fermion_loop].
  - exists []. cbn. rewrite !app_nil_r. auto.
  - destruct g as [d i|d i|mm c i]; try (split; [now left|left; reflexivity]).
    pose proof (site_model io Hio h (GFermion d i) Hi) as SM. cbn [gslot] in SM.
    destruct (find_site io (spaces h) 0 (GFermion d i)) as [[o e]|] eqn:FS.
    + destruct SM as [-> [_ [k [St Eo]]]]. destruct St as [E C].
      pose proof (carries_f io Hio _ _ _ C) as Ee. subst e.
      cbn [es_nbits]. replace (Z.of_nat o + Z.of_nat 1 - 1)%Z with (Z.of_nat o) by lia.
      rewrite Z.eqb_refl. cbn [negb].
      assert (ho : (o < 64)%nat).
      { subst o. pose proof (offset_S _ _ _ E) as OS. cbn [es_nbits] in OS. pose proof (offset_total (spaces h) (Datatypes.S k)). lia. }
      assert (FSi : fsite (spaces h) (GFermion d i) (d, o)).
      { exists i, k. cbn. auto. }
      destruct d.
      * specialize (IH (map Z.of_nat (dc ++ [o])) (map Z.of_nat da) _ am (dc ++ [o]) da (lor_mask cm dc o ho Mc) Ma eq_refl eq_refl).
        rewrite map_app in IH. cbn [map] in IH.
        destruct (fermion_loop io h m _ _ _ _) as [[[[cs' an'] cm'] am']|g| |]; auto.
        -- destruct IH as [pm [F [Ec [Ea [M1 M2]]]]]. exists ((true, o) :: pm). cbn [cpos apos filter fst negb map snd].
           fold (cpos pm) (apos pm). rewrite <- app_assoc in *. cbn [app] in *. auto.
        -- destruct IH as [h1 h2]. split; auto. now right.
      * specialize (IH (map Z.of_nat dc) (map Z.of_nat (da ++ [o])) cm _ dc (da ++ [o]) Mc (lor_mask am da o ho Ma) eq_refl eq_refl).
        rewrite map_app in IH. cbn [map] in IH.
        destruct (fermion_loop io h m _ _ _ _) as [[[[cs' an'] cm'] am']|g| |]; auto.
        -- destruct IH as [pm [F [Ec [Ea [M1 M2]]]]]. exists ((false, o) :: pm). cbn [cpos apos filter fst negb map snd].
           fold (cpos pm) (apos pm). rewrite <- app_assoc in *. cbn [app] in *. auto.
        -- destruct IH as [h1 h2]. split; auto. now right.
    + destruct SM as [-> _]. split; [now left|]. right. intros [e [he C]].
      pose proof (find_site_gen io (spaces h) (GFermion d i) 0) as F. rewrite FS in F. rewrite (F _ he) in C. discriminate.
Qed.

(** positions follow the order of the generators *)
Lemma offset_lt_of_before (l : list es) k k' i j : StronglySorted (es_before io) l ->
  nth_error l k = Some (ESFermion i) -> nth_error l k' = Some (ESFermion j) -> idx_lt io i j ->
  (offset l k < offset l k')%nat.
Proof.
  intros S0 E E' H. assert (k < k')%nat.
  { destruct (Nat.lt_trichotomy k k') as [h|[h|h]]; auto; exfalso.
    - subst k'. rewrite E in E'. inversion E'; subst. unfold idx_lt in H. rewrite (sto_irrefl _ _ _ Hio) in H. discriminate.
    - assert (BB : es_before io (ESFermion j) (ESFermion i)).
      { clear -S0 E E' h. revert k k' E E' h. induction S0 as [|x t S IH F]; intros [|k] [|k'] E E' h; cbn in *; try discriminate; try lia.
        - inversion E'; subst. rewrite Forall_forall in F. apply F. eapply nth_error_In; eauto.
        - eapply IH; eauto. lia. }
      assert (HJ : idx_lt io j i) by (inversion BB; auto). unfold idx_lt in *.
      pose proof (sto_trans _ _ _ Hio _ _ _ H HJ) as K. rewrite (sto_irrefl _ _ _ Hio) in K. discriminate. }
  pose proof (offset_S l k _ E) as OS. cbn [es_nbits] in OS.
  pose proof (offset_mono l (Datatypes.S k) k' ltac:(lia)). lia.
Qed.

Lemma ann_only_sorted (l : list es) m pm : StronglySorted (es_before io) l -> StronglySorted (gen_before io) m ->
  Forall2 (fsite l) m pm -> Forall (fun g => exists i, g = GFermion false i) m ->
  exists an, pm = map (pair false) an /\ StronglySorted gt an.
Proof.
  intros S0 Sm. revert pm. induction Sm as [|g m Sm IH F]; intros pm F2 FA; inversion F2 as [|? dp ? pm' H F2' EQ1 EQ2]; subst.
  - exists []. split; auto. constructor.
  - inversion FA as [|? ? [i Eg] FA']; subst. destruct (IH _ F2' FA') as [an [-> San]].
    destruct H as [i' [k [E1 [E2 E3]]]]. destruct dp as [d p]; cbn [fst snd] in *. inversion E1; subst.
    exists (offset l k :: an). split; auto. constructor; auto.
    rewrite Forall_forall. intros q hq.
    assert (exists g', In g' m /\ fsite l g' (false, q)) as [g' [hg' [j [k' [G1 [G2 G3]]]]]].
    { clear -F2' hq. remember (map (pair false) an) as pm. revert an hq Heqpm.
      induction F2' as [|g dp m pm H F2 IH]; intros [|a an] hq E; cbn in *; try discriminate; try contradiction.
      inversion E; subst. destruct hq as [->|hq].
      - exists g. auto.
      - destruct (IH _ hq eq_refl) as [g' [h1 h2]]. exists g'. auto. }
    cbn [fst snd] in *. subst g' q. rewrite Forall_forall in F. specialize (F _ hg'). inversion F; subst.
    unfold gt. eapply offset_lt_of_before; eauto.
Qed.
Lemma strict_positions (l : list es) m pm : StronglySorted (es_before io) l -> StronglySorted (gen_before io) m ->
  Forall2 (fsite l) m pm ->
  exists cs an, pm = map (pair true) cs ++ map (pair false) an /\ StronglySorted lt cs /\ StronglySorted gt an.
Proof.
  intros S0 Sm. revert pm. induction Sm as [|g m Sm IH F]; intros pm F2; inversion F2 as [|? dp ? pm' H F2' EQ1 EQ2]; subst.
  - exists [], []. repeat split; auto; constructor.
  - destruct dp as [d p]. destruct d.
    + destruct (IH _ F2') as [cs [an [-> [Sc Sa]]]]. exists (p :: cs), an. split; auto. split; auto. constructor; auto.
      destruct H as [i [k [E1 [E2 E3]]]]; cbn [fst snd] in *. subst g p.
      rewrite Forall_forall. intros q hq.
      assert (exists g', In g' m /\ fsite l g' (true, q)) as [g' [hg' [j [k' [G1 [G2 G3]]]]]].
      { clear -F2' hq. remember (map (pair true) cs ++ map (pair false) an) as pm. revert cs hq Heqpm.
        induction F2' as [|g dp m pm H F2 IH]; intros [|a cs] hq E; cbn in *; try discriminate; try contradiction.
        inversion E; subst. destruct hq as [->|hq].
        - exists g. auto.
        - destruct (IH _ hq eq_refl) as [g' [h1 h2]]. exists g'. auto. }
      cbn [fst snd] in *. subst g' q. rewrite Forall_forall in F. specialize (F _ hg'). inversion F; subst.
      eapply offset_lt_of_before; eauto.
    + assert (FA : Forall (fun g => exists i, g = GFermion false i) (g :: m)).
      { destruct H as [i [k [E1 _]]]; cbn [fst] in *. subst g. constructor; [eauto|].
        rewrite Forall_forall in *. intros g' hg'. specialize (F _ hg').
        assert (exists dp, fsite l g' dp) as [dp [j [k' [G1 _]]]].
        { clear -F2' hg'. induction F2'; [contradiction|]. destruct hg' as [->|]; eauto. }
        subst g'. inversion F; subst; eauto. }
      destruct (ann_only_sorted l (g :: m) ((false, p) :: pm') S0) as [an [E Sa]]; auto.
      { constructor; auto. }
      exists [], an. rewrite E. repeat split; auto. constructor.
Qed.

Lemma filter_pairs cs an : cpos (map (pair true) cs ++ map (pair false) an) = cs /\
  apos (map (pair true) cs ++ map (pair false) an) = an.
Proof.
  unfold cpos, apos. rewrite !filter_app, !map_app.
  assert (T1 : forall (b : bool) l, filter (@fst bool nat) (map (pair b) l) = if b then map (pair b) l else []).
  { intros b l. induction l as [|a l IH]; cbn; [now destruct b|]. rewrite IH. now destruct b. }
  assert (T2 : forall (b : bool) l, filter (fun p : bool * nat => negb (fst p)) (map (pair b) l) = if b then [] else map (pair b) l).
  { intros b l. induction l as [|a l IH]; cbn; [now destruct b|]. rewrite IH. now destruct b. }
  rewrite !T1, !T2. cbn. rewrite !map_map. cbn. rewrite !map_id, app_nil_r. auto.
Qed.

Theorem fermion_correct (h : hspace I) m a : hs_inv io h -> hs_algs_ok h ->
  StronglySorted (gen_before io) m -> fermion_make io h m = LOk a ->
  implements (spaces h) (fermion_act so a) m.
Proof.
  intros Hi HA Sm E. pose proof Hi as [S0 [W [P [_ [B63 _]]]]].
  destruct m as [|g0 m0].
  { cbn in E. inversion E; subst. eapply implements_ext; [|apply implements_nil]. reflexivity. }
  remember (g0 :: m0) as m eqn:Em. unfold fermion_make in E. rewrite Em in E. rewrite <- Em in E.
  pose proof (fermion_loop_spec h m Hi [] [] 0 0 [] [] ltac:(intros i; apply N.bits_0) ltac:(intros i; apply N.bits_0) eq_refl eq_refl) as FL.
  destruct (fermion_loop io h m [] [] 0 0) as [[[[cs' an'] cm'] am']|g| |]; try discriminate. cbn [lbind] in E.
  unfold hs_algebra_bit_range in E. rewrite (HA (-3)%Z) in E.
  destruct (seg (-3) (spaces h) 0) as [[lo hi]|] eqn:Es; [|discriminate]. inversion E; subst a; clear E.
  destruct FL as [pm [F2 [Ec [Ea [Mc Ma]]]]]. cbn [app] in *.
  destruct (strict_positions (spaces h) m pm S0 Sm F2) as [cs [an [Epm [Sc Sa]]]].
  destruct (filter_pairs cs an) as [K1 K2]. rewrite <- Epm in K1, K2. rewrite K1 in *. rewrite K2 in *. clear K1 K2.
  pose proof (seg_range io (-3)%Z (spaces h) S0 0%Z lo hi Es) as SR.
  destruct (seg_first io (-3)%Z (spaces h) S0 ltac:(intros x _; destruct x; cbn; lia) 0%Z lo hi Es) as [-> _].
  (* all positions lie in the range, and the range below the total number of bits *)
  assert (PR : forall g dp, fsite (spaces h) g dp -> (Z.of_nat (snd dp) <= hi)%Z).
  { intros g dp [i [k [E1 [E2 E3]]]]. rewrite E3.
    enough (0 <= Z.of_nat (offset (spaces h) k) <= hi)%Z by (clear - H; lia). apply SR. exists k, (ESFermion i). split; [exact E2|]. split; [reflexivity|]. cbn [es_nbits]. lia. }
  assert (FP : Forall (fun dp => (Z.of_nat (snd dp) <= hi)%Z) pm).
  { clear -F2 PR. induction F2; constructor; eauto. }
  assert (Hhi : (0 <= hi)%Z).
  { clear -F2 FP Em. subst m. inversion F2; subst. inversion FP; subst. lia. }
  assert (Hb : (hi < Z.of_nat (total_bits (spaces h)))%Z).
  { destruct (proj1 (SR hi) ltac:(lia)) as [k [e [E1 [E2 E3]]]].
    pose proof (offset_S _ _ _ E1). pose proof (offset_total (spaces h) (Datatypes.S k)). lia. }
  assert (FQ : Forall (fun q => (q <= Z.to_nat hi)%nat) (cs ++ an)).
  { rewrite Forall_forall in FP |- *. intros q hq. apply in_app_or in hq.
    assert (exists b, In (b, q) pm) as [b hb].
    { rewrite Epm. destruct hq as [hq|hq]; [exists true|exists false]; apply in_or_app; [left|right]; now apply in_map. }
    specialize (FP _ hb). cbn in FP. lia. }
  intros x c V. rewrite (mact_fcomp (spaces h) m pm x S0 F2).
  assert (Ehi : hi = Z.of_nat (Z.to_nat hi)) by lia.
  rewrite (fermion_act_bits so _ cs an (total_bits (spaces h)) 0 (Z.to_nat hi) x c); auto; cbn [fa_const fa_cre fa_ann fa_cre_count fa_ann_count];
    try reflexivity; try lia; try (rewrite ?Ec, ?Ea, <- Ehi; reflexivity); [|apply V].
  rewrite <- Epm. destruct (fcomp pm x) as [[b y]|]; cbn [option_map fst snd].
  - left. exists (sign so b), y. split; auto. destruct b; cbn; auto. now rewrite (sl_mul_1_r so L).
  - right. split; auto.
Qed.
End ActF.
