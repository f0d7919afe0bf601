From Coq Require Import NArith ZArith List Bool Sorted Permutation Lia Arith.
From Verif Require Import BitsModel ExprModel ExprSpec HSModel HSSpec HSEnum HSProofs HSMain HSCrashModel.
Import ListNotations.
Close Scope nat_scope.
Open Scope N_scope.
Open Scope list_scope.

Section HC.
Context {I : Type} (io : index_ops I) (Hio : index_order io).
Notation es := (espace I).
Notation sorted l := (StronglySorted (es_before io) l).

Lemma rl_c_some : forall (l : list (es * (Z * Z))) k algs e l' a' e' k',
  recompute_loop_c k l algs e = (l', a', e', Some k') -> recompute_loop l algs e = (l', a', e').
Proof.
  induction l as [|[x r] t IH]; intros k algs e l' a' e' k' E; cbn [recompute_loop_c recompute_loop] in *.
  - now inversion E.
  - destruct (alg_find (es_alg x) algs) as [[lo hi]|].
    + destruct (recompute_loop_c k t _ _) as [[[t' a2] e2] r2] eqn:Er. inversion E; subst. rewrite (IH _ _ _ _ _ _ _ Er). reflexivity.
    + destruct k as [|k]; [discriminate|]. destruct (recompute_loop_c k t _ _) as [[[t' a2] e2] r2] eqn:Er.
      inversion E; subst. rewrite (IH _ _ _ _ _ _ _ Er). reflexivity.
Qed.
Lemma rl_c_keys : forall (l : list (es * (Z * Z))) k algs e l' a' e' r,
  recompute_loop_c k l algs e = (l', a', e', r) -> map fst l' = map fst l.
Proof.
  induction l as [|[x r0] t IH]; intros k algs e l' a' e' r E; cbn [recompute_loop_c] in *.
  - now inversion E.
  - destruct (alg_find (es_alg x) algs) as [[lo hi]|].
    + destruct (recompute_loop_c k t _ _) as [[[t' a2] e2] r2] eqn:Er. inversion E; subst. cbn [map fst]. f_equal. eauto.
    + destruct k as [|k]; [inversion E; subst; reflexivity|]. destruct (recompute_loop_c k t _ _) as [[[t' a2] e2] r2] eqn:Er.
      inversion E; subst. cbn [map fst]. f_equal. eauto.
Qed.
Lemma rl_c_enough : forall (l : list (es * (Z * Z))) k algs e, (length l <= k)%nat ->
  exists l' a' e' k', recompute_loop_c k l algs e = (l', a', e', Some k') /\ (k <= k' + length l)%nat.
Proof.
  induction l as [|[x r0] t IH]; intros k algs e hk; cbn [recompute_loop_c length] in *.
  - do 4 eexists. split; [reflexivity|]. lia.
  - destruct (alg_find (es_alg x) algs) as [[lo hi]|].
    + match goal with |- context [recompute_loop_c k t ?A ?B] => destruct (IH k A B ltac:(lia)) as (l' & a' & e' & k' & Q & h) end.
      rewrite Q. do 4 eexists. split; [reflexivity|]. lia.
    + destruct k as [|k]; [lia|].
      match goal with |- context [recompute_loop_c k t ?A ?B] => destruct (IH k A B ltac:(lia)) as (l' & a' & e' & k' & Q & h) end.
      rewrite Q. do 4 eexists. split; [reflexivity|]. lia.
Qed.
Lemma rl_algs : forall (l l' : list (es * (Z * Z))) alg e, map fst l = map fst l' ->
  snd (fst (recompute_loop l alg e)) = snd (fst (recompute_loop l' alg e)).
Proof.
  induction l as [|[x r] t IH]; intros [|[x' r'] t'] alg e HE; try discriminate; auto.
  cbn [map fst] in HE. inversion HE; subst. cbn [recompute_loop].
  match goal with |- context [recompute_loop t ?A ?B] => pose proof (IH t' A B ltac:(assumption)) as K;
    destruct (recompute_loop t A B) as [[? ?] ?]; destruct (recompute_loop t' A B) as [[? ?] ?] end.
  exact K.
Qed.

Lemma rec_c_some k (h : hspace I) h1 k' b : recompute_c k h = (h1, Some (k', b)) -> recompute h = (h1, b).
Proof.
  unfold recompute_c, recompute. destruct (recompute_loop_c k (hs_es h) [] (-1)%Z) as [[[l a] e] [k1|]] eqn:E; [|intros Q; inversion Q].
  rewrite (rl_c_some _ _ _ _ _ _ _ _ E). intros Q; inversion Q; subst. reflexivity.
Qed.
Lemma rec_c_keys k (h : hspace I) h1 r : recompute_c k h = (h1, r) -> spaces h1 = spaces h /\ hs_dim_ h1 = hs_dim_ h /\ hs_fa h1 = hs_fa h.
Proof.
  unfold recompute_c. destruct (recompute_loop_c k (hs_es h) [] (-1)%Z) as [[[l a] e] r1] eqn:E.
  intros Q; inversion Q; subst. split; [exact (rl_c_keys _ _ _ _ _ _ _ _ E)|auto].
Qed.
Lemma init_c_some k (h : hspace I) h1 o : init_fa_c k h = (h1, Some o) -> init_fa h = (h1, o).
Proof.
  unfold init_fa_c, init_fa, ticks. destruct (Nat.ltb k 1); [discriminate|].
  destruct (init_foreach_alg (hs_es h)) as [[s|]|].
  - destruct (Nat.ltb (k - 1) 4); [discriminate|]. intros Q; inversion Q; subst; reflexivity.
  - intros Q; inversion Q; subst; reflexivity.
  - intros Q; inversion Q; subst; reflexivity.
Qed.
Lemma init_c_none k (h : hspace I) h1 : init_fa_c k h = (h1, None) -> h1 = h.
Proof.
  unfold init_fa_c, ticks. destruct (Nat.ltb k 1); [congruence|].
  destruct (init_foreach_alg (hs_es h)) as [[s|]|]; [|discriminate|discriminate].
  destruct (Nat.ltb (k - 1) 4); [congruence|discriminate].
Qed.

Lemma add_c_some k h e h' o : hs_add_c io k h e = (h', Some o) -> hs_add io h e = (h', o).
Proof.
  unfold hs_add_c, hs_add, ticks. destruct (Nat.ltb k 2); [discriminate|].
  destruct (es_emplace io e (hs_es h)) as [l [|]]; cbn [negb].
  - destruct (recompute_c (k - 2) _) as [h1 [[k2 [|]]|]] eqn:ER; [| |discriminate]; rewrite (rec_c_some _ _ _ _ _ ER).
    + destruct (Nat.ltb k2 1); [discriminate|]. intros Q; inversion Q; subst; reflexivity.
    + apply init_c_some.
  - destruct (Nat.ltb (k - 2) 1); [discriminate|]. intros Q; inversion Q; subst; reflexivity.
Qed.
(** the states in which bad_alloc can leave the object *)
Lemma add_c_none k h e h' : sorted (spaces h) -> hs_add_c io k h e = (h', None) -> h' = h \/
  ((forall x, In x (spaces h) -> ~ same_slot x e) /\ sorted (spaces h') /\ Permutation (spaces h') (e :: spaces h) /\ hs_fa h' = hs_fa h /\
   (hs_dim_ h' = hs_dim_ h \/
    (exists h1, hs_dim_ h' = w64 (hs_dim_ h * es_dim e) /\ hs_add io h e = (h1, snd (init_fa h')) /\
       (total_bits (spaces h') <= 63)%nat /\
       hs_es h1 = hs_es h' /\ hs_algs h1 = hs_algs h' /\ hs_end h1 = hs_end h' /\ hs_dim_ h1 = hs_dim_ h'))).
Proof.
  intros S0. unfold hs_add_c, ticks. destruct (Nat.ltb k 2); [intros Q; inversion Q; auto|].
  destruct (es_emplace io e (hs_es h)) as [l b] eqn:EE. pose proof (es_emplace_spec io Hio e _ _ _ S0 EE) as SP.
  destruct b; cbn [negb].
  - set (h0 := mk_hs l (hs_algs h) (hs_end h) (hs_dim_ h) (hs_fa h)). destruct SP as [N [S1 P]].
    destruct (recompute_c (k - 2) h0) as [h1 r] eqn:ER. destruct (rec_c_keys _ _ _ _ ER) as [K [D F]].
    change (spaces h0) with (map fst l) in K. change (hs_dim_ h0) with (hs_dim_ h) in D. change (hs_fa h0) with (hs_fa h) in F.
    destruct r as [[k2 [|]]|].
    + destruct (Nat.ltb k2 1); [|discriminate]. intros Q; inversion Q; subst h'. right. rewrite K. repeat split; auto.
    + intros Q. apply init_c_none in Q. right.
      assert (K' : spaces h' = map fst l) by (subst h'; unfold spaces; cbn [hs_es]; exact K). rewrite K'.
      split; [exact N|]. split; [exact S1|]. split; [exact P|]. split; [subst h'; cbn; exact F|]. right.
      exists (fst (init_fa h')). split; [subst h'; cbn; now rewrite D|].
      pose proof (rec_c_some _ _ _ _ _ ER) as ER'. split.
      { unfold hs_add. rewrite EE. cbn [negb]. fold h0. rewrite ER', Q. now destruct (init_fa _). }
      destruct (recompute_spec h0 h1 false ER') as [_ [_ [_ [_ [_ [_ [R7 _]]]]]]]. change (spaces h0) with (map fst l) in R7.
      split. { destruct (Nat.le_gt_cases (total_bits (map fst l)) 63) as [H|H]; auto. apply R7 in H. discriminate. }
      unfold init_fa. subst h'. cbn [hs_es]. destruct (init_foreach_alg (hs_es h1)) as [fa|]; cbn; auto.
    + intros Q; inversion Q; subst h'. right. rewrite K. repeat split; auto.
  - destruct (Nat.ltb (k - 2) 1); [|discriminate]. intros Q; inversion Q; auto.
Qed.
(** with enough memory there is no bad_alloc *)
Lemma add_c_enough k h e : (length (hs_es h) + 10 <= k)%nat -> hs_add_c io k h e = (fst (hs_add io h e), Some (snd (hs_add io h e))).
Proof.
  intros hk. assert (X : exists h' o, hs_add_c io k h e = (h', Some o)).
  { unfold hs_add_c, ticks. destruct (Nat.ltb_spec k 2); [lia|].
    destruct (es_emplace io e (hs_es h)) as [l b] eqn:EE.
    assert (LL : (length l <= Datatypes.S (length (hs_es h)))%nat).
    { clear -EE. revert l b EE. induction (hs_es h) as [|[x r] t IH]; intros l b EE; cbn [es_emplace] in EE.
      - inversion EE; subst; cbn; lia.
      - destruct (es_ltb io x e).
        + destruct (es_emplace io e t) as [t' b'] eqn:E2. inversion EE; subst. specialize (IH _ _ eq_refl). cbn [length]. lia.
        + destruct (es_ltb io e x); inversion EE; subst; cbn [length]; lia. }
    destruct b; cbn [negb].
    - set (h0 := mk_hs l (hs_algs h) (hs_end h) (hs_dim_ h) (hs_fa h)). unfold recompute_c. cbn [hs_es h0].
      destruct (rl_c_enough l (k - 2) [] (-1)%Z ltac:(lia)) as (l' & a' & e' & k' & Q & hk'). rewrite Q.
      destruct (max_n_bits <=? e')%Z.
      + destruct (Nat.ltb_spec k' 1); [lia|]. eauto.
      + unfold init_fa_c, ticks. destruct (Nat.ltb_spec k' 1); [lia|]. cbn [hs_es].
        destruct (init_foreach_alg l') as [[s|]|]; eauto. destruct (Nat.ltb_spec (k' - 1) 4); [lia|]. eauto.
    - destruct (Nat.ltb_spec (k - 2) 1); [lia|]. eauto. }
  destruct X as [h' [o X]]. rewrite X. apply add_c_some in X. now rewrite X.
Qed.

Lemma assign_loop_some : forall (l acc l' : list (es * (Z * Z))) k k', assign_loop_c k acc l = (l', Some k') -> l' = acc ++ l.
Proof.
  induction l as [|x t IH]; intros acc l' k k' E; cbn [assign_loop_c] in E; [inversion E; now rewrite app_nil_r|].
  destruct (Nat.ltb k 2); [discriminate|]. apply IH in E. now rewrite E, <- app_assoc.
Qed.
Lemma assign_loop_none : forall (l acc l' : list (es * (Z * Z))) k, assign_loop_c k acc l = (l', None) ->
  exists n, (n < length l)%nat /\ l' = acc ++ firstn n l.
Proof.
  induction l as [|x t IH]; intros acc l' k E; cbn [assign_loop_c] in E; [discriminate|].
  destruct (Nat.ltb k 2).
  - inversion E; subst. exists 0%nat. split; [cbn; lia|]. cbn. now rewrite app_nil_r.
  - apply IH in E. destruct E as [n [hn ->]]. exists (Datatypes.S n). split; [cbn; lia|]. cbn [firstn]. now rewrite <- app_assoc.
Qed.
Lemma assign_c_some k (d s : hspace I) d' : hs_assign_c k d s = (d', Some tt) -> d' = hs_assign d s.
Proof.
  unfold hs_assign_c, hs_assign, ticks. destruct (assign_loop_c k [] (hs_es s)) as [l [k1|]] eqn:E; [|discriminate].
  apply assign_loop_some in E. cbn in E. subst l. destruct (Nat.ltb k1 _); [discriminate|]. intros Q; now inversion Q.
Qed.
Lemma assign_c_none k (d s : hspace I) d' : hs_assign_c k d s = (d', None) ->
  hs_algs d' = hs_algs d /\ hs_end d' = hs_end s /\ hs_fa d' = hs_fa d /\
  ((exists n, (n < length (hs_es s))%nat /\ hs_es d' = firstn n (hs_es s) /\ hs_dim_ d' = hs_dim_ d) \/
   (hs_es d' = hs_es s /\ hs_dim_ d' = hs_dim_ s)).
Proof.
  unfold hs_assign_c, ticks. destruct (assign_loop_c k [] (hs_es s)) as [l [k1|]] eqn:E.
  - apply assign_loop_some in E. cbn in E. subst l. destruct (Nat.ltb k1 _); [|discriminate]. intros Q; inversion Q; subst; cbn. auto 10.
  - apply assign_loop_none in E. destruct E as [n [hn ->]]. intros Q; inversion Q; subst; cbn. repeat split; auto. left. eauto.
Qed.

(** add() looks at the keys and at dim() only *)
Lemma add_repairs h e h' : sorted (spaces h) -> Forall es_wf (spaces h) -> es_wf e -> hs_add io h e = (h', ODone) ->
  exists f, hs_of_vector io (spaces h') = (f, ODone) /\
    h' = mk_hs (hs_es f) (hs_algs f) (hs_end f) (hs_dim_ h') (hs_fa f) /\ hs_dim_ h' = w64 (hs_dim_ h * es_dim e) /\
    Permutation (spaces h') (e :: spaces h) /\ (total_bits (spaces h') <= 63)%nat.
Proof.
  intros S0 W we E. unfold hs_add in E. destruct (es_emplace io e (hs_es h)) as [l b] eqn:EE.
  pose proof (es_emplace_spec io Hio e _ _ _ S0 EE) as SP. destruct b; cbn [negb] in E; [|discriminate].
  destruct SP as [N [S1 P]]. set (h0 := mk_hs l (hs_algs h) (hs_end h) (hs_dim_ h) (hs_fa h)) in *.
  destruct (recompute h0) as [h1 tb] eqn:ER. destruct (recompute_spec _ _ _ ER) as [R1 [R2 [R3 [R4 [R5 [R6 [R7 R8]]]]]]].
  change (spaces h0) with (map fst l) in *. destruct tb; [discriminate|].
  assert (B : (total_bits (map fst l) <= 63)%nat).
  { destruct (Nat.le_gt_cases (total_bits (map fst l)) 63) as [H|H]; auto. apply R7 in H. discriminate. }
  unfold init_fa in E. cbn [hs_es] in E. destruct (init_foreach_alg (hs_es h1)) as [fa|] eqn:EF; [|discriminate].
  inversion E; subst h'. clear E. cbn [hs_dim_ hs_algs hs_end hs_fa hs_es] in *.
  assert (SP : forall a b c d, spaces (mk_hs (hs_es h1) a b c d) = map fst l) by (intros; unfold spaces; cbn [hs_es]; exact R6).
  rewrite SP. assert (W1 : Forall es_wf (map fst l)) by (apply (Permutation_Forall (Permutation_sym P)); now constructor).
  destruct (hs_of_vector io (map fst l)) as [f o] eqn:EV.
  destruct (vector_spec io Hio (map fst l) W1 f o EV) as [_ V].
  destruct (V (sorted_distinct io Hio _ S1)) as [Pf [Sf [_ Q]]]. destruct (Nat.leb_spec (total_bits (map fst l)) 63) as [_|]; [|lia].
  destruct Q as [-> [Hf Af]]. assert (Ef : spaces f = map fst l) by (apply (sorted_perm_eq io Hio); auto).
  exists f. split; [reflexivity|]. destruct Hf as [_ [_ [F1 [F2 [_ [F4 F5]]]]]]. rewrite Ef in *.
  split; [|split; [now rewrite R4|split; [exact P|exact B]]].
  rewrite F1, F2, Af, F1, R1, R2. rewrite R1, F5 in EF. inversion EF; subst fa. f_equal. rewrite R8. unfold h0; cbn [hs_es].
  apply rl_algs. now rewrite place_fst.
Qed.
(** the outcome of add() on any object *)
Lemma add_outcome h e h' o : sorted (spaces h) -> Forall es_wf (spaces h) -> es_wf e -> hs_add io h e = (h', o) ->
  ((exists x, In x (spaces h) /\ same_slot x e) -> o = OExists /\ h' = h) /\
  ((forall x, In x (spaces h) -> ~ same_slot x e) ->
     Permutation (spaces h') (e :: spaces h) /\ sorted (spaces h') /\
     if Nat.leb (total_bits (e :: spaces h)) 63 then o = ODone else o = OTooBig (Z.of_nat (total_bits (e :: spaces h)))).
Proof.
  intros S0 W we E. unfold hs_add in E. destruct (es_emplace io e (hs_es h)) as [l b] eqn:EE.
  pose proof (es_emplace_spec io Hio e _ _ _ S0 EE) as SP. destruct b; cbn [negb] in E.
  - destruct SP as [N [S1 P]]. split; [intros [x [hx ss]]; exfalso; eapply N; eauto|intros _].
    set (h0 := mk_hs l (hs_algs h) (hs_end h) (hs_dim_ h) (hs_fa h)) in *.
    destruct (recompute h0) as [h1 tb] eqn:ER. destruct (recompute_spec _ _ _ ER) as [R1 [R2 [R3 [R4 [R5 [R6 [R7 R8]]]]]]].
    change (spaces h0) with (map fst l) in *. pose proof (total_perm _ _ P) as TP. fold (spaces h) in TP, P.
    assert (W1 : Forall es_wf (map fst l)) by (apply (Permutation_Forall (Permutation_sym P)); now constructor).
    destruct (Nat.leb_spec (total_bits (e :: spaces h)) 63) as [B|B].
    + destruct tb. { exfalso. assert (63 < total_bits (map fst l))%nat by (now apply R7). lia. }
      unfold init_fa in E. cbn [hs_es] in E. destruct (init_fa_spec (hs_es h1)) as [fa [Efa _]].
      { change (map fst (hs_es h1)) with (spaces h1). now rewrite R6. }
      { change (map fst (hs_es h1)) with (spaces h1). rewrite R6. lia. }
      rewrite Efa in E. inversion E; subst h' o.
      assert (SP : forall a b c d, spaces (mk_hs (hs_es h1) a b c d) = map fst l) by (intros; exact R6). rewrite SP. auto.
    + destruct tb. 2:{ exfalso. assert (false = true) by (apply R7; lia). discriminate. }
      inversion E; subst h' o. rewrite R6. split; [exact P|]. split; [exact S1|]. f_equal. rewrite R2. lia.
  - destruct SP as [-> [x [hx ss]]]. inversion E; subst. split; [auto|]. intros N. exfalso. eapply N; eauto.
Qed.
End HC.
