(** Reachable Hilbert spaces: invariant and its consequences. *)
From Coq Require Import NArith ZArith List Bool Sorted Permutation Lia.
From Verif Require Import BitsModel BitsSpec BitsProofs ExprModel ExprSpec ExprOrder HSModel HSSpec HSEnum HSProofs.
Import ListNotations.
Open Scope N_scope.
Open Scope list_scope.

Section Inv.
Context {I : Type} (io : index_ops I) (Hio : index_order io).
Notation es := (espace I).
Notation sorted l := (StronglySorted (es_before io) l).

(** the foreach algorithm for a list of spaces *)
Lemma init_fa_spec (l : list (es * (Z * Z))) : Forall es_wf (map fst l) -> (total_bits (map fst l) <= 63)%nat ->
  exists fa, init_foreach_alg l = Some fa /\
  match fa with
  | None => forall i, i < product_dim (map fst l) -> stl (map fst l) i = i
  | Some s => sfe_sizes s <> [] /\ Forall (fun s => 0 < s /\ s <= 2 ^ 63) (sfe_sizes s) /\
      init_jumps (sfe_sizes s) = Some (sfe_jumps s) /\
      fold_right N.mul 1 (sfe_sizes s) = product_dim (map fst l) /\
      sfe_n s = z_to_u64 (int_accumulate (sfe_sizes s)) /\
      (1 < length (sfe_sizes s))%nat /\
      forall i, i < product_dim (map fst l) -> stv (sfe_sizes s) i = stl (map fst l) i
  end.
Proof.
  intros W B. unfold init_foreach_alg.
  destruct (merge_dims_spec l W 0 B) as [sizes [E [F [P S]]]].
  change (2 ^ N.of_nat 0) with 1 in *. rewrite E.
  assert (S' : forall i, i < product_dim (map fst l) -> stv sizes i = stl (map fst l) i).
  { intros i hi. rewrite S by lia. rewrite N.mod_1_r, N.div_1_r. lia. }
  clear S. rewrite N.mul_1_l in P.
  destruct (Nat.leb_spec (length sizes) 1) as [L|L].
  - exists None. split; auto. intros i hi. rewrite <- S' by auto.
    destruct sizes as [|s [|s' t]]; cbn in *; auto; lia.
  - unfold sfe_make, init_jumps. destruct (init_jumps_ok sizes F 1) as [js Ej]. rewrite Ej.
    eexists. split; [reflexivity|]. cbn [sfe_sizes sfe_jumps sfe_n].
    destruct sizes as [|s t]; [cbn in L; lia|].
    repeat split; auto. discriminate.
Qed.

Definition hs_inv (h : hspace I) : Prop :=
  let l := spaces h in
  sorted l /\ Forall es_wf l /\ hs_es h = place l 0 /\ hs_end h = (Z.of_nat (total_bits l) - 1)%Z /\
  (total_bits l <= 63)%nat /\ hs_dim_ h = product_dim l /\ init_foreach_alg (place l 0) = Some (hs_fa h).
Definition hs_algs_ok (h : hspace I) : Prop := forall a, alg_find a (hs_algs h) = seg a (spaces h) 0.

Lemma init_fa_fst l l' : map fst l = map fst l' -> @init_foreach_alg I l = init_foreach_alg l'.
Proof. intros E. unfold init_foreach_alg. now rewrite (merge_dims_fst _ _ E). Qed.

(** what recompute + init_fa do to a sorted list of spaces *)
Lemma recompute_spec (h : hspace I) h1 b : recompute h = (h1, b) ->
  let l := spaces h in
  hs_es h1 = place l 0 /\ hs_end h1 = (Z.of_nat (total_bits l) - 1)%Z /\ hs_algs_ok h1 /\
  hs_dim_ h1 = hs_dim_ h /\ hs_fa h1 = hs_fa h /\ spaces h1 = l /\
  (b = true <-> (63 < total_bits l)%nat) /\
  hs_algs h1 = snd (fst (recompute_loop (hs_es h) [] (-1)%Z)).
Proof.
  unfold recompute. destruct (recompute_loop (hs_es h) [] (-1)) as [[l' algs] e] eqn:E.
  intros K; inversion K; subst; clear K. cbv zeta.
  destruct (recompute_loop_spec _ _ _ _ _ _ E) as [-> [-> A]].
  change (-1 + 1)%Z with 0%Z in *. unfold spaces; cbn [hs_es hs_algs hs_end hs_dim_ hs_fa fst snd].
  rewrite place_fst. split; auto. split; [lia|]. split.
  { intros a. unfold spaces; cbn [hs_es hs_algs]. rewrite place_fst. rewrite A. reflexivity. }
  repeat split; auto.
  - intros H. apply Z.leb_le in H. unfold max_n_bits in H. lia.
  - intros H. apply Z.leb_le. unfold max_n_bits. lia.
Qed.

Lemma product_perm (l l' : list es) : Permutation l l' -> product_dim l = product_dim l'.
Proof. induction 1; cbn [product_dim]; try congruence; try lia. Qed.
Lemma total_perm (l l' : list es) : Permutation l l' -> total_bits l = total_bits l'.
Proof. induction 1; cbn [total_bits]; try congruence; try lia. Qed.
Lemma product_63 (l : list es) : Forall es_wf l -> (total_bits l <= 63)%nat -> product_dim l <= 2 ^ 63.
Proof.
  intros W B. etransitivity; [now apply total_bits_le|]. apply N.pow_le_mono_r; lia.
Qed.
Lemma product_w64 (l : list es) : Forall es_wf l -> (total_bits l <= 63)%nat -> w64 (product_dim l) = product_dim l.
Proof. intros W B. apply w64_small. apply N.le_lt_trans with (2 ^ 63); [now apply product_63|reflexivity]. Qed.

(** finishing step shared by all constructions *)
Lemma finish h h' o : init_fa h = (h', o) ->
  sorted (spaces h) -> Forall es_wf (spaces h) -> hs_es h = place (spaces h) 0 ->
  hs_end h = (Z.of_nat (total_bits (spaces h)) - 1)%Z -> (total_bits (spaces h) <= 63)%nat ->
  hs_dim_ h = product_dim (spaces h) -> hs_algs_ok h ->
  o = ODone /\ hs_inv h' /\ hs_algs_ok h' /\ spaces h' = spaces h /\ hs_algs h' = hs_algs h.
Proof.
  intros E S W P En B D A. unfold init_fa in E.
  destruct (init_fa_spec (hs_es h) W B) as [fa [Efa _]]. rewrite Efa in E. inversion E; subst; clear E.
  split; auto. unfold spaces in *. cbn.
  split; [|auto]. unfold hs_inv, spaces; cbn. repeat split; auto. rewrite <- P. exact Efa.
Qed.

Lemma add_spec h e : hs_inv h -> es_wf e -> forall h' o, hs_add io h e = (h', o) ->
  ((exists x, In x (spaces h) /\ same_slot x e) -> o = OExists /\ h' = h) /\
  ((forall x, In x (spaces h) -> ~ same_slot x e) ->
     Permutation (spaces h') (e :: spaces h) /\ sorted (spaces h') /\
     hs_es h' = place (spaces h') 0 /\ hs_algs_ok h' /\
     hs_algs h' = snd (fst (recompute_loop (hs_es h') [] (-1)%Z)) /\
     if Nat.leb (total_bits (e :: spaces h)) 63 then o = ODone /\ hs_inv h'
     else o = OTooBig (Z.of_nat (total_bits (e :: spaces h))) /\ hs_dim_ h' = hs_dim_ h).
Proof.
  intros [S [W [P [En [B [D FA]]]]]] we h' o E. unfold hs_add in E.
  destruct (es_emplace io e (hs_es h)) as [l b] eqn:EE.
  pose proof (es_emplace_spec io Hio e _ _ _ S EE) as SP.
  destruct b; cbn [negb] in E.
  - destruct SP as [N [S' Pm]].
    set (h0 := mk_hs l (hs_algs h) (hs_end h) (hs_dim_ h) (hs_fa h)) in *.
    destruct (recompute h0) as [h1 tb] eqn:ER.
    destruct (recompute_spec _ _ _ ER) as [R1 [R2 [R3 [R4 [R5 [R6 [R7 R8]]]]]]].
    change (spaces h0) with (map fst l) in *. cbn [hs_dim_ hs_es hs_fa h0] in R4, R5, R8.
    split.
    { intros [x [hx ss]]. exfalso. eapply N; eauto. }
    intros _. pose proof (total_perm _ _ Pm) as TP. fold (spaces h) in TP.
    assert (R8' : hs_algs h1 = snd (fst (recompute_loop (hs_es h1) [] (-1)%Z))).
    { rewrite R8, R1. clear - l. destruct (recompute_loop l [] (-1)) as [[a b] c] eqn:E1.
      destruct (recompute_loop (place (map fst l) 0) [] (-1)) as [[a' b'] c'] eqn:E2. cbn.
      enough (forall (l l' : list (es * (Z * Z))) alg e, map fst l = map fst l' ->
         snd (fst (recompute_loop l alg e)) = snd (fst (recompute_loop l' alg e))) as K.
      { pose proof (K l (place (map fst l) 0) [] (-1)%Z) as K2. rewrite E1, E2 in K2. apply K2.
        now rewrite place_fst. }
      clear. induction l as [|[x r] t IH]; intros [|[x' r'] t'] alg e HE; try discriminate; auto.
      cbn [map fst] in HE. inversion HE; subst. cbn [recompute_loop].
      match goal with |- context [recompute_loop t ?A ?B] => pose proof (IH t' A B ltac:(assumption)) as K;
        destruct (recompute_loop t A B) as [[? ?] ?]; destruct (recompute_loop t' A B) as [[? ?] ?] end.
      exact K. }
    destruct (Nat.leb_spec (total_bits (e :: spaces h)) 63) as [L|L].
    + destruct tb. { exfalso. assert (63 < total_bits (map fst l))%nat by (now apply R7). lia. }
      set (h2 := mk_hs (hs_es h1) (hs_algs h1) (hs_end h1) (w64 (hs_dim_ h1 * es_dim e)) (hs_fa h1)) in *.
      assert (H2 : spaces h2 = map fst l) by (unfold spaces, h2; cbn; rewrite R1; apply place_fst).
      assert (W2 : Forall es_wf (map fst l)).
      { apply (Permutation_Forall (Permutation_sym Pm)). now constructor. }
      destruct (finish h2 h' o E) as [-> [I1 [I2 [I3 I4]]]]; rewrite ?H2; auto.
      * lia.
      * unfold h2. cbn [hs_dim_]. rewrite R4, D. rewrite N.mul_comm.
        change (es_dim e * product_dim (spaces h)) with (product_dim (e :: spaces h)).
        fold (spaces h) in Pm. rewrite <- (product_perm _ _ Pm). apply product_w64; auto. lia.
      * rewrite I3, H2. split; auto. split; auto.
        assert (HE : hs_es h' = place (map fst l) 0).
        { destruct I1 as [_ [_ [K _]]]. rewrite K, I3, H2. reflexivity. }
        split; auto. split; auto. split; auto. rewrite I4, HE. unfold h2; cbn [hs_algs]. rewrite R8', R1. reflexivity.
    + destruct tb. 2:{ exfalso. assert (false = true) by (apply R7; lia). discriminate. }
      inversion E; subst h' o. rewrite R6. repeat split; auto.
      f_equal. rewrite R2. unfold spaces in *. cbn [map fst] in *. lia.
  - destruct SP as [-> [x [hx ss]]]. inversion E; subst. split.
    + intros _. auto.
    + intros N. exfalso. eapply N; eauto.
Qed.

Lemma hs_empty_inv : hs_inv hs_empty.
Proof. unfold hs_inv, spaces; cbn. repeat split; try constructor; auto; lia. Qed.

Lemma emplace_list_spec (l : list es) : forall m d m' d', sorted (map fst m) ->
  emplace_list io l m d = Some (m', d') ->
  sorted (map fst m') /\ Permutation (map fst m') (l ++ map fst m) /\
  (d = w64 (product_dim (map fst m)) -> d' = w64 (product_dim (map fst m'))).
Proof.
  induction l as [|e t IH]; intros m d m' d' S E; cbn [emplace_list] in E.
  - inversion E; subst. auto.
  - destruct (es_emplace io e m) as [m1 b] eqn:EE.
    pose proof (es_emplace_spec io Hio e _ _ _ S EE) as SP. destruct b; [|discriminate].
    destruct SP as [N [S1 P1]]. destruct (IH _ _ _ _ S1 E) as [S' [P' D']].
    split; auto. split.
    + rewrite P', P1. cbn. symmetry. apply Permutation_middle.
    + intros ->. apply D'. rewrite w64_mul_l. rewrite (product_perm _ _ P1). cbn [product_dim]. f_equal. lia.
Qed.
(** emplace_list fails exactly when two spaces coincide *)
Definition distinct_slots (l : list es) : Prop :=
  forall i j x y, nth_error l i = Some x -> nth_error l j = Some y -> same_slot x y -> i = j.
Lemma sorted_distinct (l : list es) : sorted l -> distinct_slots l.
Proof.
  intros S i j x y Ei Ej ss. destruct (sorted_slot_unique io Hio l S i j x y Ei Ej ss). assumption.
Qed.
Lemma distinct_NoDup_iff (l : list es) : distinct_slots l <-> ForallOrdPairs (fun x y => ~ same_slot x y) l.
Proof.
  induction l as [|x t IH].
  - split; [constructor|]. intros _ [|i] j x y E; discriminate.
  - split.
    + intros D. constructor.
      * apply Forall_forall. intros y hy ss. apply In_nth_error in hy. destruct hy as [j Ej].
        specialize (D 0%nat (S j) x y eq_refl Ej ss). discriminate.
      * apply IH. intros i j a b Ei Ej ss. specialize (D (S i) (S j) a b Ei Ej ss). lia.
    + intros F. inversion F as [|? ? Fx Ft]; subst. rewrite Forall_forall in Fx.
      apply IH in Ft. intros [|i] [|j] a b Ei Ej ss; auto; cbn in Ei, Ej.
      * inversion Ei; subst. exfalso. apply (Fx b); auto. eapply nth_error_In; eauto.
      * inversion Ej; subst. exfalso. apply (Fx a); [eapply nth_error_In; eauto|]. now apply same_slot_sym.
      * f_equal. eapply Ft; eauto.
Qed.
Lemma distinct_perm (l l' : list es) : Permutation l l' -> distinct_slots l -> distinct_slots l'.
Proof.
  rewrite !distinct_NoDup_iff. induction 1; intros F; auto.
  - inversion F; subst. constructor; auto. eapply Permutation_Forall; eauto.
  - inversion F as [|? ? Fx Ft]; subst. inversion Ft as [|? ? Fy Ft']; subst. inversion Fx; subst.
    constructor.
    + constructor; auto. intros ss. apply same_slot_sym in ss. contradiction.
    + constructor; auto.
Qed.
Lemma emplace_list_total (l : list es) : forall m d, sorted (map fst m) ->
  distinct_slots (l ++ map fst m) -> exists r, emplace_list io l m d = Some r.
Proof.
  induction l as [|e t IH]; intros m d S D; cbn [emplace_list]; [eauto|].
  destruct (es_emplace io e m) as [m1 b] eqn:EE.
  pose proof (es_emplace_spec io Hio e _ _ _ S EE) as SP. destruct b.
  - destruct SP as [_ [S1 P1]]. apply IH; auto. eapply distinct_perm; [|exact D].
    cbn. rewrite P1. apply Permutation_middle.
  - destruct SP as [_ [x [hx ss]]]. exfalso.
    apply distinct_NoDup_iff in D. cbn in D. inversion D as [|? ? F _]; subst. rewrite Forall_forall in F.
    apply (F x); [apply in_or_app; now right|]. now apply same_slot_sym.
Qed.

Lemma vector_spec (l : list es) : Forall es_wf l -> forall h' o, hs_of_vector io l = (h', o) ->
  (~ distinct_slots l -> o = OExists) /\
  (distinct_slots l ->
   Permutation (spaces h') l /\ sorted (spaces h') /\ hs_algs_ok h' /\
   if Nat.leb (total_bits l) 63 then o = ODone /\ hs_inv h' /\
       hs_algs h' = snd (fst (recompute_loop (hs_es h') [] (-1)%Z))
   else o = OTooBig (Z.of_nat (total_bits l))).
Proof.
  intros W h' o E. unfold hs_of_vector in E.
  destruct (emplace_list io l [] 1) as [[m d]|] eqn:EE.
  - destruct (emplace_list_spec l [] 1 m d ltac:(constructor) EE) as [S [P D]].
    rewrite app_nil_r in P. specialize (D eq_refl).
    assert (DS : distinct_slots l).
    { eapply distinct_perm; [exact P|]. now apply sorted_distinct. }
    split; [contradiction|]. intros _.
    destruct (recompute (mk_hs m [] (-1)%Z d None)) as [h1 tb] eqn:ER.
    destruct (recompute_spec _ _ _ ER) as [R1 [R2 [R3 [R4 [R5 [R6 [R7 R8]]]]]]].
    change (spaces (mk_hs m [] (-1)%Z d None)) with (map fst m) in *. cbn [hs_dim_ hs_es hs_fa] in R4, R5, R8.
    pose proof (total_perm _ _ P) as TP.
    destruct (Nat.leb_spec (total_bits l) 63) as [L|L].
    + destruct tb. { exfalso. assert (63 < total_bits (map fst m))%nat by (now apply R7). lia. }
      assert (W2 : Forall es_wf (map fst m)).
      { apply (Permutation_Forall (Permutation_sym P)). auto. }
      destruct (finish h1 h' o E) as [-> [I1 [I2 [I3 I4]]]]; rewrite ?R6; auto; [lia| |].
      * rewrite R4, D. apply product_w64; auto. lia.
      * rewrite I3, R6. split; auto. split; auto. split; auto. split; auto. split; auto.
        destruct I1 as [_ [_ [K _]]]. rewrite I4, K, I3, R6, R8.
        assert (GEN : forall (l l' : list (es * (Z * Z))) alg e, map fst l = map fst l' ->
           snd (fst (recompute_loop l alg e)) = snd (fst (recompute_loop l' alg e))).
        { clear. induction l as [|[x r] t IH]; intros [|[x' r'] t'] alg e HE; try discriminate; auto.
          cbn [map fst] in HE. inversion HE; subst. cbn [recompute_loop].
          match goal with |- context [recompute_loop t ?A ?B] => pose proof (IH t' A B ltac:(assumption)) as K;
            destruct (recompute_loop t A B) as [[? ?] ?]; destruct (recompute_loop t' A B) as [[? ?] ?] end.
          exact K. }
        apply GEN. now rewrite place_fst.
    + destruct tb. 2:{ exfalso. assert (false = true) by (apply R7; lia). discriminate. }
      inversion E; subst h' o. rewrite R6. repeat split; auto. f_equal. rewrite R2. lia.
  - inversion E; subst. split; auto. intros DS.
    destruct (emplace_list_total l [] 1 ltac:(constructor)) as [r Er]; [now rewrite app_nil_r|congruence].
Qed.

Lemma emplace_gens_spec (esc : gen I -> option es) gens : forall m m', sorted (map fst m) ->
  emplace_gens io esc gens m = Some m' ->
  sorted (map fst m') /\
  (forall x, In x (map fst m') -> In x (map fst m) \/ exists g, In g gens /\ esc g = Some x) /\
  (forall x, In x (map fst m) -> In x (map fst m')) /\
  (forall g, In g gens -> exists e x, esc g = Some e /\ In x (map fst m') /\ same_slot x e).
Proof.
  induction gens as [|g t IH]; intros m m' S E; cbn [emplace_gens] in E.
  - inversion E; subst. repeat split; auto. intros g [].
  - destruct (esc g) as [e|] eqn:Eg; [|discriminate].
    destruct (es_emplace io e m) as [m1 b] eqn:EE. cbn [fst] in E.
    pose proof (es_emplace_spec io Hio e _ _ _ S EE) as SP.
    assert (H : sorted (map fst m1) /\ (forall x, In x (map fst m1) -> In x (map fst m) \/ x = e) /\
      (forall x, In x (map fst m) -> In x (map fst m1)) /\ exists x, In x (map fst m1) /\ same_slot x e).
    { destruct b.
      - destruct SP as [_ [S1 P]]. split; auto. split; [|split].
        + intros x hx. apply (Permutation_in _ P) in hx. destruct hx; auto.
        + intros x hx. apply (Permutation_in _ (Permutation_sym P)). now right.
        + exists e. split; [|apply same_slot_refl]. apply (Permutation_in _ (Permutation_sym P)). now left.
      - destruct SP as [-> K]. auto. }
    destruct H as [S1 [H1 [H2 [x0 [H3 H4]]]]].
    destruct (IH _ _ S1 E) as [S' [K1 [K2 K3]]]. split; auto. split; [|split].
    + intros x hx. destruct (K1 x hx) as [h|[g' [h1 h2]]].
      * destruct (H1 x h) as [ | -> ]; auto. right. exists g. split; auto. now left.
      * right. exists g'. split; auto. now right.
    + auto.
    + intros g' [<-|hg]; eauto. exists e, x0. auto.
Qed.
Lemma emplace_gens_fail (esc : gen I -> option es) gens : forall m,
  emplace_gens io esc gens m = None <-> exists g, In g gens /\ esc g = None.
Proof.
  induction gens as [|g t IH]; intros m; cbn [emplace_gens].
  - split; [discriminate|]. intros [g [[] _]].
  - destruct (esc g) as [e|] eqn:Eg.
    + rewrite IH. split; intros [g' [h1 h2]]; exists g'; split; auto; [now right|].
      destruct h1 as [->|]; auto. congruence.
    + split; auto. intros _. exists g. split; auto. now left.
Qed.

Lemma fold_dim (l : list (es * (Z * Z))) : forall d,
  fold_left (fun d x => w64 (d * es_dim (fst x))) l (w64 d) = w64 (d * product_dim (map fst l)).
Proof.
  induction l as [|[x r] t IH]; intros d; cbn [fold_left map fst product_dim].
  - f_equal. lia.
  - rewrite w64_mul_l, IH. f_equal. lia.
Qed.

Lemma gens_spec (esc : gen I -> option es) gens :
  (forall g e, In g gens -> esc g = Some e -> es_wf e) ->
  forall h' o, hs_of_gens io esc gens = (h', o) ->
  ((exists g, In g gens /\ esc g = None) -> o = OFailure) /\
  ((forall g, In g gens -> esc g <> None) ->
   sorted (spaces h') /\
   (forall x, In x (spaces h') -> exists g, In g gens /\ esc g = Some x) /\
   (forall g, In g gens -> exists e x, esc g = Some e /\ In x (spaces h') /\ same_slot x e) /\
   hs_algs_ok h' /\
   if Nat.leb (total_bits (spaces h')) 63 then o = ODone /\ hs_inv h'
   else o = OTooBig (Z.of_nat (total_bits (spaces h')))).
Proof.
  intros W h' o E. unfold hs_of_gens in E.
  destruct (emplace_gens io esc gens []) as [m|] eqn:EE.
  - split.
    { intros F. apply (emplace_gens_fail esc gens []) in F. congruence. }
    intros _. destruct (emplace_gens_spec esc gens [] m ltac:(constructor) EE) as [S [K1 [_ K3]]].
    assert (K1' : forall x, In x (map fst m) -> exists g, In g gens /\ esc g = Some x).
    { intros x hx. destruct (K1 x hx) as [[]|]; auto. }
    assert (W2 : Forall es_wf (map fst m)).
    { apply Forall_forall. intros x hx. destruct (K1' x hx) as [g [h1 h2]]. eauto. }
    destruct (recompute (mk_hs m [] (-1)%Z 1 None)) as [h1 tb] eqn:ER.
    destruct (recompute_spec _ _ _ ER) as [R1 [R2 [R3 [R4 [R5 [R6 [R7 R8]]]]]]].
    change (spaces (mk_hs m [] (-1)%Z 1 None)) with (map fst m) in *. cbn [hs_dim_ hs_es hs_fa] in R4, R5, R8.
    destruct tb.
    + inversion E; subst h' o. rewrite R6. repeat split; auto.
      destruct (Nat.leb_spec (total_bits (map fst m)) 63) as [L|L].
      * assert (63 < total_bits (map fst m))%nat by (now apply R7). lia.
      * f_equal. rewrite R2. lia.
    + assert (L : (total_bits (map fst m) <= 63)%nat).
      { destruct (Nat.le_gt_cases (total_bits (map fst m)) 63); auto. exfalso.
        assert (false = true) by (apply R7; lia). discriminate. }
      set (h2 := mk_hs (hs_es h1) (hs_algs h1) (hs_end h1) _ (hs_fa h1)) in E.
      assert (H2 : spaces h2 = map fst m) by (unfold spaces, h2; cbn; rewrite R1; apply place_fst).
      destruct (finish h2 h' o E) as [-> [I1 [I2 [I3 I4]]]]; rewrite ?H2; auto.
      * unfold h2. cbn [hs_dim_]. rewrite R4.
        change (fold_left (fun d x => w64 (d * es_dim (fst x))) (hs_es h1) 1) with
          (fold_left (fun d x => w64 (d * es_dim (fst x))) (hs_es h1) (w64 1)).
        rewrite fold_dim, w64_mul_r, R1, place_fst, !N.mul_1_l. now apply product_w64.
      * rewrite I3, H2. destruct (Nat.leb_spec (total_bits (map fst m)) 63); [|lia]. repeat split; auto.
        all: apply I1.
  - inversion E; subst. split; auto. intros F. exfalso.
    apply (emplace_gens_fail esc gens []) in EE. destruct EE as [g [h1 h2]]. eapply F; eauto.
Qed.

Lemma copy_inv h : hs_inv h -> hs_inv (hs_copy h).
Proof. intros H. exact H. Qed.
Lemma assign_inv d s : hs_inv s -> hs_inv (hs_assign d s).
Proof. intros H. exact H. Qed.

Lemma ODone_or (x : es) l : (exists y, In y l /\ same_slot y x) \/ (forall y, In y l -> ~ same_slot y x).
Proof.
  induction l as [|a t IH]; [right; intros y []|].
  destruct IH as [[y [h1 h2]]|N]; [left; exists y; split; auto; now right|].
  destruct (es_tricho io Hio a x) as [h|[h|h]].
  - right. intros y [<-|hy] ss; [eapply same_slot_not_before; eauto|eapply N; eauto].
  - right. intros y [<-|hy] ss; [apply same_slot_sym in ss; eapply same_slot_not_before; eauto|eapply N; eauto].
  - left. exists a. split; auto. now left.
Qed.

Lemma reachable_inv h : hs_reachable io h -> hs_inv h.
Proof.
  induction 1 as [|h e h' Hr IH we E|l h' W E|esc gens h' W E|h Hr IH|d s Hd IHd Hs IHs].
  - apply hs_empty_inv.
  - destruct (add_spec h e IH we h' ODone E) as [A B]. destruct (ODone_or e (spaces h)) as [X|X].
    + destruct (A X); discriminate.
    + destruct (B X) as [_ [_ [_ [_ [_ K]]]]]. destruct (Nat.leb _ 63); destruct K; auto; discriminate.
  - destruct (vector_spec l W h' ODone E) as [A B].
    unfold hs_of_vector in E. destruct (emplace_list io l [] 1) as [[m d]|] eqn:EE; [|discriminate].
    destruct (emplace_list_spec l [] 1 m d ltac:(constructor) EE) as [S [P D]].
    rewrite app_nil_r in P.
    destruct B as [_ [_ [_ K]]].
    { eapply distinct_perm; [exact P|]. now apply sorted_distinct. }
    destruct (Nat.leb _ 63); [apply K|discriminate].
  - destruct (gens_spec esc gens W h' ODone E) as [A B].
    destruct B as [_ [_ [_ [_ K]]]].
    { intros g hg C. assert (K : ODone = OFailure) by (apply A; eauto). discriminate. }
    destruct (Nat.leb _ 63); [apply K|discriminate].
  - now apply copy_inv.
  - now apply assign_inv.
Qed.
Lemma fresh_reachable h : hs_fresh io h -> hs_reachable io h.
Proof. destruct 1; [apply hr_empty|eapply hr_add; eauto|eapply hr_vector; eauto|eapply hr_gens; eauto]. Qed.
Lemma fresh_algs h : hs_fresh io h -> hs_algs_ok h.
Proof.
  destruct 1 as [|h e h' Hr we E|l h' W E|esc gens h' W E].
  - intros a. reflexivity.
  - destruct (add_spec h e (reachable_inv _ Hr) we h' ODone E) as [A B]. destruct (ODone_or e (spaces h)) as [X|X].
    + destruct (A X); discriminate.
    + destruct (B X) as [_ [_ [_ [K _]]]]. exact K.
  - destruct (vector_spec l W h' ODone E) as [A B].
    unfold hs_of_vector in E. destruct (emplace_list io l [] 1) as [[m d]|] eqn:EE; [|discriminate].
    destruct (emplace_list_spec l [] 1 m d ltac:(constructor) EE) as [S [P D]].
    rewrite app_nil_r in P.
    destruct B as [_ [_ [K _]]]; auto.
    eapply distinct_perm; [exact P|]. now apply sorted_distinct.
  - destruct (gens_spec esc gens W h' ODone E) as [A B].
    destruct B as [_ [_ [_ [K _]]]]; auto.
    intros g hg C. assert (K : ODone = OFailure) by (apply A; eauto). discriminate.
Qed.

(** the object is determined by its set of spaces *)
Lemma inv_determined h1 h2 : hs_inv h1 -> hs_inv h2 -> Permutation (spaces h1) (spaces h2) ->
  hs_es h1 = hs_es h2 /\ hs_end h1 = hs_end h2 /\ hs_dim_ h1 = hs_dim_ h2 /\ hs_fa h1 = hs_fa h2.
Proof.
  intros [S1 [W1 [P1 [E1 [B1 [D1 F1]]]]]] [S2 [W2 [P2 [E2 [B2 [D2 F2]]]]]] P.
  pose proof (sorted_perm_eq io Hio _ _ S1 S2 P) as EQ. rewrite EQ in *.
  repeat split; congruence.
Qed.

(** ** foreach *)
Definition basis_list (l : list es) : list N :=
  map (fun i => stl l (N.of_nat i)) (seq 0 (N.to_nat (product_dim l))).

Lemma basis_list_length l : N.of_nat (length (basis_list l)) = product_dim l.
Proof. unfold basis_list. rewrite map_length, seq_length. apply N2Nat.id. Qed.
Lemma basis_list_In l : Forall es_wf l -> forall x, In x (basis_list l) <-> valid_state l x.
Proof.
  intros W x. rewrite <- validr_iff by auto. unfold basis_list. rewrite in_map_iff. split.
  - intros [i [<- hi]]. apply in_seq in hi. apply stl_valid; auto. lia.
  - intros h. destruct (valid_stl l W x h) as [i [hi E]]. exists (N.to_nat i). rewrite N2Nat.id. split; auto.
    apply in_seq. lia.
Qed.
Lemma sorted_map_seq (f : nat -> N) n : forall a, (forall i j, (a <= i)%nat -> (i < j)%nat -> (j < a + n)%nat -> f i < f j) ->
  StronglySorted N.lt (map f (seq a n)).
Proof.
  induction n as [|n IH]; intros a H; cbn [seq map]; [constructor|].
  constructor.
  - apply IH. intros i j h1 h2 h3. apply H; lia.
  - apply Forall_forall. intros y hy. apply in_map_iff in hy. destruct hy as [j [<- hj]]. apply in_seq in hj.
    apply H; lia.
Qed.
Lemma basis_list_sorted l : Forall es_wf l -> StronglySorted N.lt (basis_list l).
Proof.
  intros W. apply sorted_map_seq. intros i j h1 h2 h3. apply stl_mono; auto; lia.
Qed.

Lemma dense_loop_spec {A} (f : N -> A -> A) k : forall i acc,
  dense_loop f k (N.of_nat i) acc = fold_left (fun a x => f (N.of_nat x) a) (seq i k) acc.
Proof.
  induction k as [|k IH]; intros i acc; [reflexivity|]. cbn [dense_loop seq fold_left].
  replace (N.of_nat i + 1) with (N.of_nat (S i)) by lia. apply IH.
Qed.
Lemma fold_left_map' {A B C} (g : B -> C) (f : A -> C -> A) l : forall acc,
  fold_left f (map g l) acc = fold_left (fun a x => f a (g x)) l acc.
Proof. induction l; intros acc; cbn; auto. Qed.
Lemma fold_left_ext_in {A B} (f g : A -> B -> A) l : (forall a x, In x l -> f a x = g a x) ->
  forall acc, fold_left f l acc = fold_left g l acc.
Proof.
  induction l as [|x t IH]; intros H acc; cbn; auto.
  rewrite H by now left. apply IH. intros; apply H; now right.
Qed.

Lemma foreach_dense h : hs_inv h -> hs_fa h = None -> forall {A} (f : N -> A -> A) acc,
  hs_foreach h f acc = fold_left (fun a x => f x a) (basis_list (spaces h)) acc.
Proof.
  intros [S [W [P [E [B [D F]]]]]] N A f acc. unfold hs_foreach. rewrite N.
  change 0 with (N.of_nat 0). rewrite dense_loop_spec. unfold basis_list. rewrite fold_left_map'.
  unfold hs_dim. rewrite D. apply fold_left_ext_in. intros a x hx. apply in_seq in hx.
  destruct (init_fa_spec (place (spaces h) 0)) as [fa [Ef K]]; rewrite ?place_fst in *; auto.
  rewrite F in Ef. inversion Ef; subst. rewrite N in K. rewrite K; auto. lia.
Qed.
Lemma foreach_sparse h s : hs_inv h -> hs_fa h = Some s -> forall {A} (f : N -> A -> A) acc,
  sfe_n s = product_dim (spaces h) ->
  hs_foreach h f acc = fold_left (fun a x => f x a) (basis_list (spaces h)) acc.
Proof.
  intros [S [W [P [E [B [D F]]]]]] N A f acc SN. unfold hs_foreach. rewrite N.
  destruct (init_fa_spec (place (spaces h) 0)) as [fa [Ef K]]; rewrite ?place_fst in *; auto.
  rewrite F, N in Ef. inversion Ef; subst fa. destruct K as [K1 [K2 [K3 [K4 [K5 [K6 K7]]]]]].
  unfold sfe_run. rewrite <- digs_zero by auto.
  pose proof (sfe_loop_spec f _ _ K1 K2 K3 (N.to_nat (sfe_n s)) 0 acc) as L.
  change (N.of_nat 0) with 0 in L. rewrite (stv_zero _ K2) in L. change (w64 0) with 0 in L. rewrite L.
  unfold basis_list. rewrite fold_left_map', SN. apply fold_left_ext_in. intros a x hx. apply in_seq in hx.
  rewrite K7 by lia. rewrite w64_small; auto.
  apply N.lt_le_trans with (2 ^ N.of_nat (total_bits (spaces h))).
  - apply stl_bound; auto. lia.
  - apply N.pow_le_mono_r; lia.
Qed.
Lemma sfe_n_iff h s : hs_inv h -> hs_fa h = Some s ->
  (sfe_n s = product_dim (spaces h) <-> product_dim (spaces h) < 2 ^ 31).
Proof.
  intros [S [W [P [E [B [D F]]]]]] N.
  destruct (init_fa_spec (place (spaces h) 0)) as [fa [Ef K]]; rewrite ?place_fst in *; auto.
  rewrite F, N in Ef. inversion Ef; subst fa. destruct K as [K1 [K2 [K3 [K4 [K5 [K6 K7]]]]]].
  rewrite K5. split; intros H.
  - pose proof (int_acc_range _ K1) as R. pose proof (product_63 _ W B) as U.
    destruct (N.lt_ge_cases (product_dim (spaces h)) (2 ^ 31)) as [|G]; auto. exfalso.
    unfold z_to_u64 in H. set (z := int_accumulate (sfe_sizes s)) in *.
    change (2 ^ 31)%Z with 2147483648%Z in R. change (2 ^ 64)%Z with 18446744073709551616%Z in H.
    change (2 ^ 31) with 2147483648 in G. change (2 ^ 63) with 9223372036854775808 in U.
    destruct (Z_lt_le_dec z 0) as [zn|zp].
    + assert (zm : (z mod 18446744073709551616 = z + 18446744073709551616)%Z).
      { symmetry. apply Z.mod_unique with (-1)%Z; lia. }
      rewrite zm in H. lia.
    + rewrite Z.mod_small in H by lia. lia.
  - unfold int_accumulate. change 1%Z with (Z.of_N 1).
    rewrite int_acc_small by (auto; try lia; rewrite K4; lia).
    rewrite N.mul_1_l, K4. apply z_to_u64_small.
    apply N.lt_trans with (2 ^ 31); auto. reflexivity.
Qed.

(** all elementary dimensions are powers of two <-> dim = vec_size *)
Lemma dense_iff (l : list es) : Forall es_wf l ->
  (product_dim l = 2 ^ N.of_nat (total_bits l) <-> Forall (fun e => es_dim e = 2 ^ N.of_nat (es_nbits e)) l).
Proof.
  induction 1 as [|e t we Wt IH]; cbn [product_dim total_bits].
  - split; auto.
  - rewrite Nat2N.inj_add, N.pow_add_r. pose proof (dim_le e we) as L. pose proof (total_bits_le t Wt) as L2.
    pose proof (wf_dim e we). pose proof (product_pos t Wt). split.
    + intros E.
      assert (es_dim e = 2 ^ N.of_nat (es_nbits e) /\ product_dim t = 2 ^ N.of_nat (total_bits t)) as [A B] by nia.
      constructor; auto. now apply IH.
    + intros F. inversion F as [|? ? F1 F2]; subst. apply IH in F2. congruence.
Qed.
Lemma merge_dense (l : list (es * (Z * Z))) : Forall (fun e => es_dim e = 2 ^ N.of_nat (es_nbits e)) (map fst l) ->
  forall m sizes, merge_dims l m = Some sizes -> (length sizes <= 1)%nat.
Proof.
  induction l as [|[x r] t IH]; intros F m sizes E; cbn [merge_dims map fst] in *.
  - inversion E. destruct (m =? 1); cbn; lia.
  - inversion F as [|? ? F1 F2]; subst. unfold pow2 in E. destruct (Nat.ltb (es_nbits x) 64); [|discriminate].
    rewrite F1, N.eqb_refl in E. eapply IH; eauto.
Qed.
Lemma dense_fa h : hs_inv h -> hs_dim_ h = 2 ^ N.of_nat (total_bits (spaces h)) -> hs_fa h = None.
Proof.
  intros [S [W [P [E [B [D F]]]]]] H. rewrite D in H. apply dense_iff in H; auto.
  unfold init_foreach_alg in F. destruct (merge_dims (place (spaces h) 0) 1) as [sizes|] eqn:EM; [|discriminate].
  assert (L : (length sizes <= 1)%nat).
  { eapply merge_dense; [|exact EM]. rewrite place_fst. exact H. }
  apply Nat.leb_le in L. rewrite L in F. now inversion F.
Qed.
End Inv.
