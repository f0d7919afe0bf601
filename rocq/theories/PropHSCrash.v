(** C86: exceptions while a Hilbert space is extended or assigned *)
From Coq Require Import NArith ZArith List Bool Sorted Permutation Lia Arith.
From Verif Require Import BitsModel ExprModel ExprSpec HSModel HSSpec HSEnum HSProofs HSMain PropHS HSCrashModel HSCrashProofs.
Import ListNotations.
Close Scope nat_scope.
Open Scope N_scope.
Open Scope list_scope.

(** The states of Hilbert space objects in a program that catches all
    exceptions and goes on: each add() and each assignment may have failed at
    any of its allocations, add() may also have thrown its own exceptions. *)
Inductive hs_history {I} (io : index_ops I) : hspace I -> Prop :=
| hh_empty : hs_history io hs_empty
| hh_vector : forall l h, Forall es_wf l -> hs_of_vector io l = (h, ODone) -> hs_history io h
| hh_gens : forall esc gens h, (forall g e, In g gens -> esc g = Some e -> es_wf e) ->
    hs_of_gens io esc gens = (h, ODone) -> hs_history io h
| hh_add : forall k h e h' r, hs_history io h -> es_wf e -> hs_add_c io k h e = (h', r) -> hs_history io h'
| hh_copy : forall h, hs_history io h -> hs_history io (hs_copy h)
| hh_assign : forall k d s d' r, hs_history io d -> hs_history io s -> hs_assign_c k d s = (d', r) -> hs_history io d'
| hh_assign_self : forall h, hs_history io h -> hs_history io (hs_assign_self h).

Lemma sorted_firstn {A} (R : A -> A -> Prop) (l : list A) : StronglySorted R l -> forall n, StronglySorted R (firstn n l).
Proof.
  induction 1 as [|x t S IH F]; intros [|n]; cbn [firstn]; constructor; auto.
  rewrite Forall_forall in *. intros y i. apply F. rewrite <- (firstn_skipn n t). apply in_or_app. now left.
Qed.
Lemma Forall_firstn {A} (P : A -> Prop) (l : list A) n : Forall P l -> Forall P (firstn n l).
Proof. intros H. rewrite <- (firstn_skipn n l) in H. apply Forall_app in H. tauto. Qed.

Lemma history_keys {I} (io : index_ops I) (h : hspace I) : index_order io -> hs_history io h ->
  StronglySorted (es_before io) (spaces h) /\ Forall es_wf (spaces h).
Proof.
  intros Hio. induction 1 as [|l h W E|esc gens h W E|k h e h' r H IH we E|h H IH|k d s d' r Hd IHd Hs IHs E|h H IH].
  - split; constructor.
  - pose proof (reachable_inv io Hio h (hr_vector io l h W E)) as Hi. split; apply Hi.
  - pose proof (reachable_inv io Hio h (hr_gens io esc gens h W E)) as Hi. split; apply Hi.
  - destruct IH as [S0 W]. destruct r as [o|].
    + apply (add_c_some io) in E. destruct (add_outcome io Hio h e h' o S0 W we E) as [A B].
      destruct (ODone_or io Hio e (spaces h)) as [X|X]; [destruct (A X) as [_ ->]; auto|].
      destruct (B X) as [P [S1 _]]. split; auto. apply (Permutation_Forall (Permutation_sym P)). now constructor.
    + destruct (add_c_none io Hio k h e h' S0 E) as [->|[_ [S1 [P _]]]]; auto.
      split; auto. apply (Permutation_Forall (Permutation_sym P)). now constructor.
  - exact IH.
  - destruct r as [[]|].
    + apply assign_c_some in E. subst d'. exact IHs.
    + destruct (assign_c_none k d s d' E) as [_ [_ [_ [[n [_ [Q _]]]|[Q _]]]]]; unfold spaces in *; rewrite Q; [|exact IHs].
      rewrite <- firstn_map. destruct IHs. split; [now apply sorted_firstn|now apply Forall_firstn].
  - split; constructor.
Qed.

(** Whatever happened before, the list of elementary spaces is sound (sorted,
    without duplicates) and has() tells what is in it *)
Theorem C86_spaces_sound : forall I (io : index_ops I) (h : hspace I), index_order io -> hs_history io h ->
  StronglySorted (es_before io) (spaces h) /\ hs_size h = length (spaces h) /\
  forall e, es_wf e -> (hs_has io h e = true <-> exists x, In x (spaces h) /\ same_slot x e).
Proof.
  intros I io h Hio H. destruct (history_keys io h Hio H) as [S0 W]. split; [exact S0|].
  split; [unfold hs_size, spaces; now rewrite map_length|]. intros e we.
  unfold hs_has. pose proof (es_find_spec io Hio e (hs_es h) S0) as F. fold (spaces h) in F.
  destruct (es_find io e (hs_es h)) as [[[k y] r]|].
  - split; [intros _|auto]. destruct F as [F1 F2]. exists y. split; auto. apply nth_error_In in F1. now apply (in_map fst) in F1.
  - split; [discriminate|]. intros [x [i ss]]. exfalso. exact (F x i ss).
Qed.

(** bad_alloc out of add(e): nothing happened, or e is in the space (so that the
    call cannot be repeated: it throws elementary_space_exists), foreach() is as
    before, and dim() is as before or that of the successful call *)
Theorem C86_bad_alloc_add : forall I (io : index_ops I) k (h h' : hspace I) e, index_order io -> hs_history io h -> es_wf e ->
  hs_add_c io k h e = (h', None) ->
  h' = h \/
  (hs_has io h e = false /\ hs_has io h' e = true /\ Permutation (spaces h') (e :: spaces h) /\
   hs_add io h' e = (h', OExists) /\ hs_fa h' = hs_fa h /\
   (hs_dim h' = hs_dim h \/
    exists h1, hs_add io h e = (h1, ODone) /\ h' = mk_hs (hs_es h1) (hs_algs h1) (hs_end h1) (hs_dim h1) (hs_fa h))).
Proof.
  intros I io k h h' e Hio H we E. destruct (history_keys io h Hio H) as [S0 W].
  assert (H' : hs_history io h') by (eapply hh_add; eauto).
  destruct (add_c_none io Hio k h e h' S0 E) as [->|[N [S1 [P [F D]]]]]; [auto|right].
  destruct (C86_spaces_sound I io h Hio H) as [_ [_ HS]]. destruct (C86_spaces_sound I io h' Hio H') as [_ [_ HS']].
  split. { destruct (hs_has io h e) eqn:Q; auto. apply (HS e we) in Q. destruct Q as [x [i ss]]. exfalso. exact (N x i ss). }
  assert (X : exists x, In x (spaces h') /\ same_slot x e).
  { exists e. split; [|apply same_slot_refl]. apply (Permutation_in _ (Permutation_sym P)). now left. }
  split; [now apply (HS' e we)|]. split; [exact P|].
  split.
  { destruct (hs_add io h' e) as [h2 o] eqn:E2. destruct (history_keys io h' Hio H') as [_ W'].
    destruct (add_outcome io Hio h' e h2 o S1 W' we E2) as [A _]. destruct (A X) as [-> ->]. reflexivity. }
  split; [exact F|]. destruct D as [D|[h1 [D1 [D2 [B [Q1 [Q2 [Q3 Q4]]]]]]]]; [now left|right].
  exists h1. destruct (add_outcome io Hio h e h1 _ S0 W we D2) as [_ A]. destruct (A N) as [_ [_ O]].
  rewrite <- (total_perm _ _ P) in O. destruct (Nat.leb_spec (total_bits (spaces h')) 63) as [_|]; [|lia].
  rewrite O in D2. split; [exact D2|]. unfold hs_dim. rewrite Q1, Q2, Q3, Q4, <- F. now destruct h'.
Qed.

(** add() on an object with any history: the same outcome as always *)
Theorem C86_add_outcome : forall I (io : index_ops I) (h h' : hspace I) e o, index_order io -> hs_history io h -> es_wf e ->
  hs_add io h e = (h', o) ->
  (o = OExists <-> hs_has io h e = true) /\ (o = OExists -> h' = h) /\
  (o = ODone <-> hs_has io h e = false /\ (total_bits (spaces h) + es_nbits e <= 63)%nat) /\
  (hs_has io h e = false -> (63 < total_bits (spaces h) + es_nbits e)%nat -> o = OTooBig (Z.of_nat (total_bits (spaces h) + es_nbits e))).
Proof.
  intros I io h h' e o Hio H we E. destruct (history_keys io h Hio H) as [S0 W].
  destruct (C86_spaces_sound I io h Hio H) as [_ [_ HS]]. destruct (add_outcome io Hio h e h' o S0 W we E) as [A B].
  replace (total_bits (spaces h) + es_nbits e)%nat with (total_bits (e :: spaces h)) by (cbn; lia).
  destruct (ODone_or io Hio e (spaces h)) as [X|X].
  - destruct (A X) as [-> ->]. apply (HS e we) in X. rewrite X.
    split; [tauto|]. split; [auto|]. split; [|discriminate]. split; [discriminate|intros [Q _]; discriminate].
  - destruct (B X) as [_ [_ K]]. assert (Q : hs_has io h e = false).
    { destruct (hs_has io h e) eqn:Q; auto. apply (HS e we) in Q. destruct Q as [x [i ss]]. exfalso. exact (X x i ss). }
    rewrite Q. destruct (Nat.leb_spec (total_bits (e :: spaces h)) 63) as [L|L]; subst o.
    + split; [split; discriminate|]. split; [discriminate|]. split; [tauto|]. intros _ ?. lia.
    + split; [split; discriminate|]. split; [discriminate|]. split; [|auto]. split; [discriminate|]. intros [_ ?]. lia.
Qed.

(** A successful add() repairs everything that earlier exceptions spoiled,
    except dim(): the object equals the space constructed from its elementary
    spaces in one go, with dim() = (dim() before the call) * dim(e) *)
Theorem C86_success_repairs : forall I (io : index_ops I) (h h' : hspace I) e, index_order io -> hs_history io h -> es_wf e ->
  hs_add io h e = (h', ODone) ->
  exists f, hs_of_vector io (spaces h') = (f, ODone) /\ Permutation (spaces h') (e :: spaces h) /\
    h' = mk_hs (hs_es f) (hs_algs f) (hs_end f) (hs_dim h') (hs_fa f) /\ hs_dim h' = (hs_dim h * es_dim e) mod 2 ^ 64 /\
    (hs_dim h = product_dim (spaces h) -> h' = f).
Proof.
  intros I io h h' e Hio H we E. destruct (history_keys io h Hio H) as [S0 W].
  destruct (add_repairs io Hio h e h' S0 W we E) as [f [V [Q [D [P B]]]]]. exists f.
  split; [exact V|]. split; [exact P|]. split; [exact Q|]. split; [exact D|]. intros Dh.
  assert (W1 : Forall es_wf (spaces h')) by (apply (Permutation_Forall (Permutation_sym P)); now constructor).
  pose proof (reachable_inv io Hio f (hr_vector io _ f W1 V)) as Hf.
  assert (Sf : spaces f = spaces h') by (rewrite Q; reflexivity).
  assert (Df : hs_dim_ h' = hs_dim_ f).
  { destruct Hf as [_ [_ [_ [_ [_ [Fd _]]]]]]. rewrite Fd, Sf. unfold hs_dim in Dh. rewrite D, Dh, N.mul_comm.
    change (es_dim e * product_dim (spaces h)) with (product_dim (e :: spaces h)). rewrite <- (product_perm _ _ P).
    now apply product_w64. }
  rewrite Q. unfold hs_dim. rewrite Df. now destruct f.
Qed.

(** bad_alloc out of d = s: d has the bit range of s, some of its elementary
    spaces, its own foreach() and algebra ranges; a second, successful assignment
    gives what the first one would have given *)
Theorem C86_bad_alloc_assign : forall I k (d s d' : hspace I), hs_assign_c k d s = (d', None) ->
  (exists n, spaces d' = firstn n (spaces s)) /\ hs_total_n_bits d' = hs_total_n_bits s /\
  (hs_dim d' = hs_dim d \/ hs_dim d' = hs_dim s) /\ hs_fa d' = hs_fa d /\ hs_algs d' = hs_algs d /\
  (forall k', snd (hs_assign_c k' d' s) <> None -> fst (hs_assign_c k' d' s) = hs_assign d s).
Proof.
  intros I k d s d' E. destruct (assign_c_none k d s d' E) as [A [B [C D]]].
  split. { unfold spaces. destruct D as [[n [_ [-> _]]]|[-> _]]; [exists n; now rewrite firstn_map|]. exists (length (map fst (hs_es s))). now rewrite firstn_all. }
  split; [unfold hs_total_n_bits; now rewrite B|]. split; [unfold hs_dim; destruct D as [[n [_ [_ D]]]|[_ D]]; auto|].
  split; [exact C|]. split; [exact A|]. intros k' Q. destruct (hs_assign_c k' d' s) as [d2 [[]|]] eqn:E2; [|contradiction].
  apply assign_c_some in E2. cbn. subst d2. unfold hs_assign. now rewrite A.
Qed.
(** calls that do not throw bad_alloc do what HSModel.v says; with enough memory
    they do not throw it *)
Theorem C86_no_bad_alloc : forall I (io : index_ops I) k (h h' d s : hspace I) e o,
  (hs_add_c io k h e = (h', Some o) -> hs_add io h e = (h', o)) /\
  ((hs_size h + 10 <= k)%nat -> hs_add_c io k h e = (fst (hs_add io h e), Some (snd (hs_add io h e)))) /\
  (hs_assign_c k d s = (h', Some tt) -> h' = hs_assign d s).
Proof.
  intros I io k h h' d s e o. split; [apply add_c_some|]. split; [apply add_c_enough|apply assign_c_some].
Qed.
(** Copy and swap: extending a copy and moving it back is all or nothing, and
    gives the same object as add() *)
Theorem C86_copy_and_swap : forall I (io : index_ops I) k (h t : hspace I) e,
  hs_add_c io k (hs_copy h) e = (t, Some ODone) -> hs_add io h e = (t, ODone).
Proof.
  intros I io k h t e E. apply add_c_some in E. unfold hs_add in *. cbn [hs_copy hs_es hs_algs hs_end hs_dim_ hs_fa] in E.
  destruct (es_emplace io e (hs_es h)) as [l [|]]; cbn [negb] in *; [|discriminate]. exact E.
Qed.

(** ** What goes wrong *)
(** add() of fermion 0 to a space with fermion 1, out of memory at the third
    allocation: both modes sit at bit 0, and vec_size() < dim() *)
Theorem C86_overlap_refuted : exists h h' : hspace Z,
  hs_fresh ioZ h /\ hs_add_c ioZ 2 h (ESFermion 0%Z) = (h', None) /\
  hs_bit_range ioZ h' (ESFermion 0%Z) = Some (0, 0)%Z /\ hs_bit_range ioZ h' (ESFermion 1%Z) = Some (0, 0)%Z /\
  hs_vec_size h' = Some 1 /\ hs_dim h' = 2.
Proof.
  exists (fst (hs_of_vector ioZ [ESFermion 1%Z])). eexists. split.
  - apply hf_vector with (l := [ESFermion 1%Z]); [repeat constructor|vm_compute; reflexivity].
  - split; [vm_compute; reflexivity|]. vm_compute. auto.
Qed.
(** and after a further successful add() there are 8 basis states, of which
    foreach() visits 4 *)
Theorem C86_dim_refuted : exists h h' h'' : hspace Z,
  hs_fresh ioZ h /\ hs_add_c ioZ 2 h (ESFermion 0%Z) = (h', None) /\ hs_add ioZ h' (ESFermion 2%Z) = (h'', ODone) /\
  hs_vec_size h'' = Some 8 /\ hs_dim h'' = 4 /\ hs_is_sparse h'' = Some true /\
  hs_foreach h'' (fun x acc => acc ++ [x]) [] = [0; 1; 2; 3] /\ valid_state (spaces h'') 7.
Proof.
  exists (fst (hs_of_vector ioZ [ESFermion 1%Z])). do 2 eexists. split.
  - apply hf_vector with (l := [ESFermion 1%Z]); [repeat constructor|vm_compute; reflexivity].
  - split; [vm_compute; reflexivity|]. split; [vm_compute; reflexivity|].
    split; [vm_compute; reflexivity|]. split; [vm_compute; reflexivity|]. split; [vm_compute; reflexivity|]. split; [vm_compute; reflexivity|].
    split; [vm_compute; reflexivity|]. intros [|[|[|k]]] e E; vm_compute in E; try (destruct k; discriminate); inversion E; subst; vm_compute; reflexivity.
Qed.
(** out of memory in init_foreach_alg(): everything but foreach() is updated, and
    foreach() visits 3, which is not a basis state, and misses 10 *)
Theorem C86_old_loop_refuted : exists h h' : hspace Z,
  hs_fresh ioZ h /\ hs_add_c ioZ 4 h (ESBoson 3 1%Z) = (h', None) /\ hs_dim h' = 9 /\ hs_vec_size h' = Some 16 /\
  hs_foreach h' (fun x acc => acc ++ [x]) [] = [0; 1; 2; 3; 4; 5; 6; 7; 8] /\ ~ valid_state (spaces h') 3 /\ valid_state (spaces h') 10.
Proof.
  exists (fst (hs_of_vector ioZ [ESBoson 3 0%Z])). eexists. split.
  - apply hf_vector with (l := [ESBoson 3 0%Z]); [repeat constructor|vm_compute; reflexivity].
  - split; [vm_compute; reflexivity|]. split; [vm_compute; reflexivity|]. split; [vm_compute; reflexivity|]. split; [vm_compute; reflexivity|].
    split.
    + intros [_ H]. specialize (H 0%nat (ESBoson 3 0%Z) eq_refl). vm_compute in H. discriminate.
    + split; [vm_compute; reflexivity|]. intros [|[|k]] e E; vm_compute in E; try (destruct k; discriminate); inversion E; subst; vm_compute; reflexivity.
Qed.

(** ** Non-vacuity: a history with two exceptions and a repair *)
Example C86_ex : exists h h' h'' : hspace Z,
  hs_history ioZ h /\ hs_add_c ioZ 4 h (ESBoson 5 0%Z) = (h', None) /\ h' <> h /\
  hs_add ioZ h' (ESSpin 3 0%Z) = (h'', ODone) /\ hs_dim h' = product_dim (spaces h') /\ hs_dim h'' = 30.
Proof.
  exists (fst (hs_of_vector ioZ [ESFermion 1%Z])). do 2 eexists. split.
  - eapply (hh_vector ioZ [ESFermion 1%Z]); [repeat constructor|vm_compute; reflexivity].
  - split; [vm_compute; reflexivity|]. split; [vm_compute; discriminate|]. split; [vm_compute; reflexivity|]. vm_compute. auto.
Qed.
Example C86_assign_ex : exists d', hs_assign_c 5 (fst (hs_of_vector ioZ [ESFermion 1%Z])) hs_ex = (d', None) /\
  spaces d' = [ESFermion 0%Z; ESFermion 1%Z] /\ hs_total_n_bits d' = 7%Z /\ hs_dim d' = 2.
Proof. eexists. split; [vm_compute; reflexivity|]. vm_compute. auto. Qed.

Print Assumptions C86_spaces_sound.
Print Assumptions C86_bad_alloc_add.
Print Assumptions C86_add_outcome.
Print Assumptions C86_success_repairs.
Print Assumptions C86_bad_alloc_assign.
Print Assumptions C86_no_bad_alloc.
Print Assumptions C86_copy_and_swap.
Print Assumptions C86_overlap_refuted.
Print Assumptions C86_dim_refuted.
Print Assumptions C86_old_loop_refuted.
