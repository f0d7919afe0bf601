(** * Properties C47, C48: disjoint sets *)
From Coq Require Import List Bool Arith Lia Relations.
From Verif Require Import DSModel DSSpec DSProofs DSNormalize.
Import ListNotations.

(** C47.  For every history of calls on a structure created with n singletons
    ([op_ok] only excludes root_union(x,x), see C47_root_union_self_refuted), the
    answers are those of the equivalence relation generated by the unions. *)
Theorem C47_in_same_set_iff_connected : forall n l d x y,
  forallb op_ok l = true -> ds_run (ds_init n) l = Some d -> x < ds_size d -> y < ds_size d ->
  exists d' b, in_same_set d x y = Some (d', b) /\ (b = true <-> connected (op_edges l) x y).
Proof. exact ds_history_same. Qed.
Print Assumptions C47_in_same_set_iff_connected.

Theorem C47_find_root_representative : forall n l d x,
  forallb op_ok l = true -> ds_run (ds_init n) l = Some d -> x < ds_size d ->
  exists d' r, find_root d x = Some (d', r) /\ r < ds_size d /\ connected (op_edges l) x r /\
    (forall y, y < ds_size d -> connected (op_edges l) x y -> exists d'', find_root d y = Some (d'', r)).
Proof. exact ds_history_root. Qed.
Print Assumptions C47_find_root_representative.

Theorem C47_n_sets_counts_classes : forall n l d,
  forallb op_ok l = true -> ds_run (ds_init n) l = Some d ->
  n_classes (ds_size d) (op_edges l) (n_sets d).
Proof. exact ds_history_nsets. Qed.
Print Assumptions C47_n_sets_counts_classes.

(** No in-range call fails (no assertion, no out-of-bounds access, find_root terminates). *)
Theorem C47_calls_never_fail : forall n l d o,
  forallb op_ok l = true -> ds_run (ds_init n) l = Some d ->
  (match o with
   | DFind x => x < ds_size d
   | DSame x y | DUnion x y => x < ds_size d /\ y < ds_size d
   | DRootUnion x y => (exists d1, find_root d x = Some (d1, x)) /\ (exists d1, find_root d y = Some (d1, y)) /\ x <> y
   | _ => True end) -> exists d', ds_step d o = Some d'.
Proof.
  intros n l d o Hok H Ho. pose proof (ds_history_inv n l d Hok H) as I. apply (ds_step_defined (op_edges l)); [exact I|].
  destruct o as [| | | |x y| | |]; auto. destruct Ho as [[d1 H1] [[d2 H2] Hxy]].
  assert (forall z d', find_root d z = Some (d', z) -> nth_error (parents d) z = Some z) as K.
  { intros z d' Hz. assert (z < ds_size d) as L.
    { unfold find_root in Hz. unfold ds_size in *. apply nth_error_Some. intros E.
      destruct (length (parents d)); cbn [find_root_fuel] in Hz; rewrite E in Hz; discriminate. }
    destruct (find_root_spec _ d z I L) as [d3 [r [k [Hf [Hr _]]]]]. assert (r = z) by congruence. subst.
    now apply root_at_root in Hr. }
  split; [now apply K with d1|]. split; [now apply K with d2|exact Hxy].
Qed.
Print Assumptions C47_calls_never_fail.

Example C47_nonvacuous : exists d,
  ds_run (ds_init 5) [DUnion 0 1; DMakeSet; DUnion 3 5; DCompress; DUnion 1 5; DNormalize; DFind 4] = Some d /\
  n_sets d = 3 /\ ds_size d = 6 /\
  option_map snd (in_same_set d 0 3) = Some true /\ option_map snd (in_same_set d 0 2) = Some false.
Proof. eexists. vm_compute. repeat split. Qed.

(** root_union(x,x) passes all assertions but decrements n_sets(). *)
Theorem C47_root_union_self_refuted :
  exists d, ds_run (ds_init 3) [DRootUnion 1 1] = Some d /\ n_sets d = 2 /\
    ~ n_classes (ds_size d) (op_edges [DRootUnion 1 1]) (n_sets d).
Proof.
  eexists. split; [reflexivity|]. split; [reflexivity|].
  intros [reps [Hl [Hnd [Hlt [Hcov Hsep]]]]]. cbn in Hl.
  assert (forall a b, connected [(1, 1)] a b -> a = b) as T.
  { intros a b H. unfold connected in H. induction H as [a b H| | |]; try congruence.
    destruct H as [H|[]]. congruence. }
  assert (incl (seq 0 3) reps) as Hi.
  { intros x Hx. apply in_seq in Hx. destruct (Hcov x ltac:(cbn; lia)) as [r [Hr Hc]]. apply T in Hc. now subst. }
  apply NoDup_incl_length in Hi; [|apply seq_NoDup]. rewrite seq_length in Hi. cbn in Hl. lia.
Qed.
Print Assumptions C47_root_union_self_refuted.

(** C48 is false for compress_sets(); normalize_sets() in general: compress_sets
    calls find_root on the *parent* of every element, leaving paths of length 2. *)
Theorem C48_normalize_smallest_refuted :
  exists d d', ds_run (ds_init 7) [DUnion 2 0; DUnion 5 6; DUnion 5 2; DCompress; DNormalize] = Some d /\
    find_root d 0 = Some (d', 2) /\ connected (op_edges [DUnion 2 0; DUnion 5 6; DUnion 5 2]) 2 0.
Proof.
  eexists. eexists. split; [vm_compute; reflexivity|]. split; [vm_compute; reflexivity|].
  apply rst_step. cbn. auto.
Qed.
Print Assumptions C48_normalize_smallest_refuted.

(** It holds when the paths are fully compressed first (find_root called for every element). *)
Theorem C48_normalize_after_full_compression : forall n l d,
  forallb op_ok l = true -> ds_run (ds_init n) l = Some d ->
  exists d', ds_run d (map DFind (seq 0 (ds_size d)) ++ [DNormalize]) = Some d' /\
    forall x, x < ds_size d -> exists d'' r, find_root d' x = Some (d'', r) /\
      connected (op_edges l) x r /\ (forall y, y < ds_size d -> connected (op_edges l) x y -> r <= y).
Proof. exact normalize_min. Qed.
Print Assumptions C48_normalize_after_full_compression.
