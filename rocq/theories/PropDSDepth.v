(** * C83: the recursion of find_root is logarithmic *)
From Coq Require Import List Bool Arith Lia.
From Verif Require Import DSModel DSSpec DSProofs DSDepth.
Import ListNotations.

(** [find_calls k d x]: find_root(x) returns after at most [k] nested recursive calls *)
Definition find_calls (k : nat) (d : dsets) (x : nat) : Prop :=
  exists r, find_root_fuel k (parents d) x = Some r.
(** number of calls of normalize_sets() in a history *)
Definition normalizations (l : list ds_op) : nat :=
  length (filter (fun o => match o with DNormalize => true | _ => false end) l).
(** every normalize_sets() comes directly after a compress_sets(), as in space_partition.hpp l.293-295 *)
Fixpoint compressed_before (prev : bool) (l : list ds_op) : bool :=
  match l with
  | [] => true
  | DNormalize :: l' => prev && compressed_before false l'
  | DCompress :: l' => compressed_before true l'
  | _ :: l' => compressed_before false l'
  end.

Lemma init_hbound n : hbound 0 (ds_init n).
Proof.
  exists (fun _ => 0). split; [|intros; lia]. intros x p Hx Hp. unfold ds_init in Hx; cbn [parents] in Hx.
  assert (Hl : x < n) by (rewrite <- (seq_length n 0); apply nth_error_Some; congruence).
  rewrite (nth_error_nth' _ 0) in Hx by (rewrite seq_length; exact Hl). rewrite seq_nth in Hx by exact Hl. simpl in Hx. congruence.
Qed.
Lemma init_big n : big (ds_init n).
Proof.
  intros x k Hk. unfold ds_init in *; cbn [parents ranks] in *.
  assert (Hl : x < n) by (rewrite <- (repeat_length 0 n); apply nth_error_Some; congruence).
  apply nth_error_In, repeat_spec in Hk. subst k.
  exists [x]. split; [constructor; [intros []|constructor]|]. split; [simpl; lia|]. intros y [<-|[]].
  assert (E : nth_error (seq 0 n) x = Some x).
  { rewrite (nth_error_nth' _ 0) by (rewrite seq_length; exact Hl). rewrite seq_nth by exact Hl. reflexivity. }
  exists x, 0, 0. split; apply root_here; exact E.
Qed.

Lemma run_depth l : forall E d d' m, ds_inv E d -> forallb op_ok l = true -> ds_run d l = Some d' ->
  hbound (m * (Nat.log2 (ds_size d) + 1)) d -> big d ->
  (exists E', ds_inv E' d') /\ big d' /\ hbound ((m + normalizations l) * (Nat.log2 (ds_size d') + 1)) d'.
Proof.
  induction l as [|o l IH]; intros E d d' m I Hok H HB B; cbn [ds_run] in H.
  - injection H as <-. split; [eauto|]. split; [exact B|]. cbn. rewrite Nat.add_0_r. exact HB.
  - cbn [forallb] in Hok. apply andb_true_iff in Hok. destruct Hok as [Hok Hokl].
    destruct (ds_step d o) as [d1|] eqn:Es; [|discriminate]. cbn [dbind] in H.
    destruct (ds_step_inv E d o d1 I Hok Es) as [I1 Hsz].
    pose proof (Nat.log2_le_mono _ _ Hsz) as Hlog.
    assert (Hdec : o = DNormalize \/ o <> DNormalize) by (destruct o; (left; reflexivity) || (right; discriminate)).
    destruct Hdec as [->|Hne].
    + cbn [ds_step] in Es. pose proof HB as (h & H1 & H2). pose proof I as (F & HL & _).
      assert (HB1 : hbound (Nat.log2 (ds_size d) + m * (Nat.log2 (ds_size d) + 1) + 1) d1).
      { apply (normalize_keep _ d); [|exact Es]. exists h. split; [exact H1|]. intros r Hr.
        assert (Hr2 : r < length (ranks d)) by (rewrite HL; apply nth_error_Some; congruence).
        destruct (nth_error (ranks d) r) as [k|] eqn:Ek; [|apply nth_error_None in Ek; lia].
        specialize (H2 r k Hr Ek). pose proof (pow_log _ _ (big_rank d r k B Ek)). lia. }
      destruct (IH _ d1 d' (S m) I1 Hokl H) as (J1 & J2 & J3).
      * eapply hbound_mono; [|exact HB1]. clear - Hlog. nia.
      * exact (normalize_big E d d1 I B Es).
      * split; [exact J1|]. split; [exact J2|]. unfold normalizations in *; cbn [filter length].
        rewrite Nat.add_succ_r. exact J3.
    + destruct (step_keep E d o d1 _ I Hok Hne Es HB B) as (HB1 & B1).
      destruct (IH _ d1 d' m I1 Hokl H) as (J1 & J2 & J3); [|exact B1|].
      * eapply hbound_mono; [|exact HB1]. clear - Hlog. nia.
      * split; [exact J1|]. split; [exact J2|].
        assert (En : normalizations (o :: l) = normalizations l) by (destruct o; try reflexivity; contradiction).
        rewrite En. exact J3.
Qed.
Lemma run_depth_compressed l : forall E d d' prev, ds_inv E d -> forallb op_ok l = true -> ds_run d l = Some d' ->
  compressed_before prev l = true -> (prev = true -> forall x, x < ds_size d -> two_steps (parents d) x) ->
  hbound 3 d -> big d ->
  (exists E', ds_inv E' d') /\ big d' /\ hbound 3 d'.
Proof.
  induction l as [|o l IH]; intros E d d' prev I Hok H Hc Ht HB B; cbn [ds_run] in H.
  - injection H as <-. eauto.
  - cbn [forallb] in Hok. apply andb_true_iff in Hok. destruct Hok as [Hok Hokl].
    destruct (ds_step d o) as [d1|] eqn:Es; [|discriminate]. cbn [dbind] in H.
    destruct (ds_step_inv E d o d1 I Hok Es) as [I1 _].
    assert (Hdec : o = DNormalize \/ o = DCompress \/ (o <> DNormalize /\ compressed_before false l = true)).
    { destruct o; try (left; reflexivity); right; try (left; reflexivity); right; (split; [discriminate|exact Hc]). }
    destruct Hdec as [->|[->|[Hne Hcl]]].
    + cbn [compressed_before] in Hc. apply andb_true_iff in Hc. destruct Hc as [-> Hc]. cbn [ds_step] in Es.
      assert (HB1 : hbound (2 + 1) d1).
      { apply (normalize_keep 2 d); [|exact Es]. apply two_steps_height; [apply I|]. exact (Ht eq_refl). }
      exact (IH _ d1 d' false I1 Hokl H Hc ltac:(discriminate) HB1 (normalize_big E d d1 I B Es)).
    + cbn [compressed_before] in Hc. cbn [ds_step] in Es.
      destruct (compress_keep E d d1 3 I HB B Es) as (K1 & K2 & K3).
      exact (IH _ d1 d' true I1 Hokl H Hc (fun _ => K3) K1 K2).
    + destruct (step_keep E d o d1 3 I Hok Hne Es HB B) as (HB1 & B1).
      exact (IH _ d1 d' false I1 Hokl H Hcl ltac:(discriminate) HB1 B1).
Qed.

(** With [m] calls of normalize_sets() before, find_root() of any element needs at most
    (m+1)*log2(size) + m - 1 nested calls. *)
Theorem C83_depth : forall n l d x,
  forallb op_ok l = true -> ds_run (ds_init n) l = Some d -> x < ds_size d ->
  find_calls ((normalizations l + 1) * Nat.log2 (ds_size d) + normalizations l - 1) d x.
Proof.
  intros n l d x Hok H Hx.
  destruct (run_depth l [] (ds_init n) d 0 (ds_init_inv n) Hok H (init_hbound n) (init_big n)) as ((E' & I) & B & HB).
  destruct (proj1 I x Hx) as (r & k & Hr).
  pose proof (depth_bound _ d x r k HB B (proj1 (proj2 I)) Hr) as Hk.
  destruct (find_root_fuel_enough ((normalizations l + 1) * Nat.log2 (ds_size d) + normalizations l - 1) (parents d) x r k Hr) as [ps' E].
  - clear - Hk. cbn [Nat.add] in Hk. nia.
  - exists (ps', r). exact E.
Qed.
(** As used by space_partition (normalize only after compress): log2(size) + 2,
    however many unions, compressions and normalizations there have been. *)
Theorem C83_depth_compressed : forall n l d x,
  forallb op_ok l = true -> compressed_before false l = true -> ds_run (ds_init n) l = Some d -> x < ds_size d ->
  find_calls (Nat.log2 (ds_size d) + 2) d x.
Proof.
  intros n l d x Hok Hc H Hx.
  destruct (run_depth_compressed l [] (ds_init n) d false (ds_init_inv n) Hok H Hc ltac:(discriminate)
              (hbound_mono 0 3 _ ltac:(lia) (init_hbound n)) (init_big n)) as ((E' & I) & B & HB).
  destruct (proj1 I x Hx) as (r & k & Hr).
  pose proof (depth_bound _ d x r k HB B (proj1 (proj2 I)) Hr) as Hk.
  destruct (find_root_fuel_enough (Nat.log2 (ds_size d) + 2) (parents d) x r k Hr) as [ps' E]; [lia|].
  exists (ps', r). exact E.
Qed.
(** After compress_sets() at most one recursive call is needed: compress_sets() brings
    every element to at most two steps from its representative (not always to one, C48). *)
Theorem C83_after_compress : forall n l d d' x,
  forallb op_ok l = true -> ds_run (ds_init n) l = Some d -> compress_sets d = Some d' -> x < ds_size d' ->
  find_calls 1 d' x.
Proof.
  intros n l d d' x Hok H Hc Hx. pose proof (ds_history_inv n l d Hok H) as I.
  destruct (run_depth l [] (ds_init n) d 0 (ds_init_inv n) Hok H (init_hbound n) (init_big n)) as (_ & B & HB).
  destruct (compress_keep _ d d' _ I HB B Hc) as (_ & _ & T).
  destruct (ds_step_inv _ d DCompress d' I eq_refl Hc) as [I' _].
  destruct (proj1 I' x Hx) as (r & k & Hr).
  destruct (find_root_fuel_enough 1 (parents d') x r k Hr (two_steps_depth _ _ _ _ T Hr)) as [ps' E].
  exists (ps', r). exact E.
Qed.

(** Sharpness: without normalization the bound log2(size) - 1 is attained, and
    compress_sets() does leave elements two steps away. *)
Definition C83_hist8 : list ds_op :=
  [DUnion 0 1; DUnion 2 3; DUnion 4 5; DUnion 6 7; DRootUnion 0 2; DRootUnion 4 6; DRootUnion 0 4].
Example C83_sharp : exists d, ds_run (ds_init 8) C83_hist8 = Some d /\ find_calls 2 d 7 /\ ~ find_calls 1 d 7.
Proof.
  eexists. split; [vm_compute; reflexivity|]. split; [eexists; vm_compute; reflexivity|]. intros [r Hr]. vm_compute in Hr. discriminate Hr.
Qed.
Example C83_compress_sharp : exists d, ds_run (ds_init 8) (C83_hist8 ++ [DCompress]) = Some d /\ find_calls 1 d 7 /\ ~ find_calls 0 d 7.
Proof.
  eexists. split; [vm_compute; reflexivity|]. split; [eexists; vm_compute; reflexivity|]. intros [r Hr]. vm_compute in Hr. discriminate Hr.
Qed.
Example C83_mixed : forallb op_ok (C83_hist8 ++ [DCompress; DNormalize; DMakeSet; DUnion 8 3]) = true /\
  compressed_before false (C83_hist8 ++ [DCompress; DNormalize; DMakeSet; DUnion 8 3]) = true /\
  exists d, ds_run (ds_init 8) (C83_hist8 ++ [DCompress; DNormalize; DMakeSet; DUnion 8 3]) = Some d /\ ds_size d = 9.
Proof. split; [reflexivity|]. split; [reflexivity|]. eexists. split; [vm_compute; reflexivity|vm_compute; reflexivity]. Qed.
Print Assumptions C83_depth.
Print Assumptions C83_depth_compressed.
Print Assumptions C83_after_compress.
