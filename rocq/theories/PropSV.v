(** C37: sparse_state_vector has the contents of a dense vector *)
From Coq Require Import NArith ZArith List Bool Sorted Permutation Lia.
From Verif Require Import BitsModel ExprModel ExprSpec ExprMap ExprInst LOpModel LOpSpec LOpApply PropLOp2.
Import ListNotations.
Open Scope N_scope.
Open Scope list_scope.

(** Operations of a program on one vector *)
Inductive vop (S : Type) : Type :=
| VAdd (n : N) (x : S)         (* update_add_element(v, n, x) *)
| VAssign (n : N) (x : S)      (* v[n] = x *)
| VRead (n : N)                (* reading v[n] through the non-const operator[] *)
| VZeros                       (* set_zeros(v) or v = zeros_like(v) *)
| VPrune                       (* v.prune() *)
| VPruneIf (p : S -> bool).    (* v.prune(p) *)
Arguments VAdd {S} _ _.
Arguments VAssign {S} _ _.
Arguments VRead {S} _.
Arguments VZeros {S}.
Arguments VPrune {S}.
Arguments VPruneIf {S} _.
Definition vop_index {S} (o : vop S) : option N :=
  match o with VAdd n _ | VAssign n _ | VRead n => Some n | _ => None end.

(** Specification: the mathematical vector N -> S *)
Section Contents.
Context {S : Type} (so : scalar_ops S).
Definition vop_contents (f : N -> S) (o : vop S) : N -> S :=
  match o with
  | VAdd n x => fun k => if k =? n then s_add so (f k) x else f k
  | VAssign n x => fun k => if k =? n then x else f k
  | VRead _ | VPrune => f
  | VZeros => fun _ => s_zero so
  | VPruneIf p => fun k => if p (f k) then s_zero so else f k
  end.
Definition contents (ops : list (vop S)) : N -> S := fold_left vop_contents ops (fun _ => s_zero so).
(** operations after which a stored zero cannot appear *)
Definition tidy (o : vop S) : Prop :=
  match o with VAssign _ x => x <> s_zero so | VRead _ => False | _ => True end.
Definition cleaning (o : vop S) : Prop := match o with VZeros | VPrune => True | _ => False end.

(** the two implementations *)
Definition sparse_step (v : @sparse S) (o : vop S) : @sparse S :=
  match o with
  | VAdd n x => match sparse_add so v n x with Some v' => v' | None => v end
  | VAssign n x => sparse_assign v n x
  | VRead n => sparse_touch so v n
  | VZeros => sparse_zero v
  | VPrune => sparse_prune so v
  | VPruneIf p => sparse_prune_if p v
  end.
Definition sparse_prog (size : N) (ops : list (vop S)) : @sparse S := fold_left sparse_step ops (mk_sparse size []).
Fixpoint list_assign (v : @dense S) (n : nat) (x : S) : option (@dense S) :=
  match v, n with
  | [], _ => None
  | _ :: t, O => Some (x :: t)
  | a :: t, Datatypes.S k => option_map (cons a) (list_assign t k x)
  end.
(** std::vector has no prune(); prune(p) sets the elements satisfying p to 0 *)
Definition dense_step (v : option (@dense S)) (o : vop S) : option (@dense S) :=
  match v with
  | None => None
  | Some v =>
    match o with
    | VAdd n x => dense_add so v n x
    | VAssign n x => list_assign v (N.to_nat n) x
    | VRead n => match dense_get v n with Some _ => Some v | None => None end
    | VZeros => Some (dense_zero so v)
    | VPrune => Some v
    | VPruneIf p => Some (map (fun a => if p a then s_zero so else a) v)
    end
  end.
Definition dense_prog (size : nat) (ops : list (vop S)) : option (@dense S) :=
  fold_left dense_step ops (Some (repeat (s_zero so) size)).
End Contents.

Section Proofs.
Context {S : Type} (so : scalar_ops S) (L : scalar_laws so).

Definition inv37 (size : N) (f : N -> S) (v : @sparse S) : Prop :=
  sp_size v = size /\ sparse_ok v /\ forall k, sparse_amp so v k = f k.

Lemma find_filter p (d : list (N * S)) k : NoDup (map fst d) ->
  sp_find k (filter (fun ka => negb (p (snd ka))) d) =
  match sp_find k d with Some a => if p a then None else Some a | None => None end.
Proof.
  induction d as [|[j a] d IH]; cbn; auto. intros ND. inversion ND as [|? ? nj ND']; subst. specialize (IH ND').
  destruct (p a) eqn:Ep; cbn.
  - destruct (N.eqb_spec k j) as [->|ne]; auto. rewrite Ep. rewrite IH.
    destruct (sp_find j d) as [b|] eqn:F; auto. exfalso. apply nj. apply sp_find_In in F; auto. apply in_map_iff. exists (j, b). auto.
  - destruct (N.eqb_spec k j) as [->|ne]; auto. now rewrite Ep.
Qed.
Lemma filter_nodup p (d : list (N * S)) : NoDup (map fst d) -> NoDup (map fst (filter p d)).
Proof.
  induction d as [|[j a] d IH]; cbn; auto. intros ND. inversion ND; subst. destruct (p (j, a)); cbn; auto. constructor; auto.
  intros i. apply in_map_iff in i. destruct i as [[j' b] [E i]]. cbn in E. subst. apply filter_In in i. destruct i as [i _].
  match goal with H : ~ In j _ |- _ => apply H end. apply in_map_iff. exists (j, b). auto.
Qed.
Lemma filter_ok p (v : @sparse S) : sparse_ok v -> sparse_ok (mk_sparse (sp_size v) (filter p (sp_data v))).
Proof.
  intros [A B]. split; cbn; [now apply filter_nodup|]. rewrite Forall_forall in *. intros x hx. apply filter_In in hx. apply B. tauto.
Qed.

Lemma step_inv size f v o : (forall n, vop_index o = Some n -> n < size) -> inv37 size f v ->
  inv37 size (vop_contents so f o) (sparse_step so v o).
Proof.
  intros hn [Es [O A]]. pose proof (sparse_sv_laws so L) as SL. destruct o as [n x|n x|n| | |p]; cbn [sparse_step vop_contents].
  - destruct (svl_add _ _ _ _ _ SL v n x O) as [v' [E1 [E2 [E3 E4]]]]; [rewrite Es; now apply hn|]. cbn in E1. rewrite E1.
    split; [congruence|]. split; auto. intros k. rewrite E4, A, N.eqb_sym. reflexivity.
  - split; [exact Es|]. split.
    + destruct O as [O1 O2]. split; cbn; [now apply sp_set_nodup|]. rewrite keys_bound in *. intros k i. apply sp_set_keys in i.
      destruct i as [->|i]; auto. rewrite Es. now apply hn.
    + intros k. unfold sparse_amp, dat_amp, sparse_assign. cbn [sp_data]. rewrite sp_find_set, N.eqb_sym. destruct (k =? n); auto.
      apply A.
  - unfold sparse_touch. destruct (sp_find n (sp_data v)) as [a|] eqn:F; [repeat split; auto; apply O|].
    split; [exact Es|]. split.
    + destruct O as [O1 O2]. split; cbn; [now apply sp_set_nodup|]. rewrite keys_bound in *. intros k i. apply sp_set_keys in i.
      destruct i as [->|i]; auto. rewrite Es. now apply hn.
    + intros k. unfold sparse_amp, dat_amp. cbn [sp_data]. rewrite sp_find_set. destruct (N.eqb_spec n k) as [->|]; [|apply A].
      rewrite <- A. unfold sparse_amp, dat_amp. now rewrite F.
  - split; [exact Es|]. split; [split; cbn; constructor|]. reflexivity.
  - split; [exact Es|]. split; [now apply filter_ok|]. intros k. rewrite <- A. unfold sparse_amp, dat_amp, sparse_prune, sparse_prune_if. cbn [sp_data].
    rewrite find_filter by apply O. destruct (sp_find k (sp_data v)) as [a|]; auto. destruct (s_is_zero so a) eqn:Z; auto.
    symmetry. now apply (sl_is_zero so L).
  - split; [exact Es|]. split; [now apply filter_ok|]. intros k. rewrite <- A. unfold sparse_amp, dat_amp, sparse_prune_if. cbn [sp_data].
    rewrite find_filter by apply O. destruct (sp_find k (sp_data v)) as [a|]; [now destruct (p a)|]. now destruct (p (s_zero so)).
Qed.

Definition in_range (size : N) (ops : list (vop S)) : Prop := forall o n, In o ops -> vop_index o = Some n -> n < size.
Lemma prog_inv_gen size ops : in_range size ops -> forall f v, inv37 size f v ->
  inv37 size (fold_left (vop_contents so) ops f) (fold_left (sparse_step so) ops v).
Proof.
  induction ops as [|o ops IH]; intros R f v Iv; cbn; auto. apply IH; [intros o' n i; apply R; now right|].
  apply step_inv; auto. intros n. apply R. now left.
Qed.
Lemma prog_inv size ops : in_range size ops -> inv37 size (contents so ops) (sparse_prog so size ops).
Proof. intros R. apply prog_inv_gen; auto. split; auto. split; [split; cbn; constructor|reflexivity]. Qed.

Definition nz (v : @sparse S) : Prop := Forall (fun p => snd p <> s_zero so) (sp_data v).
Lemma filter_nz p (d : list (N * S)) : Forall (fun p => snd p <> s_zero so) d -> Forall (fun p => snd p <> s_zero so) (filter p d).
Proof. intros F. rewrite Forall_forall in *. intros x hx. apply filter_In in hx. apply F. tauto. Qed.
Lemma step_nz v o : tidy so o -> nz v -> nz (sparse_step so v o).
Proof.
  intros T Z. destruct o as [n x|n x|n| | |p]; cbn [tidy sparse_step] in *; try contradiction; unfold nz in *; cbn [sp_data sparse_assign sparse_zero].
  - unfold sparse_add, sparse_add_data. cbn [sp_data]. destruct (sp_find n (sp_data v)) as [a|].
    + destruct (s_is_zero so (s_add so a x)) eqn:Z1; [now apply sp_erase_nz|]. apply sp_set_nz; auto.
      intros Q. apply (sl_is_zero so L) in Q. congruence.
    + destruct (s_is_zero so x) eqn:Z1; auto. apply sp_set_nz; auto. intros Q. apply (sl_is_zero so L) in Q. congruence.
  - now apply sp_set_nz.
  - constructor.
  - now apply filter_nz.
  - now apply filter_nz.
Qed.
Lemma step_clean v o : cleaning o -> nz (sparse_step so v o).
Proof.
  destruct o; cbn; intros []; unfold nz; cbn; [constructor|]. rewrite Forall_forall. intros [k a] hx. apply filter_In in hx. cbn in *.
  destruct hx as [_ hx]. intros ->. rewrite (proj2 (sl_is_zero so L _) eq_refl) in hx. discriminate.
Qed.
Lemma fold_nz ops : Forall (tidy so) ops -> forall v, nz v -> nz (fold_left (sparse_step so) ops v).
Proof. induction 1; intros v Z; cbn; auto. apply IHForall, step_nz; auto. Qed.

Lemma list_assign_spec (v : @dense S) n x : (n < length v)%nat -> exists v', list_assign v n x = Some v' /\
  length v' = length v /\ forall k, nth k v' (s_zero so) = if Nat.eqb k n then x else nth k v (s_zero so).
Proof.
  revert n. induction v as [|a v IH]; intros n h; cbn in h; [lia|]. destruct n as [|n]; cbn [list_assign].
  - eexists. split; [reflexivity|]. split; auto. intros [|k]; reflexivity.
  - destruct (IH n) as [v' [-> [E1 E2]]]; [lia|]. cbn [option_map]. eexists. split; [reflexivity|]. split; [cbn; lia|].
    intros [|k]; cbn; auto.
Qed.
Definition invd (size : nat) (f : N -> S) (v : option (@dense S)) : Prop :=
  exists d, v = Some d /\ length d = size /\ forall k, (k < size)%nat -> nth k d (s_zero so) = f (N.of_nat k).
Lemma dstep_inv size f v o : (forall n, vop_index o = Some n -> n < N.of_nat size) -> invd size f v ->
  invd size (vop_contents so f o) (dense_step so v o).
Proof.
  intros hn [d [-> [El A]]]. assert (EQ : forall k n, (N.of_nat k =? n) = Nat.eqb k (N.to_nat n)).
  { intros k n. destruct (Nat.eqb_spec k (N.to_nat n)), (N.eqb_spec (N.of_nat k) n); auto; lia. }
  destruct o as [n x|n x|n| | |p]; cbn [dense_step vop_contents].
  - specialize (hn n eq_refl). destruct (list_update_spec so d (N.to_nat n) x) as [d' [E1 [E2 E3]]]; [lia|].
    unfold dense_add. rewrite E1. exists d'. split; auto. split; [lia|]. intros k hk. rewrite E3, EQ, Nat.eqb_sym, A by auto. reflexivity.
  - specialize (hn n eq_refl). destruct (list_assign_spec d (N.to_nat n) x) as [d' [E1 [E2 E3]]]; [lia|].
    rewrite E1. exists d'. split; auto. split; [lia|]. intros k hk. rewrite E3, EQ. destruct (Nat.eqb k (N.to_nat n)); auto.
  - specialize (hn n eq_refl). unfold dense_get. destruct (nth_error d (N.to_nat n)) eqn:E; [exists d; auto|]. apply nth_error_None in E. lia.
  - exists (dense_zero so d). split; auto. unfold dense_zero. rewrite map_length. split; auto. intros k hk.
    destruct (nth_in_or_default k (map (fun _ => s_zero so) d) (s_zero so)) as [i|]; auto.
    apply in_map_iff in i. destruct i as [? [<- _]]. reflexivity.
  - exists d. auto.
  - eexists. split; [reflexivity|]. rewrite map_length. split; auto. intros k hk. rewrite <- A by auto.
    rewrite (nth_indep _ _ (if p (s_zero so) then s_zero so else s_zero so)) by (rewrite map_length; lia).
    exact (map_nth (fun a => if p a then s_zero so else a) d (s_zero so) k).
Qed.
Lemma dprog_inv_gen size ops : in_range (N.of_nat size) ops -> forall f v, invd size f v ->
  invd size (fold_left (vop_contents so) ops f) (fold_left (dense_step so) ops v).
Proof.
  induction ops as [|o ops IH]; intros R f v Iv; cbn; auto. apply IH; [intros o' n i; apply R; now right|].
  apply dstep_inv; auto. intros n. apply R. now left.
Qed.
Lemma dprog_inv size ops : in_range (N.of_nat size) ops -> invd size (contents so ops) (dense_prog so size ops).
Proof.
  intros R. apply dprog_inv_gen; auto. eexists. split; [reflexivity|]. rewrite repeat_length. split; auto.
  intros k hk. apply nth_repeat.
Qed.
End Proofs.

(** After any program the two kinds of vectors have the same elements, those of
    the mathematical vector. *)
Theorem C37_contents : forall S (so : scalar_ops S) (size : nat) ops, scalar_laws so ->
  (forall o n, In o ops -> vop_index o = Some n -> n < N.of_nat size) ->
  let v := sparse_prog so (N.of_nat size) ops in
  sp_size v = N.of_nat size /\
  (forall n, n < N.of_nat size -> sparse_get so v n = Some (contents so ops n)) /\
  exists d, dense_prog so size ops = Some d /\ length d = size /\
    forall n, n < N.of_nat size -> dense_get d n = Some (contents so ops n).
Proof.
  intros S so size ops L R v. destruct (prog_inv so L (N.of_nat size) ops R) as [Es [O A]]. fold v in Es, O, A. split; auto. split.
  - intros n hn. unfold sparse_get. rewrite Es. destruct (N.ltb_spec n (N.of_nat size)); [|lia]. f_equal. apply A.
  - destruct (dprog_inv so size ops R) as [d [E [El B]]]. exists d. split; auto. split; auto. intros n hn. unfold dense_get.
    rewrite (nth_error_nth' d (s_zero so)) by lia. rewrite B by lia. now rewrite N2Nat.id.
Qed.
(** foreach(v) visits every index at most once, every element with its value,
    and misses no non-zero element ... *)
Theorem C37_foreach : forall S (so : scalar_ops S) size ops ent, scalar_laws so ->
  (forall o n, In o ops -> vop_index o = Some n -> n < size) ->
  sv_entries (sparse_sv so) (sparse_prog so size ops) ent ->
  NoDup (map fst ent) /\ sparse_n_nonzeros (sparse_prog so size ops) = length ent /\
  (forall n a, In (n, a) ent -> n < size /\ a = contents so ops n) /\
  (forall n, contents so ops n <> s_zero so -> In (n, contents so ops n) ent).
Proof.
  intros S so size ops ent L R E. destruct (prog_inv so L size ops R) as [Es [O A]].
  destruct (svl_entries _ _ _ _ _ (sparse_sv_laws so L) _ _ O E) as [Q1 [Q2 [Q3 Q4]]].
  split; auto. split; [symmetry; apply Permutation_length; exact E|]. rewrite Forall_forall in Q2. split.
  - intros n a i. split; [rewrite <- Es; apply (Q2 _ i)|]. rewrite <- A. auto.
  - intros n nz0. rewrite <- A in *. specialize (Q4 n nz0). apply in_map_iff in Q4. destruct Q4 as [[n' a] [E1 i]]. cbn in E1. subst n'.
    rewrite <- (Q3 n a i). exact i.
Qed.
(** ... and it visits no zero element, if since the start or the last set_zeros()
    or prune() no zero was assigned through operator[] and no element was read
    through it. *)
Theorem C37_no_zeros : forall S (so : scalar_ops S) size before o after ent, scalar_laws so ->
  cleaning o -> Forall (tidy so) after ->
  (sv_entries (sparse_sv so) (sparse_prog so size (before ++ o :: after)) ent \/
   sv_entries (sparse_sv so) (sparse_prog so size after) ent) ->
  forall n a, In (n, a) ent -> a <> s_zero so.
Proof.
  intros S so size before o after ent L Cl T E.
  assert (Z : exists v, nz so v /\ Permutation ent (sp_data v)).
  { destruct E as [E|E]; eexists; (split; [|exact E]); unfold sparse_prog.
    - rewrite fold_left_app. cbn [fold_left]. apply (fold_nz so L); auto. now apply step_clean.
    - apply (fold_nz so L); auto. constructor. }
  destruct Z as [v [Z P]]. intros n a i. unfold nz in Z. rewrite Forall_forall in Z. apply (Z (n, a)). eapply Permutation_in; eauto.
Qed.
(** The unconditional claim is false: reading an element through operator[]
    stores a zero, which foreach() visits and n_nonzeros() counts. *)
Theorem C37_read_refuted : forall S (so : scalar_ops S) size n, n < size ->
  let v := sparse_prog so size [VRead n] in
  (forall k, contents so [VRead n] k = s_zero so) /\ sparse_n_nonzeros v = 1%nat /\
  forall ent, sv_entries (sparse_sv so) v ent -> ent = [(n, s_zero so)].
Proof.
  intros S so size n hn v. split; [reflexivity|]. split; [reflexivity|]. intros ent E. cbn in E. now apply Permutation_sym, Permutation_length_1_inv in E.
Qed.
Print Assumptions C37_contents.
Print Assumptions C37_foreach.
Print Assumptions C37_no_zeros.
Print Assumptions C37_read_refuted.

(** the hypotheses are met by a non-trivial program *)
Example C37_example : let ops := [VAdd 3 5%Z; VAssign 1 7%Z; VAdd 3 (-5)%Z; VAdd 0 2%Z; VRead 4; VPruneIf (Z.eqb 7); VPrune; VAdd 2 9%Z] in
  (forall o n, In o ops -> vop_index o = Some n -> n < 5) /\
  sp_data (sparse_prog int_scalar_ops 5 ops) = [(0, 2%Z); (2, 9%Z)] /\ dense_prog int_scalar_ops 5 ops = Some [2%Z; 0%Z; 9%Z; 0%Z; 0%Z].
Proof.
  split; [|split; vm_compute; reflexivity]. intros o n H. repeat destruct H as [<-|H]; cbn; intros E; inversion E; try lia. destruct H.
Qed.
