(** * Proofs about loops in several threads *)
From Coq Require Import NArith ZArith List Bool Arith Lia Sorted.
From Verif Require Import BitsModel BitsSpec BitsProofs ExprModel HSModel HSSpec HSEnum HSProofs HSMain DSModel DSProofs RankModel LOpModel SectorModel ViewModel ReentModel ReentSpec ReentProofs ConcLoopModel.
Import ListNotations.
Open Scope N_scope.
Open Scope list_scope.

Section Conc.
Context {A S : Type}.
Notation thr := (cthread A S).

(** a thread working alone *)
Fixpoint alone (k : nat) (t : thr) (o : iobj) : thr * iobj :=
  match k with O => (t, o) | Datatypes.S k' => let r := cstep t o in alone k' (fst r) (snd r) end.
Lemma cstep_same (t : thr) o : ct_obj (fst (cstep t o)) = ct_obj t /\ ct_iter (fst (cstep t o)) = ct_iter t /\
  ct_zero (fst (cstep t o)) = ct_zero t /\ ct_get (fst (cstep t o)) = ct_get t /\ ct_fun (fst (cstep t o)) = ct_fun t.
Proof.
  unfold cstep. destruct t as [it ob z g f p a]. cbn [ct_pc ct_iter ct_data ct_obj ct_zero ct_get ct_fun].
  repeat match goal with |- context [match ?x with _ => _ end] => destruct x end; cbn; auto.
Qed.
Lemma alone_app j : forall k t o, alone (j + k) t o = alone k (fst (alone j t o)) (snd (alone j t o)).
Proof. induction j as [|j IH]; intros k t o; cbn; auto. Qed.

Lemma upd_nth {T} (l : list T) i j v : nth_error (DSModel.upd l i v) j = if Nat.eqb j i then (if Nat.ltb i (length l) then Some v else None) else nth_error l j.
Proof.
  destruct (Nat.ltb_spec i (length l)).
  - rewrite upd_get by assumption. reflexivity.
  - assert (DSModel.upd l i v = l) as ->.
    { revert i H. induction l as [|x l IH]; intros i H; [reflexivity|]. destruct i; cbn in *; [lia|]. f_equal. apply IH. lia. }
    destruct (Nat.eqb_spec j i) as [->|]; [|reflexivity]. now apply nth_error_None.
Qed.

(** threads with different objects do not influence each other *)
Lemma separate sch : forall objs (ts : list thr),
  (forall i j ti tj, nth_error ts i = Some ti -> nth_error ts j = Some tj -> ct_obj ti = ct_obj tj -> i = j) ->
  forall i t o, nth_error ts i = Some t -> nth_error objs (ct_obj t) = Some o ->
  nth_error (snd (crun objs ts sch)) i = Some (fst (alone (count_occ Nat.eq_dec sch i) t o)) /\
  nth_error (fst (crun objs ts sch)) (ct_obj t) = Some (snd (alone (count_occ Nat.eq_dec sch i) t o)).
Proof.
  induction sch as [|j sch IH]; intros objs ts D i t o Ht Ho; [cbn; auto|].
  cbn [crun]. destruct (nth_error ts j) as [tj|] eqn:Ej.
  2: { cbn [count_occ]. destruct (Nat.eq_dec j i) as [->|]; [congruence|]. now apply IH. }
  destruct (nth_error objs (ct_obj tj)) as [oj|] eqn:Eo.
  2: { cbn [count_occ]. destruct (Nat.eq_dec j i) as [->|]; [congruence|]. now apply IH. }
  pose proof (cstep_same tj oj) as [C1 _].
  assert (Lj : (j < length ts)%nat) by (apply nth_error_Some; congruence).
  assert (Lo : (ct_obj tj < length objs)%nat) by (apply nth_error_Some; congruence).
  assert (D' : forall i0 j0 ti0 tj0, nth_error (DSModel.upd ts j (fst (cstep tj oj))) i0 = Some ti0 ->
    nth_error (DSModel.upd ts j (fst (cstep tj oj))) j0 = Some tj0 -> ct_obj ti0 = ct_obj tj0 -> i0 = j0).
  { intros a b ta tb Ha Hb Hab. rewrite upd_get in Ha, Hb by exact Lj.
    destruct (Nat.eqb_spec a j) as [->|na], (Nat.eqb_spec b j) as [->|nb]; auto.
    - injection Ha as <-. rewrite C1 in Hab. eapply D; eauto.
    - injection Hb as <-. rewrite C1 in Hab. eapply D; eauto.
    - eapply D; eauto. }
  cbn [count_occ]. destruct (Nat.eq_dec j i) as [->|ne].
  - assert (tj = t) by congruence. subst tj. assert (oj = o) by congruence. subst oj. cbn [alone].
    rewrite <- C1. apply IH; auto.
    + apply upd_same. exact Lj.
    + rewrite C1. apply upd_same. exact Lo.
  - apply IH; auto.
    + rewrite upd_other by auto. exact Ht.
    + rewrite upd_other; auto. intros Q. apply ne. symmetry. eapply D; eauto.
Qed.

(** ** one thread *)
(** from (o, v) on the loop fetches [us] and ends *)
Inductive trace (it : iter) : iobj -> N * N -> list N -> Prop :=
| tr_end : forall o v, it_done it o v = Some true -> trace it o v []
| tr_next : forall o v o1 u o2 v2 us, it_done it o v = Some false -> it_fetch it o v = Some (o1, u) ->
    it_post it o1 v = Some (o2, v2) -> trace it o2 v2 us -> trace it o v (u :: us).

Definition ended (t : thr) (r : fres A) : Prop := outcome t = Some r.
Lemma alone_ended k : forall t o r, ended t r -> alone k t o = (t, o).
Proof.
  induction k as [|k IH]; intros t o r H; [reflexivity|]. cbn [alone].
  assert (E : cstep t o = (t, o)) by (unfold ended, outcome, cstep in *; destruct (ct_pc t); try discriminate; reflexivity).
  rewrite E. cbn [fst snd]. eapply IH; eauto.
Qed.

Section One.
Context (it : iter) (ob : nat) (z : S -> bool) (g : A -> N -> option S) (f : N -> S -> A -> fres A).
Notation T := (mk_cthread it ob z g f).

Lemma row_alone v : forall xs k a o,
  match visit z g f xs k a with
  | FOk a' => alone (length xs) (T (PRow v xs k) a) o = (T (PRow v [] (k + N.of_nat (length xs))) a', o)
  | r => outcome (fst (alone (length xs) (T (PRow v xs k) a) o)) = Some r
  end.
Proof.
  induction xs as [|x xs IH]; intros k a o; cbn [visit].
  - cbn. now rewrite N.add_0_r.
  - cbn [length alone]. cbn [cstep ct_pc ct_iter ct_data ct_get ct_zero ct_fun at_pc ct_obj].
    destruct (g a k) as [s|] eqn:Eg; [|rewrite (alone_ended _ _ _ FBad) by reflexivity; reflexivity].
    destruct (z s) eqn:Ez.
    + cbn [fst snd]; unfold at_pc; cbn [ct_iter ct_obj ct_zero ct_get ct_fun]. specialize (IH (k + 1) a o). destruct (visit z g f xs (k + 1) a); auto.
      rewrite IH. f_equal. f_equal. f_equal. lia.
    + destruct (f x s a) as [a1|a1|] eqn:Ef; cbn [fst snd]; unfold at_pc; cbn [ct_iter ct_obj ct_zero ct_get ct_fun].
      * specialize (IH (k + 1) a1 o). destruct (visit z g f xs (k + 1) a1); auto. rewrite IH. f_equal. f_equal. f_equal. lia.
      * rewrite (alone_ended _ _ _ (FThrow a1)) by reflexivity. reflexivity.
      * rewrite (alone_ended _ _ _ FBad) by reflexivity. reflexivity.
Qed.

Lemma rows_alone (rows : N -> list N) us : forall o v k a, trace it o v us ->
  (forall u, In u us -> it_row it u = Some (rows u)) ->
  outcome (fst (alone (length (flat_map rows us) + 3 * length us + 1) (T (PTest v k) a) o)) =
  Some (visit z g f (flat_map rows us) k a).
Proof.
  induction us as [|u us IH]; intros o v k a Tr Hr; inversion Tr as [o0 v0 Hd|o0 v0 o1 u0 o2 v2 us0 Hd Hf Hp Tr']; subst.
  - cbn. rewrite Hd. reflexivity.
  - cbn [flat_map]. rewrite app_length.
    replace (length (rows u) + length (flat_map rows us) + 3 * length (u :: us) + 1)%nat
      with (2 + (length (rows u) + (1 + (length (flat_map rows us) + 3 * length us + 1))))%nat by (cbn [length]; lia).
    cbn [Nat.add alone]. cbn [cstep ct_pc ct_iter ct_data]. rewrite Hd. cbn [fst snd]; unfold at_pc; cbn [ct_iter ct_obj ct_zero ct_get ct_fun].
    cbn [cstep ct_pc ct_iter ct_data]. rewrite Hf. rewrite (Hr u ltac:(now left)). cbn [fst snd]; unfold at_pc; cbn [ct_iter ct_obj ct_zero ct_get ct_fun].
    rewrite alone_app, (visit_app z g rows g f). pose proof (row_alone v (rows u) k a o1) as R. destruct (visit z g f (rows u) k a) as [a1|a1|].
    + rewrite R. cbn [fst snd alone]. cbn [cstep ct_pc ct_iter ct_data]. rewrite Hp. cbn [fst snd]; unfold at_pc; cbn [ct_iter ct_obj ct_zero ct_get ct_fun].
      apply IH; auto. intros u' Hu'. apply Hr. now right.
    + set (r := alone (length (rows u)) (T (PRow v (rows u) k) a) o1) in *. rewrite (alone_ended _ (fst r) (snd r) _ R). exact R.
    + set (r := alone (length (rows u)) (T (PRow v (rows u) k) a) o1) in *. rewrite (alone_ended _ (fst r) (snd r) _ R). exact R.
Qed.

Lemma loop_alone (rows : N -> list N) us o o1 v l a n :
  it_skip it = false -> it_init it o = Some (o1, v) -> trace it o1 v us ->
  (forall u, In u us -> it_row it u = Some (rows u)) -> l = flat_map rows us -> (length us <= length l)%nat ->
  (4 * length l + 2 <= n)%nat ->
  outcome (fst (alone n (T PStart a) o)) = Some (visit z g f l 0 a).
Proof.
  intros Hs Hi Tr Hr -> Hl Hn. set (m := (length (flat_map rows us) + 3 * length us + 1)%nat).
  replace n with (1 + (m + (n - m - 1)))%nat by lia. cbn [Nat.add alone]. cbn [cstep ct_pc ct_iter ct_data]. rewrite Hs, Hi.
  cbn [fst snd]; unfold at_pc; cbn [ct_iter ct_obj ct_zero ct_get ct_fun]. rewrite alone_app.
  pose proof (rows_alone rows us o1 v 0 a Tr Hr) as R. fold m in R. rewrite (alone_ended _ _ _ _ R). exact R.
Qed.
End One.
End Conc.
