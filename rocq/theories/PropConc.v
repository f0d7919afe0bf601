(** C76: find_root() and in_same_set() called concurrently *)
From Coq Require Import List Bool Arith Lia Relations.
From Verif Require Import DSModel DSSpec DSProofs DSNormalize ConcModel ConcSpec ConcProofs.
Import ListNotations.

(** For every history of a structure, every set of threads that run any calls of
    find_root and in_same_set on it, and every interleaving of their memory
    accesses: no call goes out of bounds, every call returns what it returns in a
    single thread, every thread is finished after at most [steps_enough] steps, and
    at any moment the structure represents the same sets with the same
    representatives, also for all later operations. *)
Theorem C76_concurrent : forall n l d (qss : list (list query)) (sch : list nat),
  forallb op_ok l = true -> ds_run (ds_init n) l = Some d ->
  Forall (Forall (query_ok (ds_size d))) qss ->
  exists ps ts, conc_run (parents d) (map start qss) sch = Some (ps, ts) /\ length ts = length qss /\
    (forall i qs t, nth_error qss i = Some qs -> nth_error ts i = Some t ->
       (exists k, Forall2 (right_answer d (op_edges l)) (firstn k qs) (out t)) /\
       (steps_enough (ds_size d) qs <= count_occ Nat.eq_dec sch i ->
          finished t = true /\ Forall2 (right_answer d (op_edges l)) qs (out t))) /\
    let d' := with_parents d ps in
    ds_size d' = ds_size d /\
    (forall x, x < ds_size d -> exists r d1 d2, find_root d x = Some (d1, r) /\ find_root d' x = Some (d2, r)) /\
    (forall l2 e x y, forallb op_ok l2 = true -> ds_run d' l2 = Some e -> x < ds_size e -> y < ds_size e ->
       exists e' b, in_same_set e x y = Some (e', b) /\ (b = true <-> connected (op_edges (l ++ l2)) x y)).
Proof.
  intros n l d qss sch Hok H Hq. pose proof (ds_history_inv n l d Hok H) as I. pose proof I as [F [Hrk [Hn [HE Hc]]]].
  set (E := op_edges l) in *.
  assert (A : forall q a, query_ok (ds_size d) q -> ansr (parents d) q a -> right_answer d E q a).
  { intros [x|x y] [r|b]; cbn; try contradiction.
    - intros Hx [k Hr]. destruct (find_root_spec E d x I Hx) as [d' [r' [k' [Hf [Hr' _]]]]].
      destruct (root_at_det _ _ _ _ Hr _ _ Hr') as [-> _]. eauto.
    - intros [Hx Hy] [r [r' [k [k' [H1 [H2 ->]]]]]]. destruct (in_same_set_spec E d x y I Hx Hy) as [d' [b [Hs [_ [_ Hb]]]]].
      assert (Hb' : (r =? r') = b).
      { assert (Hbb : (r =? r') = true <-> b = true).
        { rewrite Hb, <- Hc by assumption. rewrite (same_set_iff _ _ _ _ _ _ _ H1 H2). apply Nat.eqb_eq. }
        destruct (r =? r'), b; try reflexivity; destruct Hbb as [p q]; (symmetry; apply p; reflexivity) || (apply q; reflexivity). }
      rewrite Hb'. split; [eauto|exact Hb]. }
  assert (A2 : forall qs out, Forall (query_ok (ds_size d)) qs -> Forall2 (ansr (parents d)) qs out -> Forall2 (right_answer d E) qs out).
  { intros qs o Hqs. induction 1; [constructor|]. inversion Hqs; subst. constructor; auto. }
  destruct (conc_ok (parents d) F qss sch (parents d) (map start qss) (fun i => match nth_error qss i with Some qs => qcosts (parents d) qs | None => 0 end)
    (cinv_init _) ltac:(apply map_length)) as [ps [ts [ER [C [L T]]]]].
  { intros i qs t H1 H2. rewrite nth_error_map, H1 in H2. injection H2 as <-. rewrite H1. apply tinv_start.
    apply nth_error_In in H1. apply (proj1 (Forall_forall _ _) Hq qs H1). }
  exists ps, ts. split; [exact ER|]. split; [exact L|]. split; [|].
  - intros i qs t H1 H2. specialize (T i qs t H1 H2). cbn beta in T. rewrite H1 in T.
    assert (Hqs : Forall (query_ok (ds_size d)) qs) by (apply nth_error_In in H1; apply (proj1 (Forall_forall _ _) Hq qs H1)).
    split.
    + destruct (tinv_out _ _ _ _ T) as [k Hk]. exists k. apply A2; [|exact Hk]. clear - Hqs. revert k. induction Hqs as [|q qs H1 H2 IH]; intros [|k]; cbn; constructor; auto.
    + intros Hs. assert (Z : qcosts (parents d) qs <= steps_enough (ds_size d) qs).
      { unfold steps_enough, ds_size. clear. induction qs as [|q qs IH]; cbn [qcosts length]; [lia|]. rewrite Nat.mul_succ_l. destruct q; cbn [qcost]; lia. }
      replace (qcosts (parents d) qs - count_occ Nat.eq_dec sch i) with 0 in T by lia. destruct (tinv_finished _ _ _ T) as [T1 T2]. split; [exact T1|]. now apply A2.
  - intros d'. pose proof (cinv_roots _ _ C) as SR. pose proof SR as [LP _].
    assert (I' : ds_inv E d').
    { unfold ds_inv, d', with_parents, ds_size. cbn [parents ranks n_sets]. split; [now apply (same_roots_forest (parents d))|]. split; [congruence|]. split.
      - rewrite Hn. symmetry. apply n_roots_ext; [exact LP|]. intros y. destruct SR as [_ SR]. pose proof C as [_ C']. split; intros Hy.
        + destruct (C' y y 0 ltac:(now constructor)) as [p [k [Ep [_ [[_ ->]|Hlt]]]]]; [exact Ep|lia].
        + assert (Hyl : y < ds_size d) by (unfold ds_size; rewrite <- LP; apply nth_error_Some; congruence).
          destruct (F y Hyl) as [r [k Hr]]. destruct (SR _ _ _ Hr) as [k' Hk']. assert (K0 : root_at ps y y 0) by (now constructor).
          destruct (root_at_det _ _ _ _ Hk' _ _ K0) as [-> _]. now apply root_at_root in Hr.
      - split; [intros a b Hab; rewrite LP; now apply HE|]. intros a b Ha Hb. rewrite LP in Ha, Hb. rewrite <- (same_set_roots (parents d) ps a b F SR). now apply Hc. }
    split; [exact LP|]. split.
    + intros x Hx. destruct (find_root_spec E d x I Hx) as [d1 [r [k [H1 [H2 _]]]]].
      destruct (find_root_spec E d' x I' ltac:(unfold ds_size, d', with_parents; cbn [parents]; rewrite LP; exact Hx)) as [d2 [r2 [k2 [H3 [H4 _]]]]].
      destruct SR as [_ SR]. destruct (SR _ _ _ H2) as [k3 Hk3]. destruct (root_at_det _ _ _ _ H4 _ _ Hk3) as [-> _]. eauto 6.
    + intros l2 e x y Hok2 H2 Hx Hy. destruct (ds_run_inv l2 E d' e I' Hok2 H2) as [E' [Ie HE']].
      destruct (in_same_set_spec E' e x y Ie Hx Hy) as [e' [b [Hs [_ [_ Hb]]]]]. exists e', b. split; [exact Hs|]. rewrite Hb.
      assert (P : forall z, In z E' <-> In z (op_edges (l ++ l2))).
      { intros z. rewrite HE'. unfold E. clear. induction l as [|o l IH]; [cbn; tauto|]. destruct o; cbn [op_edges app In] in *; tauto. }
      split; apply connected_perm; intros z; [apply P|symmetry; apply P].
Qed.
Print Assumptions C76_concurrent.

(** A thread working alone performs exactly find_root: same result, same memory
    (the step-by-step model agrees with the model of the function used in C47). *)
Lemma alone_steps fuel : forall ps x ps' r, find_root_fuel fuel ps x = Some (ps', r) ->
  forall st td ou, exists k, forall rest,
    conc_run ps [mk_thread (Some (FCall x st, KFind)) td ou] (repeat 0 k ++ rest) =
    conc_run ps' [mk_thread (Some (FRet r st, KFind)) td ou] rest.
Proof.
  induction fuel as [|f IH]; intros ps x ps' r H st td ou; cbn [find_root_fuel] in H;
    (destruct (nth_error ps x) as [p|] eqn:Ex; [|discriminate]); cbn [dbind] in H;
    (destruct (nth_error ps p) as [pp|] eqn:Ep; [|discriminate]); cbn [dbind] in H; destruct (pp =? p) eqn:Eq.
  - injection H as <- <-. exists 2. intros rest. cbn [repeat app conc_run nth_error tstep cur fstep]. rewrite Ex. cbn [dbind fst snd upd].
    cbn [conc_run nth_error tstep cur fstep]. rewrite Ep. cbn [dbind fst snd upd todo out]. rewrite Eq. reflexivity.
  - discriminate.
  - injection H as <- <-. exists 2. intros rest. cbn [repeat app conc_run nth_error tstep cur fstep]. rewrite Ex. cbn [dbind fst snd upd].
    cbn [conc_run nth_error tstep cur fstep]. rewrite Ep. cbn [dbind fst snd upd todo out]. rewrite Eq. reflexivity.
  - destruct (find_root_fuel f ps p) as [[ps1 r1]|] eqn:E1; [|discriminate]. cbn [dbind fst snd] in H. injection H as <- <-.
    destruct (IH ps p ps1 r1 E1 (x :: st) td ou) as [k Hk]. exists (2 + (k + 1)). intros rest.
    cbn [Nat.add repeat app conc_run nth_error tstep cur fstep]. rewrite Ex. cbn [dbind fst snd upd].
    cbn [conc_run nth_error tstep cur fstep]. rewrite Ep. cbn [dbind fst snd upd todo out]. rewrite Eq.
    rewrite repeat_app, <- app_assoc. rewrite Hk. cbn [repeat app conc_run nth_error tstep cur fstep].
    assert (L : length ps1 = length ps).
    { clear - E1. revert p ps1 r1 E1. induction f as [|f IH]; intros p ps1 r1 E1; cbn [find_root_fuel] in E1;
        (destruct (nth_error ps p) as [q|]; [|discriminate]); cbn [dbind] in E1;
        (destruct (nth_error ps q) as [qq|]; [|discriminate]); cbn [dbind] in E1;
        (destruct (qq =? q); [injection E1 as <- <-; reflexivity|]); [discriminate|].
      destruct (find_root_fuel f ps q) as [[ps2 r2]|] eqn:E2; [|discriminate]. cbn [dbind fst snd] in E1.
      injection E1 as <- <-. rewrite upd_length. eapply IH; eassumption. }
    assert (Lx : x < length ps1) by (rewrite L; apply nth_error_Some; congruence).
    destruct (Nat.ltb_spec x (length ps1)); [|lia]. cbn [dbind fst snd upd todo out]. reflexivity.
Qed.
Theorem C76_alone : forall d x d' r, find_root d x = Some (d', r) ->
  exists k t, conc_run (parents d) [start [QFind x]] (repeat 0 k) = Some (parents d', [t]) /\ finished t = true /\ out t = [ARoot r].
Proof.
  intros d x d' r H. unfold find_root in H. destruct (find_root_fuel (ds_size d) (parents d) x) as [[ps r1]|] eqn:E; [|discriminate].
  cbn [dbind fst snd] in H. injection H as <- <-. cbn [parents].
  destruct (alone_steps _ _ _ _ _ E [] [] []) as [k Hk]. exists (1 + (k + 1)), (mk_thread None [] [ARoot r1]).
  split; [|split; reflexivity]. cbn [Nat.add repeat conc_run nth_error start tstep cur todo dbind fst snd upd out].
  rewrite repeat_app, Hk. reflexivity.
Qed.
Print Assumptions C76_alone.

(** When find_root has been called for every element since the last change, the
    concurrent calls only read: there is no race, so the program also has this
    meaning according to the C++ standard. *)
Theorem C76_no_race_after_finding_all : forall n l d (qss : list (list query)) (sch : list nat) ps ts,
  forallb op_ok l = true -> ds_run (ds_init n) l = Some d ->
  let d0 := ds_run d (map DFind (seq 0 (ds_size d))) in
  exists dc, d0 = Some dc /\
    (conc_run (parents dc) (map start qss) sch = Some (ps, ts) -> ~ race ts /\ ps = parents dc).
Proof.
  intros n l d qss sch ps ts Hok H d0. pose proof (ds_history_inv n l d Hok H) as I.
  destruct (find_all_defined _ (ds_size d) 0 d I ltac:(lia)) as [d1 H1]. exists d1. split; [exact H1|].
  destruct (find_all_flat (op_edges l) (ds_size d) 0 d d1 I eq_refl ltac:(intros; lia) H1) as [I1 [Z1 F1]].
  intros R. destruct (conc_flat (parents d1) F1 sch (map start qss) ps ts) as [-> FT]; [|exact R|].
  - apply Forall_forall. intros t Ht. apply in_map_iff in Ht. destruct Ht as [qs [<- _]]. exact Logic.I.
  - split; [|reflexivity]. intros [i [j [ti [tj [x [w [_ [Hi [_ [A _]]]]]]]]]]. apply nth_error_In in Hi.
    exact (tflat_access (parents d1) ti x (proj1 (Forall_forall _ _) FT ti Hi) A).
Qed.
Print Assumptions C76_no_race_after_finding_all.

(** compress_sets() is not enough: two threads that call find_root(0) on a const
    structure can be in a race (undefined behaviour). *)
Theorem C76_race_after_compress_refuted :
  exists d sch ps ts, ds_run (ds_init 7) [DUnion 2 0; DUnion 5 6; DUnion 5 2; DCompress] = Some d /\
    conc_run (parents d) (map start [[QFind 0]; [QFind 0]]) sch = Some (ps, ts) /\ race ts.
Proof.
  eexists. exists [0; 0; 0; 0; 0; 1]. eexists _, _. split; [vm_compute; reflexivity|]. split; [vm_compute; reflexivity|].
  exists 0, 1. eexists _, _, 0, false. split; [lia|]. split; [reflexivity|]. split; [reflexivity|]. split; reflexivity.
Qed.
Print Assumptions C76_race_after_compress_refuted.

(** Non-vacuity: three threads on a structure with paths of length 2 and 3; thread 1
    uses a parent that thread 0 has changed after thread 1 started *)
Example C76_ex : exists d ps ts,
  ds_run (ds_init 8) [DUnion 0 1; DUnion 2 3; DUnion 0 2; DUnion 4 5; DUnion 6 7; DUnion 4 6; DUnion 0 4] = Some d /\
  parents d = [0; 0; 0; 2; 0; 4; 4; 6] /\
  Forall (Forall (query_ok (ds_size d))) [[QFind 7]; [QSame 7 3; QFind 5]; [QSame 6 1]] /\
  conc_run (parents d) (map start [[QFind 7]; [QSame 7 3; QFind 5]; [QSame 6 1]])
    [0;0;0;0;0;1;1;0;0;0;2;2;2;1;1;1;1;1;0;2;1;1;1;1;1;1;1;1;1;1;1;1;1;1;1;1;1;1;1;1;0;2;2;2;2;2;2;2;2;2;2;2;2;2;2;2;2;2;2;2;0;0;0;0;0;0] = Some (ps, ts) /\
  map out ts = [[ARoot 0]; [ASame true; ARoot 0]; [ASame true]] /\ forallb finished ts = true /\ parents d <> ps.
Proof.
  eexists _, _, _. split; [vm_compute; reflexivity|]. split; [vm_compute; reflexivity|].
  split; [repeat constructor; vm_compute; lia|]. split; [vm_compute; reflexivity|]. split; [vm_compute; reflexivity|].
  split; [vm_compute; reflexivity|]. vm_compute. discriminate.
Qed.
