From Coq Require Import List Bool Arith Lia Relations Sorted.
From Verif Require Import DSModel DSSpec DSProofs SPModel SPSpec.
Import ListNotations.

Lemma clos_rst_ext (R R' : nat -> nat -> Prop) a b : (forall x y, R x y -> R' x y) ->
  clos_refl_sym_trans nat R a b -> clos_refl_sym_trans nat R' a b.
Proof. intros H. induction 1; [apply rst_step; auto|apply rst_refl|now apply rst_sym|eapply rst_trans; eauto]. Qed.
Lemma clos_rst_least (R Q : nat -> nat -> Prop) a b :
  (forall x, Q x x) -> (forall x y, Q x y -> Q y x) -> (forall x y z, Q x y -> Q y z -> Q x z) ->
  (forall x y, R x y -> Q x y) -> clos_refl_sym_trans nat R a b -> Q a b.
Proof. intros Hr Hs Ht H. induction 1; eauto. Qed.
Lemma connected_refl E a : connected E a a.
Proof. apply rst_refl. Qed.
Lemma connected_incl E E' a b : incl E E' -> connected E a b -> connected E' a b.
Proof. intros H. apply clos_rst_ext. auto. Qed.

(** ** small maps *)
Lemma pair_eqb_spec a b : reflect (a = b) (pair_eqb a b).
Proof.
  destruct a as [a1 a2], b as [b1 b2]. unfold pair_eqb. cbn [fst snd].
  destruct (Nat.eqb_spec a1 b1), (Nat.eqb_spec a2 b2); cbn; constructor; congruence.
Qed.
Lemma me_find_set {A} (m : me_map A) k a k' : me_find (me_set m k a) k' = if pair_eqb k' k then Some a else me_find m k'.
Proof.
  induction m as [|[k0 a0] m IH]; cbn [me_set me_find]; [reflexivity|].
  destruct (pair_eqb_spec k k0) as [->|Hk]; cbn [me_find].
  - destruct (pair_eqb_spec k' k0); reflexivity.
  - rewrite IH. destruct (pair_eqb_spec k' k0) as [->|]; [|reflexivity].
    destruct (pair_eqb_spec k0 k); congruence.
Qed.
Lemma r2s_find_In m r k : NoDup (map fst m) -> (r2s_find m r = Some k <-> In (r, k) m).
Proof.
  induction m as [|[r0 k0] m IH]; cbn [r2s_find map fst]; intros Hnd; [split; [discriminate|intros []]|].
  inversion Hnd as [|? ? Hn Hnd']; subst. destruct (Nat.eqb_spec r r0) as [->|Hr].
  - split; [intros [= ->]; now left|]. intros [[= ->]|H]; [reflexivity|]. exfalso. apply Hn. now apply (in_map fst) in H.
  - rewrite IH by exact Hnd'. split; [now right|]. intros [[= -> ->]|H]; [contradiction|exact H].
Qed.
Lemma r2s_find_None m r : r2s_find m r = None <-> ~ In r (map fst m).
Proof.
  induction m as [|[r0 k0] m IH]; cbn [r2s_find map fst]; [split; auto|].
  destruct (Nat.eqb_spec r r0) as [->|Hr].
  - split; [discriminate|]. intros H; exfalso; apply H; now left.
  - rewrite IH. split; [intros H [K|K]; congruence|]. intros H K; apply H; now right.
Qed.
Lemma r2s_find_app m r k r' : ~ In r (map fst m) -> r2s_find (m ++ [(r, k)]) r' = if r' =? r then Some k else r2s_find m r'.
Proof.
  induction m as [|[r0 k0] m IH]; cbn [r2s_find map fst app]; intros H; [reflexivity|].
  rewrite IH by (intros K; apply H; now right). destruct (Nat.eqb_spec r' r0) as [->|]; [|reflexivity].
  destruct (Nat.eqb_spec r0 r) as [->|]; [exfalso; apply H; now left|reflexivity].
Qed.

(** ** roots as a relation *)
Definition rt (ps : list nat) (x r : nat) : Prop := exists d, root_at ps x r d.
Lemma rt_det ps x r r' : rt ps x r -> rt ps x r' -> r = r'.
Proof. intros [d H] [d' H']. now destruct (root_at_det _ _ _ _ H _ _ H'). Qed.
Lemma rt_self ps x r : rt ps x r -> rt ps r r.
Proof. intros [d H]. exists 0. exact (root_at_self _ _ _ _ H). Qed.
Lemma rt_lt ps x r : rt ps x r -> x < length ps.
Proof. intros [d H]. exact (root_at_lt _ _ _ _ H). Qed.
Lemma same_roots_rt ps ps' x r : forest ps -> same_roots ps ps' -> (rt ps x r <-> rt ps' x r).
Proof.
  intros F S. split; intros [d H].
  - destruct S as [_ S]. destruct (S _ _ _ H) as [d' H']. now exists d'.
  - destruct (same_roots_back _ _ _ _ _ S F H) as [d' H']. now exists d'.
Qed.
Lemma inv_conn_rt E d x y rx ry : ds_inv E d -> rt (parents d) x rx -> rt (parents d) y ry -> (connected E x y <-> rx = ry).
Proof.
  intros I [dx Hx] [dy Hy]. pose proof I as [_ [_ [_ [_ Hc]]]].
  rewrite <- Hc by (unfold ds_size; eapply root_at_lt; eassumption). now apply same_set_iff with dx dy.
Qed.
Lemma inv_rt E d x : ds_inv E d -> x < ds_size d -> exists r, rt (parents d) x r.
Proof. intros [F _] Hx. destruct (F x Hx) as [r [k H]]. exists r, k. exact H. Qed.
Lemma inv_rt_conn E d x r : ds_inv E d -> rt (parents d) x r -> connected E x r.
Proof. intros I H. apply (inv_conn_rt E d x r r r I H (rt_self _ _ _ H)). reflexivity. Qed.

(** find_root in terms of rt *)
Lemma find_root_rt E d x : ds_inv E d -> x < ds_size d ->
  exists d' r, find_root d x = Some (d', r) /\ rt (parents d) x r /\ ds_inv E d' /\
    same_roots (parents d) (parents d') /\ ds_size d' = ds_size d /\ n_sets d' = n_sets d.
Proof.
  intros I H. destruct (find_root_spec E d x I H) as [d' [r [k [H1 [H2 [H3 [H4 [H5 [H6 _]]]]]]]]].
  exists d', r. split; [exact H1|]. split; [now exists k|]. auto.
Qed.
Lemma find_root_eq E d x r : ds_inv E d -> rt (parents d) x r ->
  exists d', find_root d x = Some (d', r) /\ ds_inv E d' /\
    same_roots (parents d) (parents d') /\ ds_size d' = ds_size d /\ n_sets d' = n_sets d.
Proof.
  intros I H. destruct (find_root_rt E d x I (rt_lt _ _ _ H)) as [d' [r' [H1 [H2 H3]]]].
  rewrite (rt_det _ _ _ _ H2 H) in H1. exists d'. split; [exact H1|exact H3].
Qed.

(** ** numbering of roots *)
Definition num_ok (ps : list nat) (done : list nat) (m : list (nat * nat)) : Prop :=
  map snd m = seq 0 (length m) /\ NoDup (map fst m) /\
  (forall r, In r (map fst m) <-> exists n, In n done /\ rt ps n r) /\
  (forall l1 x l2 r, done = l1 ++ x :: l2 -> rt ps x r -> (forall y, In y l1 -> ~ rt ps y r) ->
     exists k, r2s_find m r = Some k /\
       forall i, i < k <-> exists y q, In y l1 /\ rt ps y q /\ r2s_find m q = Some i).
Lemma num_ok_ext ps ps' done m : (forall x r, rt ps x r <-> rt ps' x r) -> num_ok ps done m -> num_ok ps' done m.
Proof.
  intros H [A [B [C D]]]. split; [exact A|]. split; [exact B|]. split.
  - intros r. rewrite C. split; intros [n [H1 H2]]; exists n; split; auto; now apply H.
  - intros l1 x l2 r Hd Hx Hn. destruct (D l1 x l2 r Hd) as [k [K1 K2]].
    + now apply H.
    + intros y Hy K. apply (Hn y Hy). now apply H.
    + exists k. split; [exact K1|]. intros i. rewrite K2.
      split; intros [y [q [H1 [H2 H3]]]]; exists y, q; (split; [exact H1|split; [now apply H|exact H3]]).
Qed.
Lemma num_label_lt ps done m r k : num_ok ps done m -> r2s_find m r = Some k -> k < length m.
Proof.
  intros [A [B _]] H. apply r2s_find_In in H; [|exact B]. apply (in_map snd) in H. cbn in H. rewrite A in H. apply in_seq in H. lia.
Qed.
Lemma num_label_inj ps done m r r' k : num_ok ps done m -> r2s_find m r = Some k -> r2s_find m r' = Some k -> r = r'.
Proof.
  intros [A [B _]] H H'. apply r2s_find_In in H, H'; try exact B.
  apply In_nth_error in H, H'. destruct H as [i Hi], H' as [j Hj].
  assert (i = j).
  { pose proof (map_nth_error snd _ _ Hi) as Ki. pose proof (map_nth_error snd _ _ Hj) as Kj. cbn in Ki, Kj.
    rewrite A in Ki, Kj. assert (NoDup (seq 0 (length m))) as Hnd by apply seq_NoDup.
    rewrite NoDup_nth_error in Hnd. apply Hnd; [|congruence].
    apply nth_error_Some. congruence. }
  congruence.
Qed.
Lemma num_label_surj ps done m k : num_ok ps done m -> k < length m ->
  exists r, r2s_find m r = Some k /\ exists n, In n done /\ rt ps n r.
Proof.
  intros [A [B [C _]]] H. destruct (nth_error m k) as [[r k']|] eqn:E; [|apply nth_error_None in E; lia].
  assert (k' = k).
  { pose proof (map_nth_error snd _ _ E) as K. cbn in K. rewrite A in K.
    rewrite nth_error_nth' with (d := 0) in K by (now rewrite seq_length). rewrite seq_nth in K by exact H. injection K as <-. reflexivity. }
  subst k'. exists r. apply nth_error_In in E. split; [now apply r2s_find_In|]. apply C. now apply (in_map fst) in E.
Qed.

Lemma NoDup_snoc {A} (l : list A) a : NoDup l -> ~ In a l -> NoDup (l ++ [a]).
Proof.
  induction l as [|b l IH]; intros Hn Ha; cbn; [constructor; [intros []|constructor]|].
  inversion Hn; subst. constructor.
  - intros K. apply in_app_or in K. destruct K as [K|[K|[]]]; [contradiction|]. apply Ha. now left.
  - apply IH; [assumption|]. intros K. apply Ha. now right.
Qed.
Lemma emplace_ok ps done m n r : num_ok ps done m -> rt ps n r -> num_ok ps (done ++ [n]) (r2s_emplace m r).
Proof.
  intros Hok Hr. pose proof Hok as [A [B [C D]]]. unfold r2s_emplace.
  assert (forall l1 x l2 (z : nat), l1 ++ x :: l2 = done ++ [z] ->
     (l1 = done /\ x = z) \/ exists l2', done = l1 ++ x :: l2') as Hsplit.
  { intros l1 x l2 z Hd.
    destruct (exists_last (l := x :: l2) ltac:(discriminate)) as [l' [w Hz]].
    rewrite Hz, app_assoc in Hd. apply app_inj_tail in Hd. destruct Hd as [Hd ->].
    destruct l' as [|x' l''].
    - cbn in Hz. injection Hz as -> ->. rewrite app_nil_r in Hd. now left.
    - cbn in Hz. injection Hz as <- _. right. now exists l''. }
  destruct (r2s_find m r) as [k0|] eqn:E.
  - assert (In r (map fst m)) as Hin.
    { destruct (in_dec Nat.eq_dec r (map fst m)) as [|Hni]; [assumption|]. apply r2s_find_None in Hni. congruence. }
    split; [exact A|]. split; [exact B|]. split.
    + intros q. rewrite C. split.
      * intros [y [H1 H2]]. exists y. split; [apply in_or_app; now left|exact H2].
      * intros [y [H1 H2]]. apply in_app_or in H1. destruct H1 as [H1|[<-|[]]]; [exists y; auto|].
        rewrite <- (rt_det _ _ _ _ Hr H2). now apply C.
    + intros l1 x l2 q Hd Hx Hn. symmetry in Hd. destruct (Hsplit _ _ _ _ Hd) as [[-> ->]|[l2' Hd']].
      * rewrite <- (rt_det _ _ _ _ Hr Hx) in Hn. apply C in Hin. destruct Hin as [y [Hy1 Hy2]]. exfalso. exact (Hn y Hy1 Hy2).
      * apply (D l1 x l2' q Hd' Hx Hn).
  - apply r2s_find_None in E. split; [|split; [|split]].
    + rewrite map_app, app_length. cbn [map length]. rewrite seq_app, A. reflexivity.
    + rewrite map_app. cbn [map fst]. now apply NoDup_snoc.
    + intros q. rewrite map_app, in_app_iff, C. cbn [map fst In]. split.
      * intros [[y [H1 H2]]|[<-|[]]]; [exists y; split; [apply in_or_app; now left|exact H2]|].
        exists n. split; [apply in_or_app; right; now left|exact Hr].
      * intros [y [H1 H2]]. apply in_app_or in H1. destruct H1 as [H1|[<-|[]]]; [left; exists y; auto|].
        right. left. exact (rt_det _ _ _ _ Hr H2).
    + assert (forall y q, In y done -> rt ps y q -> r2s_find (m ++ [(r, length m)]) q = r2s_find m q) as Hold.
      { intros y q Hy Hq. rewrite r2s_find_app by exact E. destruct (Nat.eqb_spec q r) as [->|]; [|reflexivity].
        exfalso. apply E. apply C. eauto. }
      intros l1 x l2 q Hd Hx Hn. symmetry in Hd. destruct (Hsplit _ _ _ _ Hd) as [[-> ->]|[l2' Hd']].
      * rewrite <- (rt_det _ _ _ _ Hr Hx) in *. exists (length m). rewrite r2s_find_app, Nat.eqb_refl by exact E.
        split; [reflexivity|]. intros i. split.
        -- intros Hi. destruct (num_label_surj _ _ _ _ Hok Hi) as [q' [H1 [y [H2 H3]]]].
           exists y, q'. split; [exact H2|]. split; [exact H3|]. now rewrite (Hold y q' H2 H3).
        -- intros [y [q' [H1 [H2 H3]]]]. rewrite (Hold y q' H1 H2) in H3. exact (num_label_lt _ _ _ _ _ Hok H3).
      * destruct (D l1 x l2' q Hd' Hx Hn) as [k [K1 K2]]. exists k.
        assert (In x done) as Hxd by (rewrite Hd'; apply in_or_app; right; now left).
        rewrite (Hold x q Hxd Hx). split; [exact K1|]. intros i. rewrite K2.
        assert (forall y, In y l1 -> In y done) as Hl1 by (intros y Hy; rewrite Hd'; apply in_or_app; now left).
        split; intros [y [q' [H1 [H2 H3]]]]; exists y, q'; (split; [exact H1|split; [exact H2|]]).
        -- now rewrite (Hold y q' (Hl1 y H1) H2).
        -- now rewrite (Hold y q' (Hl1 y H1) H2) in H3.
Qed.
Lemma number_roots_spec E st : forall ds m done, ds_inv E ds -> num_ok (parents ds) done m ->
  (forall x, In x st -> x < ds_size ds) ->
  exists ds' m', number_roots ds m st = Some (ds', m') /\ ds_inv E ds' /\ ds_size ds' = ds_size ds /\
    same_roots (parents ds) (parents ds') /\ num_ok (parents ds') (done ++ st) m' /\ n_sets ds' = n_sets ds.
Proof.
  induction st as [|n st IH]; intros ds m done I Hm Hst.
  - exists ds, m. rewrite app_nil_r. repeat (split; [first [reflexivity|assumption|apply same_roots_refl]|]). reflexivity.
  - cbn [number_roots]. destruct (find_root_rt E ds n I (Hst n (or_introl eq_refl))) as [d1 [r [Hf [Hr [I1 [S1 [Z1 N1]]]]]]].
    rewrite Hf. cbn [dbind fst snd]. pose proof I as [F _].
    destruct (IH d1 (r2s_emplace m r) (done ++ [n]) I1) as [ds' [m' [H1 [H2 [H3 [H4 [H5 H6]]]]]]].
    + apply num_ok_ext with (parents ds); [intros; now apply same_roots_rt|]. now apply emplace_ok.
    + intros x Hx. rewrite Z1. apply Hst. now right.
    + exists ds', m'. split; [exact H1|]. split; [exact H2|]. split; [congruence|].
      split; [eapply same_roots_trans; eauto|]. rewrite <- app_assoc in H5. split; [exact H5|congruence].
Qed.

(** ** partition invariant *)
Definition sp_inv (E : list (nat * nat)) (sp : space_partition) : Prop :=
  ds_inv E (sp_ds sp) /\ (forall x, In x (sp_states sp) -> x < ds_size (sp_ds sp)) /\
  num_ok (parents (sp_ds sp)) (sp_states sp) (sp_r2s sp).
Lemma compress_nsets cnt : forall E i d d', ds_inv E d -> i + cnt <= ds_size d -> compress_loop cnt i d = Some d' -> n_sets d' = n_sets d.
Proof.
  induction cnt as [|c IH]; intros E i d d' I Hi H; [now injection H as <-|].
  cbn [compress_loop] in H. destruct (nth_error (parents d) i) as [p|] eqn:Ep; [|discriminate].
  cbn [dbind] in H. pose proof I as [F _]. pose proof (forest_parent _ _ _ F Ep) as Hp.
  destruct (find_root_rt E d p I Hp) as [d1 [r [Hf [_ [I1 [_ [Z1 N1]]]]]]]. rewrite Hf in H. cbn [dbind fst] in H.
  rewrite (IH E (S i) d1 d' I1 ltac:(lia) H). exact N1.
Qed.
Lemma update_spec E st ds : ds_inv E ds -> (forall x, In x st -> x < ds_size ds) ->
  exists sp, update_root_to_subspace st ds = Some sp /\ sp_inv E sp /\ sp_states sp = st /\ ds_size (sp_ds sp) = ds_size ds.
Proof.
  intros I Hst. unfold update_root_to_subspace, compress_sets.
  destruct (compress_loop_spec E (ds_size ds) 0 ds I ltac:(lia)) as [d1 [H1 [I1 [Z1 _]]]]. rewrite H1. cbn [dbind].
  destruct (normalize_sets_spec E d1 I1) as [d2 [H2 [I2 Z2]]]. rewrite H2. cbn [dbind].
  destruct (number_roots_spec E st d2 [] [] I2) as [d3 [m [H3 [I3 [Z3 [_ [Hm _]]]]]]].
  - split; [reflexivity|]. split; [constructor|]. split.
    + intros r. cbn. split; [intros []|intros [n [[] _]]].
    + intros l1 x l2 r Hd. destruct l1; discriminate.
  - intros x Hx. rewrite Z2, Z1. now apply Hst.
  - rewrite H3. cbn [dbind fst snd]. eexists. split; [reflexivity|]. unfold sp_inv. cbn [sp_ds sp_states sp_r2s].
    split; [|split; [reflexivity|congruence]]. split; [exact I3|]. split; [|exact Hm].
    intros x Hx. rewrite Z3, Z2, Z1. now apply Hst.
Qed.

(** equivalent up to path compression *)
Definition sp_eq (sp sp' : space_partition) : Prop :=
  sp_states sp' = sp_states sp /\ sp_r2s sp' = sp_r2s sp /\ same_roots (parents (sp_ds sp)) (parents (sp_ds sp')) /\
  n_sets (sp_ds sp') = n_sets (sp_ds sp).
Lemma sp_eq_refl sp : sp_eq sp sp.
Proof. split; [reflexivity|]. split; [reflexivity|]. split; [apply same_roots_refl|reflexivity]. Qed.
Lemma sp_eq_trans a b c : sp_eq a b -> sp_eq b c -> sp_eq a c.
Proof. intros [A [B [C D]]] [A' [B' [C' D']]]. split; [congruence|]. split; [congruence|]. split; [eapply same_roots_trans; eauto|congruence]. Qed.
Lemma sp_index_root E sp x r : sp_inv E sp -> rt (parents (sp_ds sp)) x r ->
  exists sp', (sp_index sp x = match r2s_find (sp_r2s sp) r with Some k => Some (sp', k) | None => None end) /\
    sp_eq sp sp' /\ sp_inv E sp'.
Proof.
  intros [I [Hst Hm]] Hr. destruct (find_root_eq E _ x r I Hr) as [d' [Hf [I' [S' [Z' N']]]]].
  unfold sp_index. rewrite Hf. cbn [dbind fst snd].
  exists {| sp_states := sp_states sp; sp_ds := d'; sp_r2s := sp_r2s sp |}.
  split; [destruct (r2s_find (sp_r2s sp) r); reflexivity|]. split.
  - split; [reflexivity|]. split; [reflexivity|]. split; [exact S'|exact N'].
  - split; [exact I'|]. cbn [sp_states sp_ds sp_r2s]. split; [intros y Hy; rewrite Z'; now apply Hst|].
    apply num_ok_ext with (parents (sp_ds sp)); [|exact Hm]. intros. apply same_roots_rt; [apply I|exact S'].
Qed.
Lemma label_root E sp x r : sp_inv E sp -> rt (parents (sp_ds sp)) x r -> label sp x = r2s_find (sp_r2s sp) r.
Proof.
  intros I Hr. destruct (sp_index_root E sp x r I Hr) as [sp' [H _]]. unfold label. rewrite H.
  destruct (r2s_find (sp_r2s sp) r); reflexivity.
Qed.
Lemma inv_state_rt E sp x : sp_inv E sp -> In x (sp_states sp) -> exists r, rt (parents (sp_ds sp)) x r.
Proof. intros [I [Hst _]] Hx. exact (inv_rt E _ x I (Hst x Hx)). Qed.
Lemma label_defined E sp x : sp_inv E sp -> In x (sp_states sp) ->
  exists sp' k, sp_index sp x = Some (sp', k) /\ label sp x = Some k /\ k < n_subspaces sp /\ sp_eq sp sp' /\ sp_inv E sp'.
Proof.
  intros I Hx. destruct (inv_state_rt E sp x I Hx) as [r Hr]. destruct (sp_index_root E sp x r I Hr) as [sp' [H [He I']]].
  pose proof I as [_ [_ Hm]]. pose proof Hm as [_ [_ [C _]]].
  destruct (r2s_find (sp_r2s sp) r) as [k|] eqn:Ek.
  - exists sp', k. split; [exact H|]. split; [unfold label; now rewrite H|]. split; [exact (num_label_lt _ _ _ _ _ Hm Ek)|auto].
  - exfalso. apply r2s_find_None in Ek. apply Ek. apply C. eauto.
Qed.
Lemma label_eq E sp sp' x : sp_inv E sp -> sp_inv E sp' -> sp_eq sp sp' -> In x (sp_states sp) -> label sp' x = label sp x.
Proof.
  intros I I' [He1 [He2 [He3 _]]] Hx. destruct (inv_state_rt E sp x I Hx) as [r Hr].
  rewrite (label_root E sp x r I Hr). rewrite (label_root E sp' x r I'); [now rewrite He2|].
  apply (same_roots_rt (parents (sp_ds sp))); auto. apply I.
Qed.
Lemma label_iff E sp x y : sp_inv E sp -> In x (sp_states sp) -> In y (sp_states sp) ->
  (label sp x = label sp y <-> connected E x y).
Proof.
  intros I Hx Hy. destruct (inv_state_rt E sp x I Hx) as [rx Hrx]. destruct (inv_state_rt E sp y I Hy) as [ry Hry].
  pose proof I as [Id [_ Hm]]. rewrite (inv_conn_rt E _ x y rx ry Id Hrx Hry).
  rewrite (label_root E sp x rx I Hrx), (label_root E sp y ry I Hry). split; [|congruence].
  intros H. destruct (label_defined E sp x I Hx) as [s1 [k [_ [Hk _]]]]. rewrite (label_root E sp x rx I Hrx) in Hk.
  apply (num_label_inj _ _ _ _ _ k Hm Hk). congruence.
Qed.
Lemma label_surj E sp k : sp_inv E sp -> k < n_subspaces sp -> exists x, In x (sp_states sp) /\ label sp x = Some k.
Proof.
  intros I Hk. pose proof I as [Id [_ Hm]]. destruct (num_label_surj _ _ _ _ Hm Hk) as [r [H1 [n [H2 H3]]]].
  exists n. split; [exact H2|]. now rewrite (label_root E sp n r I H3).
Qed.
Lemma label_order E sp l1 x l2 : sp_inv E sp -> sp_states sp = l1 ++ x :: l2 ->
  (forall y, In y l1 -> ~ connected E y x) ->
  exists k, label sp x = Some k /\ forall i, i < k <-> exists y, In y l1 /\ label sp y = Some i.
Proof.
  intros I Hst Hn. assert (In x (sp_states sp)) as Hx by (rewrite Hst; apply in_or_app; right; now left).
  destruct (inv_state_rt E sp x I Hx) as [r Hr]. pose proof I as [Id [_ Hm]]. destruct Hm as [_ [_ [_ D]]].
  destruct (D l1 x l2 r Hst Hr) as [k [K1 K2]].
  - intros y Hy K. apply (Hn y Hy). apply (inv_conn_rt E _ y x r r Id K Hr). reflexivity.
  - exists k. rewrite (label_root E sp x r I Hr). split; [exact K1|]. intros i. rewrite K2. split.
    + intros [y [q [H1 [H2 H3]]]]. exists y. split; [exact H1|]. now rewrite (label_root E sp y q I H2).
    + intros [y [H1 H2]]. assert (In y (sp_states sp)) as Hy by (rewrite Hst; apply in_or_app; now left).
      destruct (inv_state_rt E sp y I Hy) as [q Hq]. exists y, q. split; [exact H1|]. split; [exact Hq|].
      now rewrite (label_root E sp y q I Hq) in H2.
Qed.
