(** * Proofs about interrupted partitioning *)
From Coq Require Import List Bool Arith Lia Relations Sorted.
From Verif Require Import DSModel DSSpec DSProofs SPModel SPSpec SPProofs SPMerge SPMain PartCrashModel.
Import ListNotations.

(** ** structures that differ by path compression only *)
Definition ds_sim (E : list (nat * nat)) (d1 d2 : dsets) : Prop :=
  ds_inv E d1 /\ ds_inv E d2 /\ same_roots (parents d1) (parents d2) /\ ranks d2 = ranks d1 /\ n_sets d2 = n_sets d1.

Lemma ds_sim_refl E d : ds_inv E d -> ds_sim E d d.
Proof. intros I. split; auto. split; auto. split; [apply same_roots_refl|auto]. Qed.
Lemma same_roots_sym ps ps' : forest ps -> same_roots ps ps' -> same_roots ps' ps.
Proof.
  intros F S. split; [destruct S; congruence|]. intros y q d H. exact (same_roots_back _ _ _ _ _ S F H).
Qed.
Lemma ds_sim_sym E d1 d2 : ds_sim E d1 d2 -> ds_sim E d2 d1.
Proof.
  intros [I1 [I2 [S [R N]]]]. split; auto. split; auto. split; [|auto]. apply same_roots_sym; [apply I1|exact S].
Qed.
Lemma ds_sim_trans E a b c : ds_sim E a b -> ds_sim E b c -> ds_sim E a c.
Proof.
  intros [I1 [I2 [S [R N]]]] [_ [I3 [S' [R' N']]]]. split; auto. split; auto.
  split; [eapply same_roots_trans; eauto|]. split; congruence.
Qed.
Lemma ds_sim_size E d1 d2 : ds_sim E d1 d2 -> ds_size d2 = ds_size d1.
Proof. intros [_ [_ [[L _] _]]]. exact L. Qed.
Lemma ds_sim_rt E d1 d2 x r : ds_sim E d1 d2 -> (rt (parents d1) x r <-> rt (parents d2) x r).
Proof. intros [I1 [_ [S _]]]. apply same_roots_rt; [apply I1|exact S]. Qed.

Lemma find_root_sim1 E d x : ds_inv E d -> x < ds_size d ->
  exists d' r, find_root d x = Some (d', r) /\ rt (parents d) x r /\ ds_sim E d d'.
Proof.
  intros I Hx. destruct (find_root_rt E d x I Hx) as [d' [r [H [Hr [I' [S [Z N]]]]]]].
  exists d', r. split; [exact H|]. split; [exact Hr|]. split; auto. split; auto. split; auto.
  split; [|exact N]. unfold find_root in H. destruct (find_root_fuel _ _ _); [|discriminate].
  injection H as <- <-. reflexivity.
Qed.
Lemma find_root_sim E d1 d2 x : ds_sim E d1 d2 -> x < ds_size d1 ->
  exists d1' d2' r, find_root d1 x = Some (d1', r) /\ find_root d2 x = Some (d2', r) /\
    rt (parents d1) x r /\ ds_sim E d1 d1' /\ ds_sim E d1' d2'.
Proof.
  intros S Hx. destruct (find_root_sim1 E d1 x (proj1 S) Hx) as [d1' [r1 [H1 [K1 S1]]]].
  destruct (find_root_sim1 E d2 x (proj1 (proj2 S))) as [d2' [r2 [H2 [K2 S2]]]].
  { now rewrite (ds_sim_size _ _ _ S). }
  apply (ds_sim_rt _ _ _ _ _ S) in K2. pose proof (rt_det _ _ _ _ K1 K2) as <-.
  exists d1', d2', r1. split; auto. split; auto. split; auto. split; auto.
  exact (ds_sim_trans _ _ _ _ (ds_sim_sym _ _ _ S1) (ds_sim_trans _ _ _ _ S S2)).
Qed.
Lemma rt_nth ps x : rt ps x x -> nth_error ps x = Some x.
Proof. intros [d H]. pose proof (root_at_self _ _ _ _ H) as K. exact (root_at_root _ _ _ _ K). Qed.

Lemma union_same_roots p1 p2 x y : forest p1 -> forest p2 -> same_roots p1 p2 -> nth_error p1 x = Some x -> nth_error p1 y = Some y ->
  nth_error p2 x = Some x -> nth_error p2 y = Some y -> x <> y -> same_roots (upd p1 y x) (upd p2 y x).
Proof.
  intros F1 F2 S A B A' B' N.
  destruct (union_roots p1 x y F1 A B N) as [L1 U1]. destruct (union_roots p2 x y F2 A' B' N) as [L2 U2].
  split; [rewrite L1, L2; apply S|]. intros z q d H.
  assert (z < length p1) as Hz by (rewrite <- L1; eapply root_at_lt; eauto).
  destruct (F1 z Hz) as [r [e Hr]]. destruct (U1 _ _ _ Hr) as [e' K]. destruct (root_at_det _ _ _ _ H _ _ K) as [-> _].
  destruct (proj2 S _ _ _ Hr) as [f Hf]. exact (U2 _ _ _ Hf).
Qed.
Lemma root_union_sim E d1 d2 x y : ds_sim E d1 d2 -> rt (parents d1) x x -> rt (parents d1) y y -> x <> y ->
  exists d1' d2' r E', root_union d1 x y = Some (d1', r) /\ root_union d2 x y = Some (d2', r) /\ ds_sim E' d1' d2' /\
    ds_size d1' = ds_size d1.
Proof.
  intros S Hx Hy N. pose proof S as [I1 [I2 [SR [R NS]]]].
  pose proof (rt_nth _ _ Hx) as A. pose proof (rt_nth _ _ Hy) as B.
  pose proof (rt_nth _ _ (proj1 (ds_sim_rt _ _ _ _ _ S) Hx)) as A'. pose proof (rt_nth _ _ (proj1 (ds_sim_rt _ _ _ _ _ S) Hy)) as B'.
  destruct (root_union_spec E d1 x y I1 A B N) as [d1' [r1 [H1 [J1 [Z1 _]]]]].
  destruct (root_union_spec E d2 x y I2 A' B' N) as [d2' [r2 [H2 [J2 [Z2 _]]]]].
  assert (same_roots (parents d1') (parents d2') /\ ranks d2' = ranks d1' /\ n_sets d2' = n_sets d1' /\ r2 = r1) as [S' [R' [N' ->]]].
  { unfold root_union in H1, H2. rewrite A, B in H1. rewrite A', B', R in H2. cbn [dbind] in H1, H2.
    destruct (negb _) in H1, H2; [discriminate|].
    destruct (nth_error (ranks d1) x) as [xr|]; [|discriminate]. destruct (nth_error (ranks d1) y) as [yr|]; [|discriminate].
    cbn [dbind] in H1, H2. destruct (xr <? yr); injection H1 as <- <-; injection H2 as <- <-; cbn [parents ranks n_sets].
    - split; [apply union_same_roots; auto; [apply I1|apply I2]|]. repeat split; congruence.
    - split; [apply union_same_roots; auto; [apply I1|apply I2]|]. repeat split; congruence. }
  exists d1', d2', r1, ((x, y) :: E). split; [exact H1|]. split; [exact H2|]. split; [|exact Z1]. unfold ds_sim. auto.
Qed.

(** ** merging commutes with path compression *)
Definition conn_ok (d : dsets) (c : list (nat * nat)) : Prop := forall k v, In (k, v) c -> k < ds_size d /\ v < ds_size d.
Lemma merge_loop_sim conn : forall E d1 d2 i o l, ds_sim E d1 d2 -> conn_ok d1 conn -> i < ds_size d1 -> o < ds_size d1 ->
  exists d1' d2' l' E', merge_loop d1 i o l conn = Some (d1', l') /\ merge_loop d2 i o l conn = Some (d2', l') /\
    ds_sim E' d1' d2' /\ ds_size d1' = ds_size d1.
Proof.
  induction conn as [|[f s] conn IH]; intros E d1 d2 i o l S Hc Hi Ho.
  - exists d1, d2, l, E. auto.
  - destruct (Hc f s (or_introl eq_refl)) as [Hf Hs].
    assert (forall d, ds_size d = ds_size d1 -> conn_ok d conn) as Hc'.
    { intros d Z k v h. rewrite Z. apply Hc. now right. }
    cbn [merge_loop].
    destruct (find_root_sim E d1 d2 f S Hf) as (a1 & a2 & rf & A1 & A2 & _ & As & At). rewrite A1, A2. cbn [dbind fst snd].
    pose proof (ds_sim_size _ _ _ As) as Za.
    destruct (find_root_sim E a1 a2 i At ltac:(lia)) as (b1 & b2 & ri & B1 & B2 & _ & Bs & Bt). rewrite B1, B2. cbn [dbind fst snd].
    pose proof (ds_sim_size _ _ _ Bs) as Zb.
    destruct (rf =? ri).
    + destruct (find_root_sim E b1 b2 o Bt ltac:(lia)) as (c1 & c2 & r1 & C1 & C2 & Cr & Cs & Ct). rewrite C1, C2. cbn [dbind fst snd].
      pose proof (ds_sim_size _ _ _ Cs) as Zc.
      destruct (find_root_sim E c1 c2 s Ct ltac:(lia)) as (e1 & e2 & r2 & D1 & D2 & Dr & Ds & Dt). rewrite D1, D2. cbn [dbind fst snd].
      pose proof (ds_sim_size _ _ _ Ds) as Zd.
      destruct (Nat.eqb_spec r1 r2) as [->|N]; cbn [negb].
      * destruct (IH E e1 e2 i o l Dt (Hc' e1 ltac:(lia)) ltac:(lia) ltac:(lia)) as (x1 & x2 & l' & E' & X1 & X2 & X3 & X4).
        exists x1, x2, l', E'. split; auto. split; auto. split; auto. lia.
      * destruct (root_union_sim E e1 e2 r1 r2 Dt) as (u1 & u2 & ru & E1 & U1 & U2 & U3 & U4).
        { apply (ds_sim_rt _ _ _ _ _ Ds). apply (ds_sim_rt _ _ _ _ _ Cs). exact (rt_self _ _ _ Cr). }
        { apply (ds_sim_rt _ _ _ _ _ Ds). exact (rt_self _ _ _ Dr). }
        { exact N. }
        rewrite U1, U2. cbn [dbind fst snd].
        destruct (IH E1 u1 u2 i o true U3 (Hc' u1 ltac:(lia)) ltac:(lia) ltac:(lia)) as (x1 & x2 & l' & E' & X1 & X2 & X3 & X4).
        exists x1, x2, l', E'. split; auto. split; auto. split; auto. lia.
    + destruct (find_root_sim E b1 b2 f Bt ltac:(lia)) as (c1 & c2 & r1 & C1 & C2 & Cr & Cs & Ct). rewrite C1, C2. cbn [dbind fst snd].
      pose proof (ds_sim_size _ _ _ Cs) as Zc.
      destruct (find_root_sim E c1 c2 s Ct ltac:(lia)) as (e1 & e2 & r2 & D1 & D2 & Dr & Ds & Dt). rewrite D1, D2. cbn [dbind fst snd].
      pose proof (ds_sim_size _ _ _ Ds) as Zd.
      assert (r1 < ds_size e1). { pose proof (rt_lt _ _ _ (rt_self _ _ _ Cr)). unfold ds_size in *. lia. }
      assert (r2 < ds_size e1). { pose proof (rt_lt _ _ _ (rt_self _ _ _ Dr)). unfold ds_size in *. lia. }
      destruct (IH E e1 e2 r1 r2 l Dt (Hc' e1 ltac:(lia)) ltac:(lia) ltac:(lia)) as (x1 & x2 & l' & E' & X1 & X2 & X3 & X4).
      exists x1, x2, l', E'. split; auto. split; auto. split; auto. lia.
Qed.
Lemma merge_conn_sim conn E d1 d2 : ds_sim E d1 d2 -> conn_ok d1 conn ->
  exists d1' d2' l' E', merge_conn_targets d1 conn = Some (d1', l') /\ merge_conn_targets d2 conn = Some (d2', l') /\
    ds_sim E' d1' d2' /\ ds_size d1' = ds_size d1.
Proof.
  intros S Hc. destruct conn as [|[f s] conn]; [exists d1, d2, false, E; auto|].
  destruct (Hc f s (or_introl eq_refl)) as [Hf Hs]. cbn [merge_conn_targets].
  destruct (find_root_sim E d1 d2 f S Hf) as (c1 & c2 & r1 & C1 & C2 & Cr & Cs & Ct). rewrite C1, C2. cbn [dbind fst snd].
  pose proof (ds_sim_size _ _ _ Cs) as Zc.
  destruct (find_root_sim E c1 c2 s Ct ltac:(lia)) as (e1 & e2 & r2 & D1 & D2 & Dr & Ds & Dt). rewrite D1, D2. cbn [dbind fst snd].
  pose proof (ds_sim_size _ _ _ Ds) as Zd.
  assert (r1 < ds_size e1). { pose proof (rt_lt _ _ _ (rt_self _ _ _ Cr)). unfold ds_size in *. lia. }
  assert (r2 < ds_size e1). { pose proof (rt_lt _ _ _ (rt_self _ _ _ Dr)). unfold ds_size in *. lia. }
  destruct (merge_loop_sim conn E e1 e2 r1 r2 false Dt) as (x1 & x2 & l' & E' & X1 & X2 & X3 & X4); auto.
  { intros k v h. replace (ds_size e1) with (ds_size d1) by lia. apply Hc. now right. }
  exists x1, x2, l', E'. split; auto. split; auto. split; auto. lia.
Qed.
Lemma merge_until_sim fuel : forall c1 c2 E d1 d2, ds_sim E d1 d2 -> conn_ok d1 c1 -> conn_ok d1 c2 ->
  forall d1', merge_until fuel d1 c1 c2 = Some d1' ->
  exists d2' E', merge_until fuel d2 c1 c2 = Some d2' /\ ds_sim E' d1' d2' /\ ds_size d1' = ds_size d1.
Proof.
  induction fuel as [|f IH]; intros c1 c2 E d1 d2 S H1 H2 d1' H; [discriminate|]. cbn [merge_until] in *.
  destruct (merge_conn_sim c1 E d1 d2 S H1) as (a1 & a2 & la & Ea & A1 & A2 & A3 & A4). rewrite A1 in H. rewrite A2. cbn [dbind fst snd] in *.
  destruct (merge_conn_sim c2 Ea a1 a2 A3) as (b1 & b2 & lb & Eb & B1 & B2 & B3 & B4).
  { intros k v h. rewrite A4. now apply H2. }
  rewrite B1 in H. rewrite B2. cbn [dbind fst snd] in *. destruct (la || lb).
  - destruct (IH c1 c2 Eb b1 b2 B3) with (d1' := d1') as (x2 & E' & X1 & X2 & X3); auto.
    { intros k v h. rewrite B4, A4. now apply H1. } { intros k v h. rewrite B4, A4. now apply H2. }
    exists x2, E'. split; auto. split; auto. lia.
  - injection H as <-. exists b2, Eb. split; auto. split; auto. lia.
Qed.

(** numbering is determined by the partition *)
Lemma label_unique E1 E2 sp1 sp2 : sp_inv E1 sp1 -> sp_inv E2 sp2 -> sp_states sp2 = sp_states sp1 ->
  (forall x y, In x (sp_states sp1) -> In y (sp_states sp1) -> (connected E1 x y <-> connected E2 x y)) ->
  forall x, In x (sp_states sp1) -> label sp1 x = label sp2 x.
Proof.
  intros I1 I2 Hs HE.
  assert (forall l1 l2, sp_states sp1 = l1 ++ l2 -> forall x, In x l1 -> label sp1 x = label sp2 x) as K.
  2: { intros x Hx. apply (K (sp_states sp1) []); auto. now rewrite app_nil_r. }
  intros l1. induction l1 as [|z l1 IH] using rev_ind; intros l2 Hd x Hx; [destruct Hx|].
  rewrite <- app_assoc in Hd. cbn [app] in Hd.
  apply in_app_or in Hx. destruct Hx as [Hx|[<-|[]]]; [now apply (IH (z :: l2))|].
  assert (In z (sp_states sp1)) as Hz by (rewrite Hd; apply in_or_app; right; now left).
  assert (forall y, In y l1 -> In y (sp_states sp1)) as Hl1 by (intros y Hy; rewrite Hd; apply in_or_app; now left).
  assert ((exists y, In y l1 /\ connected E1 y z) \/ (forall y, In y l1 -> ~ connected E1 y z)) as [[y [Hy Hyz]]|Hn].
  { assert (forall y, In y (sp_states sp1) -> {connected E1 y z} + {~ connected E1 y z}) as dec.
    { intros y Hy. destruct (label_iff E1 sp1 y z I1 Hy Hz) as [A B].
      assert ({label sp1 y = label sp1 z} + {label sp1 y <> label sp1 z}) as [e|n] by (repeat decide equality); [left; auto|right; auto]. }
    clear IH Hd. induction l1 as [|y l1 IHl]; [right; intros y []|].
    destruct (dec y (Hl1 y (or_introl eq_refl))) as [e|n]; [left; exists y; split; [now left|exact e]|].
    destruct IHl as [[w [W1 W2]]|W]; [intros w Hw; apply Hl1; now right|left; exists w; split; [now right|exact W2]|].
    right. intros w [<-|Hw]; auto. }
  - rewrite <- (proj2 (label_iff E1 sp1 y z I1 (Hl1 y Hy) Hz) Hyz).
    rewrite (IH (z :: l2) Hd y Hy).
    apply (label_iff E2 sp2 y z I2); rewrite ?Hs; auto. now apply HE; auto.
  - destruct (label_order E1 sp1 l1 z l2 I1 Hd Hn) as [k1 [K1 K2]].
    destruct (label_order E2 sp2 l1 z l2 I2) as [k2 [J1 J2]].
    { now rewrite Hs. } { intros y Hy C. apply (Hn y Hy). apply HE; auto. }
    rewrite K1, J1. f_equal.
    assert (forall i, i < k1 <-> i < k2) as Q.
    { intros i. rewrite K2, J2. split; intros [y [Hy L]]; exists y; split; auto; [rewrite <- (IH (z :: l2) Hd y Hy)|rewrite (IH (z :: l2) Hd y Hy)]; auto. }
    destruct (Nat.lt_trichotomy k1 k2) as [h|[h|h]]; auto; apply Q in h; lia.
Qed.

Section FILL.
Context {A : Type}.
Implicit Types (outs : list (nat * A)) (Cd C op : lop A).

Lemma fill_conn_sim store i insub outs : forall E d1 d2 conn me, ds_sim E d1 d2 -> (forall o a, In (o, a) outs -> o < ds_size d1) ->
  exists d1' d2' conn' me', fill_conn store d1 conn me i insub outs = Some (d1', conn', me') /\
    fill_conn store d2 conn me i insub outs = Some (d2', conn', me') /\ ds_sim E d1 d1' /\ ds_sim E d1' d2'.
Proof.
  induction outs as [|[o a] outs IH]; intros E d1 d2 conn me S Ho.
  - exists d1, d2, conn, me. split; [reflexivity|]. split; [reflexivity|]. split; [apply ds_sim_refl; apply S|exact S].
  - cbn [fill_conn]. destruct (find_root_sim E d1 d2 o S (Ho o a (or_introl eq_refl))) as (a1 & a2 & r & A1 & A2 & _ & As & At).
    rewrite A1, A2. cbn [dbind fst snd]. pose proof (ds_sim_size _ _ _ As) as Za.
    destruct (IH E a1 a2 (mm_insert insub r conn) (if store then me_set me (o, i) a else me) At) as (b1 & b2 & c' & m' & B1 & B2 & B3 & B4).
    { intros o' a' h. rewrite Za. apply (Ho o' a'). now right. }
    exists b1, b2, c', m'. split; [exact B1|]. split; [exact B2|]. split; [exact (ds_sim_trans _ _ _ _ As B3)|exact B4].
Qed.
Definition bounded (n : nat) op (st : list nat) : Prop := forall i o a, In i st -> In (o, a) (op i) -> o < n.
Lemma fill_all_sim store Cd C st : forall E d1 d2 c1 c2 m1 m2, ds_sim E d1 d2 ->
  (forall i, In i st -> i < ds_size d1) -> bounded (ds_size d1) Cd st -> bounded (ds_size d1) C st ->
  exists d1' d2' c1' c2' m1' m2', fill_all store Cd C d1 c1 c2 m1 m2 st = Some (d1', c1', c2', m1', m2') /\
    fill_all store Cd C d2 c1 c2 m1 m2 st = Some (d2', c1', c2', m1', m2') /\ ds_sim E d1 d1' /\ ds_sim E d1' d2'.
Proof.
  induction st as [|i st IH]; intros E d1 d2 c1 c2 m1 m2 S Hi H1 H2.
  - exists d1, d2, c1, c2, m1, m2. split; [reflexivity|]. split; [reflexivity|]. split; [apply ds_sim_refl; apply S|exact S].
  - cbn [fill_all]. destruct (find_root_sim E d1 d2 i S (Hi i (or_introl eq_refl))) as (a1 & a2 & r & A1 & A2 & _ & As & At).
    rewrite A1, A2. cbn [dbind fst snd]. pose proof (ds_sim_size _ _ _ As) as Za.
    destruct (fill_conn_sim store i r (Cd i) E a1 a2 c1 m1 At) as (b1 & b2 & c1' & m1' & B1 & B2 & Bs & Bt).
    { intros o a h. rewrite Za. apply (H1 i o a); auto. now left. }
    rewrite B1, B2. cbn [dbind fst snd]. pose proof (ds_sim_size _ _ _ Bs) as Zb.
    destruct (fill_conn_sim store i r (C i) E b1 b2 c2 m2 Bt) as (e1 & e2 & c2' & m2' & G1 & G2 & Gs & Gt).
    { intros o a h. rewrite Zb, Za. apply (H2 i o a); auto. now left. }
    rewrite G1, G2. cbn [dbind fst snd]. pose proof (ds_sim_size _ _ _ Gs) as Zg.
    destruct (IH E e1 e2 c1' c2' m1' m2' Gt) as (x1 & x2 & y1 & y2 & z1 & z2 & X1 & X2 & X3 & X4).
    { intros j h. rewrite Zg, Zb, Za. apply Hi. now right. }
    { intros j o a h h'. rewrite Zg, Zb, Za. apply (H1 j o a); auto. now right. }
    { intros j o a h h'. rewrite Zg, Zb, Za. apply (H2 j o a); auto. now right. }
    exists x1, x2, y1, y2, z1, z2. split; [exact X1|]. split; [exact X2|]. split; [|exact X4].
    exact (ds_sim_trans _ _ _ _ As (ds_sim_trans _ _ _ _ Bs (ds_sim_trans _ _ _ _ Gs X3))).
Qed.

(** ** interrupted loops *)
Definition per (store : bool) : nat := if store then 2 else 1.
Lemma fill_conn_c_spec store i insub outs : forall E k ds conn me, ds_inv E ds -> (forall o a, In (o, a) outs -> o < ds_size ds) ->
  exists ds', ds_sim E ds ds' /\
    (k < per store * length outs -> fill_conn_c store k ds conn me i insub outs = Some (ds', None)) /\
    (per store * length outs <= k -> exists conn' me', fill_conn store ds conn me i insub outs = Some (ds', conn', me') /\
       fill_conn_c store k ds conn me i insub outs = Some (ds', Some (k - per store * length outs, conn', me'))).
Proof.
  induction outs as [|[o a] outs IH]; intros E k ds conn me I Ho.
  - exists ds. split; [now apply ds_sim_refl|]. cbn [length fill_conn_c fill_conn]. rewrite Nat.mul_0_r. split; [lia|].
    intros _. exists conn, me. split; [reflexivity|]. now rewrite Nat.sub_0_r.
  - cbn [fill_conn_c fill_conn length].
    destruct (find_root_sim1 E ds o I (Ho o a (or_introl eq_refl))) as (d1 & r & F1 & _ & S1). rewrite F1. cbn [dbind fst snd].
    pose proof (ds_sim_size _ _ _ S1) as Z1.
    assert (forall o' a', In (o', a') outs -> o' < ds_size d1) as Ho'.
    { intros o' a' h. rewrite Z1. apply (Ho o' a'). now right. }
    destruct store; cbn [per] in *.
    + destruct k as [|[|k]]; cbn [tick].
      1,2: exists d1; split; [exact S1|]; split; [reflexivity|lia].
      destruct (IH E k d1 (mm_insert insub r conn) (me_set me (o, i) a) (proj1 (proj2 S1)) Ho') as (d' & Sd & P & Q).
      exists d'. split; [exact (ds_sim_trans _ _ _ _ S1 Sd)|]. split.
      * intros h. apply P. lia.
      * intros h. destruct Q as (c' & m' & Q1 & Q2); [lia|]. exists c', m'. split; [exact Q1|]. rewrite Q2. do 5 f_equal; lia.
    + destruct k as [|k]; cbn [tick].
      1: exists d1; split; [exact S1|]; split; [reflexivity|lia].
      destruct (IH E k d1 (mm_insert insub r conn) me (proj1 (proj2 S1)) Ho') as (d' & Sd & P & Q).
      exists d'. split; [exact (ds_sim_trans _ _ _ _ S1 Sd)|]. split.
      * intros h. apply P. lia.
      * intros h. destruct Q as (c' & m' & Q1 & Q2); [lia|]. exists c', m'. split; [exact Q1|]. rewrite Q2. do 5 f_equal; lia.
Qed.
Lemma fill_all_c_spec store Cd C st : forall E k ds c1 c2 m1 m2, ds_inv E ds ->
  (forall i, In i st -> i < ds_size ds) -> bounded (ds_size ds) Cd st -> bounded (ds_size ds) C st ->
  exists ds', ds_sim E ds ds' /\
    (k < fill_calls store Cd C st -> fill_all_c store k Cd C ds c1 c2 m1 m2 st = Some (ds', None)) /\
    (fill_calls store Cd C st <= k -> exists c1' c2' m1' m2', fill_all store Cd C ds c1 c2 m1 m2 st = Some (ds', c1', c2', m1', m2') /\
       fill_all_c store k Cd C ds c1 c2 m1 m2 st = Some (ds', Some (k - fill_calls store Cd C st, c1', c2', m1', m2'))).
Proof.
  induction st as [|i st IH]; intros E k ds c1 c2 m1 m2 I Hi H1 H2.
  - exists ds. split; [now apply ds_sim_refl|]. cbn [fill_all fill_all_c fill_calls map list_sum fold_right]. split; [unfold fill_calls; cbn; lia|].
    intros _. exists c1, c2, m1, m2. split; [reflexivity|]. unfold fill_calls. cbn. now rewrite Nat.sub_0_r.
  - cbn [fill_all fill_all_c].
    assert (fill_calls store Cd C (i :: st) = 3 + per store * length (Cd i) + per store * length (C i) + fill_calls store Cd C st) as FC.
    { unfold fill_calls, per. cbn [map list_sum fold_right]. change (fold_right Nat.add 0) with list_sum. destruct store; lia. }
    rewrite FC. clear FC.
    destruct k as [|k]; cbn [tick]. { exists ds. split; [now apply ds_sim_refl|]. split; [reflexivity|lia]. }
    destruct (find_root_sim1 E ds i I (Hi i (or_introl eq_refl))) as (d1 & r & F1 & _ & S1). rewrite F1. cbn [dbind fst snd].
    pose proof (ds_sim_size _ _ _ S1) as Z1.
    destruct k as [|k]; cbn [tick]. { exists d1. split; [exact S1|]. split; [reflexivity|lia]. }
    destruct (fill_conn_c_spec store i r (Cd i) E k d1 c1 m1 (proj1 (proj2 S1))) as (d2 & S2 & P & Q).
    { intros o a h. rewrite Z1. apply (H1 i o a); auto. now left. }
    pose proof (ds_sim_size _ _ _ S2) as Z2.
    destruct (Nat.lt_ge_cases k (per store * length (Cd i))) as [Lk|Gk].
    { rewrite (P Lk). cbn [dbind fst snd]. exists d2. split; [exact (ds_sim_trans _ _ _ _ S1 S2)|]. split; [reflexivity|lia]. }
    destruct (Q Gk) as (c1' & m1' & Q1 & Q2). rewrite Q1, Q2. cbn [dbind fst snd]. clear P Q Q2.
    remember (k - per store * length (Cd i)) as k1.
    destruct k1 as [|k1]; cbn [tick]. { exists d2. split; [exact (ds_sim_trans _ _ _ _ S1 S2)|]. split; [reflexivity|lia]. }
    destruct (fill_conn_c_spec store i r (C i) E k1 d2 c2 m2 (proj1 (proj2 S2))) as (d3 & S3 & P & Q).
    { intros o a h. rewrite Z2, Z1. apply (H2 i o a); auto. now left. }
    pose proof (ds_sim_size _ _ _ S3) as Z3.
    pose proof (ds_sim_trans _ _ _ _ S1 (ds_sim_trans _ _ _ _ S2 S3)) as S13.
    destruct (Nat.lt_ge_cases k1 (per store * length (C i))) as [Lk1|Gk1].
    { rewrite (P Lk1). cbn [dbind fst snd]. exists d3. split; [exact S13|]. split; [reflexivity|lia]. }
    destruct (Q Gk1) as (c2' & m2' & Q1' & Q2'). rewrite Q1', Q2'. cbn [dbind fst snd]. clear P Q Q2'.
    destruct (IH E (k1 - per store * length (C i)) d3 c1' c2' m1' m2' (proj1 (proj2 S3))) as (d4 & S4 & P & Q).
    { intros j h. rewrite Z3, Z2, Z1. apply Hi. now right. }
    { intros j o a h h'. rewrite Z3, Z2, Z1. apply (H1 j o a); auto. now right. }
    { intros j o a h h'. rewrite Z3, Z2, Z1. apply (H2 j o a); auto. now right. }
    exists d4. split; [exact (ds_sim_trans _ _ _ _ S13 S4)|]. split.
    + intros h. apply P. lia.
    + intros h. destruct Q as (x1 & x2 & y1 & y2 & X1 & X2); [lia|]. exists x1, x2, y1, y2. split; [exact X1|]. rewrite X2. do 7 f_equal; lia.
Qed.
End FILL.

(** ** the numbering loop *)
Lemma number_roots_sim st : forall E ds m, ds_inv E ds -> (forall x, In x st -> x < ds_size ds) ->
  exists ds' m', number_roots ds m st = Some (ds', m') /\ ds_sim E ds ds'.
Proof.
  induction st as [|n st IH]; intros E ds m I Hst.
  - exists ds, m. split; [reflexivity|now apply ds_sim_refl].
  - cbn [number_roots]. destruct (find_root_sim1 E ds n I (Hst n (or_introl eq_refl))) as (d1 & r & F1 & _ & S1). rewrite F1. cbn [dbind fst snd].
    destruct (IH E d1 (r2s_emplace m r) (proj1 (proj2 S1))) as (d' & m' & H & S').
    { intros x h. rewrite (ds_sim_size _ _ _ S1). apply Hst. now right. }
    exists d', m'. split; [exact H|exact (ds_sim_trans _ _ _ _ S1 S')].
Qed.
Lemma number_roots_app st1 : forall ds m st2, number_roots ds m (st1 ++ st2) =
  dbind (number_roots ds m st1) (fun r => number_roots (fst r) (snd r) st2).
Proof.
  induction st1 as [|n st1 IH]; intros ds m st2; [reflexivity|]. cbn [app number_roots].
  destruct (find_root ds n); [|reflexivity]. cbn [dbind]. apply IH.
Qed.
Lemma number_roots_ext st : forall ds m ds' m', number_roots ds m st = Some (ds', m') -> exists ex, m' = m ++ ex.
Proof.
  induction st as [|n st IH]; intros ds m ds' m' H.
  - injection H as <- <-. exists []. now rewrite app_nil_r.
  - cbn [number_roots] in H. destruct (find_root ds n) as [[d1 r]|]; [|discriminate]. cbn [dbind fst snd] in H.
    destruct (IH _ _ _ _ H) as [ex ->]. unfold r2s_emplace. destruct (r2s_find m r); [eauto|].
    rewrite <- app_assoc. eauto.
Qed.
Lemma number_roots_c_spec st : forall E k ds m, ds_inv E ds -> (forall x, In x st -> x < ds_size ds) ->
  (length st <= k -> exists ds' m', number_roots ds m st = Some (ds', m') /\ number_roots_c k ds m st = Some (ds', m', Some (k - length st))) /\
  (k < length st -> exists ds0 ds' m', number_roots ds m (firstn k st) = Some (ds0, m') /\ ds_sim E ds ds' /\
     number_roots_c k ds m st = Some (ds', m', None)).
Proof.
  induction st as [|n st IH]; intros E k ds m I Hst.
  - split; [|cbn; lia]. intros _. exists ds, m. split; [reflexivity|]. cbn. now rewrite Nat.sub_0_r.
  - cbn [number_roots number_roots_c length].
    destruct (find_root_sim1 E ds n I (Hst n (or_introl eq_refl))) as (d1 & r & F1 & _ & S1). rewrite F1. cbn [dbind fst snd].
    destruct k as [|k].
    + split; [lia|]. intros _. exists ds, d1, m. split; [reflexivity|]. split; [exact S1|reflexivity].
    + destruct (IH E k d1 (r2s_emplace m r) (proj1 (proj2 S1))) as [P Q].
      { intros x h. rewrite (ds_sim_size _ _ _ S1). apply Hst. now right. }
      split; intros h.
      * destruct P as (d' & m' & P1 & P2); [lia|]. exists d', m'. split; [exact P1|exact P2].
      * destruct Q as (d0 & d' & m' & Q1 & Q2 & Q3); [lia|]. exists d0, d', m'. cbn [firstn number_roots]. rewrite F1. cbn [dbind fst snd].
        split; [exact Q1|]. split; [exact (ds_sim_trans _ _ _ _ S1 Q2)|exact Q3].
Qed.
Lemma r2s_find_nth m r k : map snd m = seq 0 (length m) -> r2s_find m r = Some k -> exists p, nth_error m k = Some p /\ fst p = r /\ snd p = k.
Proof.
  assert (forall b, map snd m = seq b (length m) -> r2s_find m r = Some k -> b <= k /\ exists p, nth_error m (k - b) = Some p /\ fst p = r /\ snd p = k) as H.
  2: { intros Hs Hf. destruct (H 0 Hs Hf) as [_ K]. rewrite Nat.sub_0_r in K. exact K. }
  induction m as [|[r0 k0] m IH]; intros b Hs Hf; [discriminate|]. cbn [map length seq snd] in Hs. injection Hs as -> Hs.
  cbn [r2s_find] in Hf. destruct (Nat.eqb_spec r r0) as [->|N].
  - injection Hf as ->. split; [lia|]. rewrite Nat.sub_diag. exists (r0, k). auto.
  - destruct (IH (S b) Hs Hf) as [L [p [P1 P2]]]. split; [lia|]. exists p. replace (k - b) with (S (k - S b)) by lia. auto.
Qed.
Lemma r2s_find_prefix m ex r : map snd (m ++ ex) = seq 0 (length (m ++ ex)) -> NoDup (map fst (m ++ ex)) ->
  r2s_find m r = match r2s_find (m ++ ex) r with Some j => if j <? length m then Some j else None | None => None end.
Proof.
  intros Hs Hn. destruct (r2s_find (m ++ ex) r) as [j|] eqn:E.
  - destruct (r2s_find_nth _ _ _ Hs E) as [[r' j'] [P1 [P2 P3]]]. cbn [fst snd] in P2, P3. subst r' j'.
    rewrite map_app in Hn.
    assert (NoDup (map fst m)) as Hn'.
    { clear - Hn. induction (map fst m) as [|x l IH]; [constructor|]. cbn [app] in Hn. inversion Hn; subst. constructor; auto.
      intros K. apply H1. apply in_or_app. auto. }
    destruct (Nat.ltb_spec j (length m)) as [L|G].
    + rewrite nth_error_app1 in P1 by exact L. apply r2s_find_In; [exact Hn'|]. eapply nth_error_In; eauto.
    + rewrite nth_error_app2 in P1 by exact G. apply nth_error_In in P1. apply r2s_find_None. intros K.
      apply (in_map fst) in P1. cbn [fst] in P1. clear - Hn K P1.
      induction (map fst m) as [|x l IH]; [destruct K|]. cbn [app] in Hn. inversion Hn; subst. destruct K as [->|K]; [|auto].
      apply H1. apply in_or_app. auto.
  - apply r2s_find_None in E. apply r2s_find_None. intros K. apply E. rewrite map_app. apply in_or_app. auto.
Qed.

(** update_root_to_subspace: normal and interrupted *)
Lemma sp_label_raw E st ds m x r : ds_inv E ds -> rt (parents ds) x r ->
  label {| sp_states := st; sp_ds := ds; sp_r2s := m |} x = r2s_find m r.
Proof.
  intros I H. destruct (find_root_eq E ds x r I H) as [d' [Hf _]]. unfold label, sp_index. cbn [sp_ds sp_states sp_r2s].
  rewrite Hf. cbn [dbind fst snd]. destruct (r2s_find m r); reflexivity.
Qed.
Lemma update_c_spec E k st ds : ds_inv E ds -> (forall x, In x st -> x < ds_size ds) ->
  exists spn, update_root_to_subspace st ds = Some spn /\ sp_inv E spn /\ sp_states spn = st /\ ds_size (sp_ds spn) = ds_size ds /\
  (length st <= k -> update_c k st ds = Some (spn, Some (k - length st))) /\
  (k < length st -> exists sp', update_c k st ds = Some (sp', None) /\ sp_states sp' = st /\ ds_sim E (sp_ds spn) (sp_ds sp') /\
     (forall x, In x st -> label sp' x =
        match label spn x with Some j => if j <? n_subspaces sp' then Some j else None | None => None end) /\
     (forall j, j < n_subspaces sp' <-> exists x, In x (firstn k st) /\ label spn x = Some j)).
Proof.
  intros I Hst. destruct (update_spec E st ds I Hst) as [spn [U1 [U2 [U3 U4]]]].
  exists spn. split; [exact U1|]. split; [exact U2|]. split; [exact U3|]. split; [exact U4|].
  unfold update_root_to_subspace, compress_sets in U1. unfold update_c, compress_sets.
  destruct (compress_loop_spec E (ds_size ds) 0 ds I ltac:(lia)) as [d1 [H1 [I1 [Z1 _]]]]. rewrite H1 in *. cbn [dbind] in *.
  destruct (normalize_sets_spec E d1 I1) as [d2 [H2 [I2 Z2]]]. rewrite H2 in *. cbn [dbind] in *.
  assert (forall x, In x st -> x < ds_size d2) as Hst2 by (intros x h; rewrite Z2, Z1; auto).
  destruct (number_roots_c_spec st E k d2 [] I2 Hst2) as [P Q]. split; intros h.
  - destruct (P h) as (d' & m' & P1 & P2). rewrite P2. rewrite P1 in U1. cbn [dbind fst snd] in *. injection U1 as <-. reflexivity.
  - destruct (Q h) as (d0 & d' & m' & Q1 & Q2 & Q3). rewrite Q3. cbn [dbind fst snd]. clear P Q.
    rewrite <- (firstn_skipn k st) in U1 at 1. rewrite number_roots_app, Q1 in U1. cbn [dbind fst snd] in U1.
    destruct (number_roots d0 m' (skipn k st)) as [[d3 m3]|] eqn:N3; [|discriminate]. cbn [dbind fst snd] in U1. injection U1 as <-.
    destruct (number_roots_ext _ _ _ _ _ N3) as [ex Hex].
    (* everything has the roots of d2 *)
    destruct (number_roots_sim (firstn k st) E d2 [] I2) as (d0' & m'' & X1 & X2).
    { intros x hx. apply Hst2. rewrite <- (firstn_skipn k st). apply in_or_app. auto. }
    rewrite Q1 in X1. injection X1 as <- <-.
    destruct (number_roots_sim (skipn k st) E d0 m' (proj1 (proj2 X2))) as (d3' & m'' & Y1 & Y2).
    { intros x hx. rewrite (ds_sim_size _ _ _ X2). apply Hst2. rewrite <- (firstn_skipn k st). apply in_or_app. auto. }
    rewrite N3 in Y1. injection Y1 as <- <-.
    pose proof U2 as [V1 [V2 V3]]. cbn [sp_ds sp_states sp_r2s] in V1, V2, V3.
    pose proof V3 as [W1 [W2 _]].
    assert (ds_sim E d3 d') as S3'.
    { exact (ds_sim_trans _ _ _ _ (ds_sim_sym _ _ _ (ds_sim_trans _ _ _ _ X2 Y2)) Q2). }
    eexists. split; [reflexivity|]. cbn [sp_states sp_ds sp_r2s n_subspaces]. split; [reflexivity|]. split; [exact S3'|]. split.
    + intros x hx. destruct (inv_rt E d3 x V1 (V2 x hx)) as [r Hr].
      rewrite (sp_label_raw E st d' m' x r (proj1 (proj2 Q2))) by (now apply (ds_sim_rt _ _ _ _ _ S3')).
      rewrite (sp_label_raw E st d3 m3 x r V1 Hr). unfold n_subspaces. cbn [sp_r2s]. rewrite Hex. apply r2s_find_prefix; now rewrite <- Hex.
    + intros j. unfold n_subspaces. cbn [sp_r2s].
      destruct (number_roots_spec E (firstn k st) d2 [] [] I2) as [e0 [m0 [M1 [M2 [M3 [M4 [M5 _]]]]]]].
      { split; [reflexivity|]. split; [constructor|]. split.
        - intros r. cbn. split; [intros []|intros [n [[] _]]].
        - intros l1 x l2 r Hd. destruct l1; discriminate. }
      { intros x hx. apply Hst2. rewrite <- (firstn_skipn k st). apply in_or_app. auto. }
      rewrite Q1 in M1. injection M1 as <- <-. cbn [app] in M5.
      assert (forall x, In x (firstn k st) -> In x st) as Hin.
      { intros x hx. rewrite <- (firstn_skipn k st). apply in_or_app. auto. }
      split.
      * intros hj. destruct (num_label_surj _ _ _ _ M5 hj) as [r [R1 [n [R2 R3]]]]. exists n. split; [exact R2|].
        rewrite (sp_label_raw E st d3 m3 n r V1) by (now apply (ds_sim_rt _ _ _ _ _ Y2)).
        rewrite (r2s_find_prefix m' ex r) in R1 by (now rewrite <- Hex). rewrite <- Hex in R1.
        destruct (r2s_find m3 r) as [j'|]; [|discriminate]. destruct (j' <? length m'); congruence.
      * intros [x [hx Lx]]. destruct (inv_rt E d3 x V1 (V2 x (Hin x hx))) as [r Hr].
        rewrite (sp_label_raw E st d3 m3 x r V1 Hr) in Lx.
        assert (In r (map fst m')) as Hr'.
        { destruct M5 as [_ [_ [C _]]]. apply C. exists x. split; [exact hx|]. now apply (ds_sim_rt _ _ _ _ _ Y2). }
        destruct (r2s_find m' r) as [j'|] eqn:Ej; [|apply r2s_find_None in Ej; contradiction].
        pose proof Ej as Ej2. rewrite (r2s_find_prefix m' ex r) in Ej by (now rewrite <- Hex). rewrite <- Hex, Lx in Ej.
        destruct (Nat.ltb_spec j (length m')); [assumption|discriminate].
Qed.

Section MERGE.
Context {A : Type}.
Implicit Types (Cd C op : lop A).

Lemma op_on_bounded n st op : op_on st op -> (forall x, In x st -> x < n) -> bounded n op st.
Proof. intros H B i o a Hi Ho. apply B. apply (H i Hi). now exists a. Qed.

Lemma merge_spec2 E sp Cd C store : ds_inv E (sp_ds sp) -> (forall x, In x (sp_states sp) -> x < ds_size (sp_ds sp)) ->
  op_on (sp_states sp) Cd -> op_on (sp_states sp) C ->
  exists d1 c1 c2 m1 m2 d2 E' spn,
    ds_sim E (sp_ds sp) d1 /\ conn_ok d1 c1 /\ conn_ok d1 c2 /\
    fill_all store Cd C (sp_ds sp) [] [] [] [] (sp_states sp) = Some (d1, c1, c2, m1, m2) /\
    merge_until (S (n_sets d1)) d1 c1 c2 = Some d2 /\ ds_inv E' d2 /\ ds_size d2 = ds_size (sp_ds sp) /\
    update_root_to_subspace (sp_states sp) d2 = Some spn /\ merge_subspaces sp Cd C store = Some (spn, m1, m2).
Proof.
  intros Id Hst HCd HC.
  destruct (update_spec E (sp_states sp) (sp_ds sp) Id Hst) as [sq [U1 [U2 [U3 U4]]]].
  (* a valid partition with the same disjoint sets *)
  destruct (fill_all_sim store Cd C (sp_states sp) E (sp_ds sp) (sp_ds sp) [] [] [] [] (ds_sim_refl _ _ Id) Hst
    (op_on_bounded _ _ _ HCd Hst) (op_on_bounded _ _ _ HC Hst)) as (d1 & d1' & c1 & c2 & m1 & m2 & F1 & _ & S1 & _).
  destruct (fill_all_spec store Cd C (sp_states sp) E (sp_ds sp) [] [] [] [] Id Hst) as [e1 [cdc [cc [H1 [I1 [Z1 [N1 [R1 [So1 [So2 [In1 In2]]]]]]]]]]].
  { intros i o Hi Hl. apply Hst. now apply (HCd i Hi). }
  { intros i o Hi Hl. apply Hst. now apply (HC i Hi). }
  rewrite F1 in H1. injection H1 as <- <- <- Em1 Em2.
  assert (forall c, (forall p : nat * nat, In p c -> exists ri ro, (exists i, rt (parents (sp_ds sp)) i ri) /\ (exists o, rt (parents (sp_ds sp)) o ro) /\ p = (ri, ro)) -> conn_ok d1 c) as B.
  { intros c Hc k v Hk. destruct (Hc _ Hk) as (ri & ro & [i Hi] & [o Ho] & Ek). injection Ek as -> ->. rewrite Z1.
    split; [exact (rt_lt _ _ _ (rt_self _ _ _ Hi))|exact (rt_lt _ _ _ (rt_self _ _ _ Ho))]. }
  assert (conn_ok d1 c1) as B1.
  { apply B. intros p Hp. apply In1 in Hp. destruct Hp as [[]|(i & o & ri & ro & _ & _ & Q1 & Q2 & Q3)]. exists ri, ro. eauto. }
  assert (conn_ok d1 c2) as B2.
  { apply B. intros p Hp. apply In2 in Hp. destruct Hp as [[]|(i & o & ri & ro & _ & _ & Q1 & Q2 & Q3)]. exists ri, ro. eauto. }
  destruct (merge_until_spec (fun _ _ => True) c1 c2) with (fuel := S (n_sets d1)) (E := E) (ds := d1) as [d2 [E' [M1 [M2 [M3 _]]]]]; auto.
  { repeat split; auto. } { intros k v k' v' _ _ _; exact Logic.I. } { intros k v k' v' _ _ _; exact Logic.I. }
  { apply So1. constructor. } { apply So2. constructor. }
  destruct (update_spec E' (sp_states sp) d2 M2) as [spn [V1 [V2 [V3 V4]]]].
  { intros x Hx. rewrite M3, Z1. auto. }
  exists d1, c1, c2, m1, m2, d2, E', spn. split; [exact S1|]. split; [exact B1|]. split; [exact B2|]. split; [exact F1|].
  split; [exact M1|]. split; [exact M2|]. split; [lia|]. split; [exact V1|].
  unfold merge_subspaces. rewrite F1. cbn [dbind]. rewrite M1. cbn [dbind]. rewrite V1. reflexivity.
Qed.

(** partitions whose disjoint sets differ by path compression only behave the same *)
Lemma n_subspaces_labels E1 E2 sp1 sp2 : sp_inv E1 sp1 -> sp_inv E2 sp2 -> sp_states sp2 = sp_states sp1 ->
  (forall x, In x (sp_states sp1) -> label sp1 x = label sp2 x) -> n_subspaces sp1 = n_subspaces sp2.
Proof.
  intros I1 I2 Hs H.
  assert (forall j, j < n_subspaces sp1 <-> j < n_subspaces sp2) as Q.
  { intros j. split; intros h.
    - destruct (label_surj E1 sp1 j I1 h) as [x [Hx Lx]]. rewrite (H x Hx) in Lx. rewrite <- Hs in Hx.
      destruct (label_defined E2 sp2 x I2 Hx) as [s [k [_ [K1 [K2 _]]]]]. congruence.
    - destruct (label_surj E2 sp2 j I2 h) as [x [Hx Lx]]. rewrite Hs in Hx. rewrite <- (H x Hx) in Lx.
      destruct (label_defined E1 sp1 x I1 Hx) as [s [k [_ [K1 [K2 _]]]]]. congruence. }
  destruct (Nat.lt_trichotomy (n_subspaces sp1) (n_subspaces sp2)) as [h|[h|h]]; auto; apply Q in h; lia.
Qed.
Lemma merge_sim E sp1 sp2 Cd C store : ds_sim E (sp_ds sp1) (sp_ds sp2) -> sp_states sp2 = sp_states sp1 ->
  (forall x, In x (sp_states sp1) -> x < ds_size (sp_ds sp1)) -> op_on (sp_states sp1) Cd -> op_on (sp_states sp1) C ->
  exists spa spb m1 m2 E', merge_subspaces sp1 Cd C store = Some (spa, m1, m2) /\ merge_subspaces sp2 Cd C store = Some (spb, m1, m2) /\
    sp_inv E' spa /\ sp_inv E' spb /\ sp_states spa = sp_states sp1 /\ sp_states spb = sp_states sp1 /\
    (forall x, In x (sp_states sp1) -> label spa x = label spb x) /\ n_subspaces spa = n_subspaces spb.
Proof.
  intros S Hs Hst HCd HC.
  destruct (merge_spec2 E sp1 Cd C store (proj1 S) Hst HCd HC) as (d1 & c1 & c2 & m1 & m2 & d2 & E1 & spa & S1 & B1 & B2 & F1 & M1 & I2 & Z2 & U1 & MS).
  destruct (fill_all_sim store Cd C (sp_states sp1) E (sp_ds sp1) (sp_ds sp2) [] [] [] [] S Hst
    (op_on_bounded _ _ _ HCd Hst) (op_on_bounded _ _ _ HC Hst)) as (x1 & x2 & y1 & y2 & z1 & z2 & X1 & X2 & _ & X4).
  rewrite F1 in X1. injection X1 as <- <- <- <- <-.
  destruct (merge_until_sim _ c1 c2 E d1 x2 X4 B1 B2 d2 M1) as (e2 & E' & G1 & G2 & G3).
  assert (forall x, In x (sp_states sp1) -> x < ds_size d2) as Hst2 by (intros x h; rewrite Z2; auto).
  destruct (update_spec E' (sp_states sp1) d2 (proj1 G2) Hst2) as [spa' [V1 [V2 [V3 V4]]]].
  rewrite U1 in V1. injection V1 as <-.
  destruct (update_spec E' (sp_states sp1) e2 (proj1 (proj2 G2))) as [spb [W1 [W2 [W3 W4]]]].
  { intros x h. rewrite (ds_sim_size _ _ _ G2). auto. }
  assert (forall x, In x (sp_states sp1) -> label spa x = label spb x) as L.
  { intros x Hx. apply (label_unique E' E' spa spb V2 W2); [congruence|reflexivity|congruence]. }
  exists spa, spb, m1, m2, E'. split; [exact MS|]. split.
  - unfold merge_subspaces. rewrite Hs, X2. cbn [dbind]. destruct X4 as [_ [_ [_ [_ N]]]]. rewrite N, G1. cbn [dbind].
    rewrite W1. reflexivity.
  - split; [exact V2|]. split; [exact W2|]. split; [exact V3|]. split; [exact W3|]. split; [exact L|].
    apply (n_subspaces_labels E' E' spa spb V2 W2); [congruence|]. rewrite V3. exact L.
Qed.

Lemma merge_c_spec E sp Cd C store k : sp_inv E sp -> op_on (sp_states sp) Cd -> op_on (sp_states sp) C ->
  let F := fill_calls store Cd C (sp_states sp) in let N := length (sp_states sp) in
  exists spn m1 m2 E', merge_subspaces sp Cd C store = Some (spn, m1, m2) /\ sp_inv E' spn /\ sp_states spn = sp_states sp /\
  (k < F -> exists sp', merge_subspaces_c k sp Cd C store = Some (sp', None) /\ sp_inv E sp' /\ sp_eq sp sp' /\
     ds_sim E (sp_ds sp) (sp_ds sp')) /\
  (F <= k < F + N -> exists sp', merge_subspaces_c k sp Cd C store = Some (sp', None) /\ sp_states sp' = sp_states sp /\
     ds_sim E' (sp_ds spn) (sp_ds sp') /\
     (forall x, In x (sp_states sp) -> label sp' x =
        match label spn x with Some j => if j <? n_subspaces sp' then Some j else None | None => None end) /\
     (forall j, j < n_subspaces sp' <-> exists x, In x (firstn (k - F) (sp_states sp)) /\ label spn x = Some j)) /\
  (k = F + N -> merge_subspaces_c k sp Cd C store = Some (spn, None)) /\
  (F + N < k -> merge_subspaces_c k sp Cd C store = Some (spn, Some (m1, m2))).
Proof.
  intros I HCd HC F N. pose proof I as [Id [Hst Hm]].
  destruct (merge_spec2 E sp Cd C store Id Hst HCd HC) as (d1 & c1 & c2 & m1 & m2 & d2 & E' & spn & S1 & B1 & B2 & F1 & M1 & I2 & Z2 & U1 & MS).
  assert (forall x, In x (sp_states sp) -> x < ds_size d2) as Hst2 by (intros x h; rewrite Z2; auto).
  destruct (update_c_spec E' (k - F) (sp_states sp) d2 I2 Hst2) as [spn' [U1' [U2 [U3 [U4 [U5 U6]]]]]].
  rewrite U1 in U1'. injection U1' as <-.
  exists spn, m1, m2, E'. split; [exact MS|]. split; [exact U2|]. split; [exact U3|].
  destruct (fill_all_c_spec store Cd C (sp_states sp) E k (sp_ds sp) [] [] [] [] Id Hst
    (op_on_bounded _ _ _ HCd Hst) (op_on_bounded _ _ _ HC Hst)) as (e1 & Se & P & Q). fold F in P, Q.
  unfold merge_subspaces_c. split; [|split; [|split]]; intros h.
  - rewrite (P h). cbn [dbind fst snd]. eexists. split; [reflexivity|]. unfold sp_inv, sp_eq. cbn [sp_ds sp_states sp_r2s].
    destruct Se as [_ [Ie [Sr [Rk Ns]]]]. split; [|split; [|unfold ds_sim; auto]].
    + split; [exact Ie|]. split; [intros x hx; unfold ds_size; rewrite (proj1 Sr); now apply Hst|].
      apply num_ok_ext with (parents (sp_ds sp)); [|exact Hm]. intros. apply same_roots_rt; [apply Id|exact Sr].
    + auto.
  - destruct (Q (proj1 h)) as (x1 & x2 & y1 & y2 & X1 & X2). rewrite F1 in X1. injection X1 as <- <- <- <- <-.
    rewrite X2. cbn [dbind fst snd]. rewrite M1. cbn [dbind].
    destruct U6 as (sp' & V1 & V2 & V3 & V4 & V5); [unfold N in h; lia|]. rewrite V1. cbn [dbind fst snd].
    exists sp'. auto.
  - destruct Q as (x1 & x2 & y1 & y2 & X1 & X2); [lia|]. rewrite F1 in X1. injection X1 as <- <- <- <- <-.
    rewrite X2. cbn [dbind fst snd]. rewrite M1. cbn [dbind].
    rewrite U5 by (unfold N in h; lia). cbn [dbind fst snd]. replace (k - F - length (sp_states sp)) with 0 by (unfold N in h; lia). reflexivity.
  - destruct Q as (x1 & x2 & y1 & y2 & X1 & X2); [lia|]. rewrite F1 in X1. injection X1 as <- <- <- <- <-.
    rewrite X2. cbn [dbind fst snd]. rewrite M1. cbn [dbind].
    rewrite U5 by (unfold N in h; lia). cbn [dbind fst snd]. destruct (k - F - length (sp_states sp)) eqn:Ek; [unfold N in h; lia|]. reflexivity.
Qed.
End MERGE.

Section CONSTRUCT.
Context {A : Type}.
Implicit Types (outs : list (nat * A)) (h : lop A).

Definition store_all (me : me_map A) (l : list ((nat * nat) * A)) : me_map A :=
  fold_left (fun m p => me_set m (fst p) (snd p)) l me.

Lemma store_all_none l : forall (me : me_map A) key, ~ In key (map fst l) -> me_find (store_all me l) key = me_find me key.
Proof.
  induction l as [|[k a] l IH]; intros me key H; [reflexivity|]. cbn [store_all fold_left fst snd] in *.
  change (fold_left _ l ?m) with (store_all m l). rewrite IH by (intros K; apply H; now right).
  rewrite me_find_set. destruct (pair_eqb_spec key k) as [->|]; [exfalso; apply H; now left|reflexivity].
Qed.
Lemma store_all_some l : forall (me : me_map A) key a, (forall b, In (key, b) l -> b = a) -> In (key, a) l -> me_find (store_all me l) key = Some a.
Proof.
  induction l as [|[k a0] l IH]; intros me key a Hf Hi; [destruct Hi|]. cbn [store_all fold_left fst snd].
  change (fold_left _ l ?m) with (store_all m l).
  destruct (in_dec (fun x y : nat * nat => ltac:(repeat decide equality)) key (map fst l)) as [i|n].
  - apply in_map_iff in i. destruct i as [[k' b] [E i]]. cbn [fst] in E. subst k'.
    pose proof (Hf b (or_intror i)) as ->. apply IH; auto. intros b' h. apply Hf. now right.
  - rewrite store_all_none by exact n. destruct Hi as [Hi|Hi]; [|exfalso; apply n; now apply (in_map fst) in Hi].
    injection Hi as -> ->. rewrite me_find_set. destruct (pair_eqb_spec key key); congruence.
Qed.

Lemma link_targets_c_spec i outs : forall E k ds (me : me_map A), ds_inv E ds -> i < ds_size ds -> (forall o a, In (o, a) outs -> o < ds_size ds) ->
  (k < length outs -> link_targets_c k ds me i outs = Some (store_all me (map (fun p => ((fst p, i), snd p)) (firstn k outs)), None)) /\
  (length outs <= k -> exists ds' E', link_targets ds i outs = Some ds' /\ ds_inv E' ds' /\ ds_size ds' = ds_size ds /\
     link_targets_c k ds me i outs = Some (store_all me (map (fun p => ((fst p, i), snd p)) outs), Some (k - length outs, ds'))).
Proof.
  induction outs as [|[o a] outs IH]; intros E k ds me I Hi Ho.
  - split; [cbn; lia|]. intros _. exists ds, E. cbn. rewrite Nat.sub_0_r. auto.
  - cbn [link_targets_c link_targets length]. destruct (set_union_spec E ds i o I Hi (Ho o a (or_introl eq_refl))) as (d1 & r & F1 & I1 & Z1).
    rewrite F1. cbn [dbind fst snd]. destruct k as [|k]; cbn [tick].
    + split; [reflexivity|lia].
    + destruct (IH _ k d1 (me_set me (o, i) a) I1) as [P Q].
      { lia. } { intros o' a' h'. rewrite Z1. apply (Ho o' a'). now right. }
      split; intros hk.
      * rewrite P by lia. reflexivity.
      * destruct Q as (d' & E' & Q1 & Q2 & Q3 & Q4); [lia|]. exists d', E'. split; [exact Q1|]. split; [exact Q2|]. split; [lia|]. exact Q4.
Qed.
Lemma store_all_app l1 l2 (me : me_map A) : store_all me (l1 ++ l2) = store_all (store_all me l1) l2.
Proof. apply fold_left_app. Qed.
Lemma phase1_c_spec h st : forall E k ds (me : me_map A), ds_inv E ds -> (forall i, In i st -> i < ds_size ds) -> bounded (ds_size ds) h st ->
  exists n, n <= length (elements h st) /\
  (k < phase1_calls h st -> phase1_c k h ds me st = Some (store_all me (firstn n (elements h st)), None)) /\
  (phase1_calls h st <= k -> n = length (elements h st) /\ exists ds' E', ds_inv E' ds' /\ ds_size ds' = ds_size ds /\
     (exists me', phase1 h ds me st = Some (ds', me')) /\
     phase1_c k h ds me st = Some (store_all me (elements h st), Some (k - phase1_calls h st, ds'))).
Proof.
  induction st as [|i st IH]; intros E k ds me I Hi Hb.
  - exists 0. split; [cbn; lia|]. split; [unfold phase1_calls; cbn; lia|]. intros _. split; [reflexivity|]. exists ds, E.
    split; [exact I|]. split; [reflexivity|]. split; [now exists me|]. unfold phase1_calls. cbn. now rewrite Nat.sub_0_r.
  - cbn [phase1_c phase1]. assert (phase1_calls h (i :: st) = 2 + length (h i) + phase1_calls h st) as FC by reflexivity. rewrite FC. clear FC.
    assert (elements h (i :: st) = map (fun p => ((fst p, i), snd p)) (h i) ++ elements h st) as FE by reflexivity. rewrite FE. clear FE.
    set (here := map (fun p : nat * A => ((fst p, i), snd p)) (h i)).
    assert (length here = length (h i)) as Lh by apply map_length.
    destruct k as [|[|k]]; cbn [tick].
    1,2: exists 0; split; [lia|]; split; [reflexivity|lia].
    destruct (link_targets_c_spec i (h i) E k ds me I (Hi i (or_introl eq_refl))) as [P Q].
    { intros o a ho. apply (Hb i o a); auto. now left. }
    destruct (Nat.lt_ge_cases k (length (h i))) as [L|G].
    + exists k. rewrite app_length. split; [lia|]. split; [|lia]. intros _. rewrite (P L). cbn [dbind fst snd].
      rewrite firstn_app, Lh. replace (k - length (h i)) with 0 by lia. rewrite firstn_O, app_nil_r.
      unfold here. now rewrite <- firstn_map.
    + destruct (Q G) as (d1 & E1 & Q1 & Q2 & Q3 & Q4). rewrite Q4, Q1. cbn [dbind fst snd]. fold here.
      destruct (IH E1 (k - length (h i)) d1 (store_all me here) Q2) as (n & Hn & P' & Q').
      { intros j hj. rewrite Q3. apply Hi. now right. } { intros j o a hj ho. rewrite Q3. apply (Hb j o a); auto. now right. }
      exists (length here + n). rewrite app_length. split; [lia|]. split; intros hk.
      * rewrite P' by lia. now rewrite firstn_app_2, store_all_app.
      * destruct Q' as (En & d' & E' & R1 & R2 & [me' R3] & R4); [lia|]. split; [lia|]. exists d', E'. split; [exact R1|]. split; [lia|].
        split.
        { assert (forall s (d : dsets) (e e2 : me_map A) dd ee, phase1 h d e s = Some (dd, ee) -> exists ee2, phase1 h d e2 s = Some (dd, ee2)) as EI.
          { clear. induction s as [|j s IHs]; intros d e e2 dd ee H; cbn [phase1] in *; [injection H as <- <-; eauto|].
            destruct (link_targets d j (h j)); [|discriminate]. cbn [dbind] in *. eapply IHs; eauto. }
          exact (EI _ _ _ (me_store me i (h i)) _ _ R3). }
        rewrite R4, store_all_app. do 4 f_equal. lia.
Qed.
End CONSTRUCT.
