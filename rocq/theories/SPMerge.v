From Coq Require Import List Bool Arith Lia Relations Sorted.
From Verif Require Import DSModel DSSpec DSProofs SPModel SPSpec SPProofs.
Import ListNotations.

Section Gen.
Context {A : Type}.
Implicit Types (h op Cd C : lop A) (me : me_map A).

(** ** phase I *)
Lemma link_targets_spec outs : forall E ds i, ds_inv E ds -> i < ds_size ds ->
  (forall o (a : A), In (o, a) outs -> o < ds_size ds) ->
  exists ds' E', link_targets ds i outs = Some ds' /\ ds_inv E' ds' /\ ds_size ds' = ds_size ds /\
    (forall e, In e E' <-> In e E \/ exists o a, In (o, a) outs /\ e = (i, o)).
Proof.
  induction outs as [|[o a] outs IH]; intros E ds i I Hi Ho.
  - exists ds, E. split; [reflexivity|]. split; [exact I|]. split; [reflexivity|].
    intros e. split; [auto|]. intros [H|[o [a [[] _]]]]; exact H.
  - cbn [link_targets]. destruct (set_union_spec E ds i o I Hi (Ho o a (or_introl eq_refl))) as [d1 [r [H1 [I1 Z1]]]].
    rewrite H1. cbn [dbind fst].
    destruct (IH ((i, o) :: E) d1 i I1 ltac:(lia)) as [ds' [E' [H2 [I2 [Z2 HE]]]]].
    + intros o' a' H. rewrite Z1. apply (Ho o' a'). now right.
    + exists ds', E'. split; [exact H2|]. split; [exact I2|]. split; [congruence|].
      intros e. rewrite HE. cbn [In]. split.
      * intros [[<-|H]|[o' [a' [H ->]]]]; [right; exists o, a; auto|now left|right; exists o', a'; auto].
      * intros [H|[o' [a' [[K|H] ->]]]]; [left; now right|injection K as <- <-; left; now left|right; exists o', a'; auto].
Qed.
Lemma phase1_spec h st : forall E ds me, ds_inv E ds -> (forall i, In i st -> i < ds_size ds) ->
  (forall i o, In i st -> links h i o -> o < ds_size ds) ->
  exists ds' me' E', phase1 h ds me st = Some (ds', me') /\ ds_inv E' ds' /\ ds_size ds' = ds_size ds /\
    (forall e, In e E' <-> In e E \/ exists i o, In i st /\ links h i o /\ e = (i, o)).
Proof.
  induction st as [|i st IH]; intros E ds me I Hst Ho.
  - exists ds, me, E. split; [reflexivity|]. split; [exact I|]. split; [reflexivity|].
    intros e; split; [auto|]. intros [H|[x [y [[] _]]]]; exact H.
  - cbn [phase1].
    destruct (link_targets_spec (h i) E ds i I (Hst i (or_introl eq_refl))) as [d1 [E1 [H1 [I1 [Z1 HE1]]]]].
    { intros o a H. apply (Ho i o (or_introl eq_refl)). now exists a. }
    rewrite H1. cbn [dbind].
    destruct (IH E1 d1 (me_store me i (h i)) I1) as [ds' [me' [E' [H2 [I2 [Z2 HE2]]]]]].
    { intros x Hx. rewrite Z1. apply Hst. now right. }
    { intros x o Hx Hl. rewrite Z1. apply (Ho x o); auto. now right. }
    exists ds', me', E'. split; [exact H2|]. split; [exact I2|]. split; [congruence|].
    intros e. rewrite HE2, HE1. cbn [In]. split.
    + intros [[H|[o [a [H ->]]]]|[x [o [H1' [H2' ->]]]]].
      * now left.
      * right. exists i, o. split; [now left|]. split; [now exists a|reflexivity].
      * right. exists x, o. auto.
    + intros [H|[x [o [[<-|Hx] [Hl ->]]]]].
      * auto.
      * destruct Hl as [a Ha]. left. right. exists o, a. auto.
      * right. exists x, o. auto.
Qed.

(** matrix elements *)
Lemma me_store_other outs : forall me i o' i', ~ (i' = i /\ In o' (map fst outs)) ->
  me_find (me_store me i outs) (o', i') = me_find me (o', i').
Proof.
  induction outs as [|[o a] outs IH]; intros me i o' i' H; [reflexivity|]. cbn [me_store].
  rewrite IH.
  - rewrite me_find_set. destruct (pair_eqb_spec (o', i') (o, i)) as [K|]; [|reflexivity].
    injection K as -> ->. exfalso. apply H. split; [reflexivity|now left].
  - intros [K1 K2]. apply H. split; [exact K1|]. now right.
Qed.
Lemma me_store_in outs : forall me i o a, NoDup (map fst outs) -> In (o, a) outs ->
  me_find (me_store me i outs) (o, i) = Some a.
Proof.
  induction outs as [|[o0 a0] outs IH]; intros me i o a Hnd H; [destruct H|]. cbn [me_store].
  inversion Hnd as [|? ? Hn Hnd']; subst. destruct H as [H|H].
  - injection H as -> ->. rewrite me_store_other by (intros [_ K]; contradiction).
    rewrite me_find_set. destruct (pair_eqb_spec (o, i) (o, i)); congruence.
  - now apply IH.
Qed.
Lemma in_fst (outs : list (nat * A)) o : In o (map fst outs) <-> exists a, In (o, a) outs.
Proof.
  rewrite in_map_iff. split; [intros [[o' a] [<- H]]; eauto|intros [a H]; now exists (o, a)].
Qed.
Lemma phase1_me h st : forall ds me ds' me', (forall i, In i st -> NoDup (map fst (h i))) ->
  phase1 h ds me st = Some (ds', me') -> forall i o,
  (forall a, In i st -> In (o, a) (h i) -> me_find me' (o, i) = Some a) /\
  (~ (In i st /\ links h i o) -> me_find me' (o, i) = me_find me (o, i)).
Proof.
  induction st as [|j st IH]; intros ds me ds' me' Hnd H i o.
  - injection H as <- <-. split; [intros a []|reflexivity].
  - cbn [phase1] in H. destruct (link_targets ds j (h j)) as [d1|]; [|discriminate]. cbn [dbind] in H.
    destruct (IH _ _ _ _ (fun x Hx => Hnd x (or_intror Hx)) H i o) as [H1 H2]. split.
    + intros a Hi Ha. destruct (in_dec Nat.eq_dec i st) as [Hin|Hni]; [now apply H1|].
      destruct Hi as [->|Hi]; [|contradiction]. rewrite H2 by tauto.
      apply me_store_in; [apply Hnd; now left|exact Ha].
    + intros Hn. rewrite H2 by (intros [K1 K2]; apply Hn; split; [now right|exact K2]).
      apply me_store_other. intros [-> K]. apply Hn. split; [now left|]. now apply in_fst in K.
Qed.

(** ** constructor *)
Lemma sp_construct_spec d states h me :
  (forall x, In x states -> x < d) -> (forall x y, In x states -> links h x y -> y < d) ->
  exists sp me' E, sp_construct d states h me = Some (sp, me') /\ sp_inv E sp /\ sp_states sp = states /\
    ds_size (sp_ds sp) = d /\
    (forall a b, connected E a b <-> h_connected states h a b) /\
    exists ds0, phase1 h (ds_init d) me states = Some (ds0, me').
Proof.
  intros Hst Hh. unfold sp_construct.
  assert (ds_size (ds_init d) = d) as Z0 by (unfold ds_size, ds_init; cbn; apply seq_length).
  destruct (phase1_spec h states [] (ds_init d) me (ds_init_inv d)) as [d1 [me1 [E [H1 [I1 [Z1 HE]]]]]].
  { intros x Hx. rewrite Z0. auto. }
  { intros x y Hx Hl. rewrite Z0. eauto. }
  rewrite H1. cbn [dbind fst snd].
  destruct (update_spec E states d1 I1) as [sp [H2 [I2 [Hs Z2]]]].
  { intros x Hx. rewrite Z1, Z0. auto. }
  rewrite H2. cbn [dbind]. exists sp, me1, E. split; [reflexivity|]. split; [exact I2|]. split; [exact Hs|].
  split; [congruence|]. split; [|now exists d1].
  intros a b. unfold connected, h_connected. split; apply clos_rst_ext; intros x y H.
  - apply HE in H. destruct H as [[]|[i [o [K1 [K2 K3]]]]]. injection K3 as -> ->. auto.
  - apply HE. right. exists x, y. destruct H. auto.
Qed.

(** ** merging *)
Definition key_le (p q : nat * nat) : Prop := fst p <= fst q.
Lemma mm_insert_in k v l p : In p (mm_insert k v l) <-> p = (k, v) \/ In p l.
Proof.
  induction l as [|[k' v'] l IH]; cbn [mm_insert]; [cbn; intuition|].
  destruct (k <? k'); cbn [In]; [intuition|]. rewrite IH. intuition.
Qed.
Lemma mm_insert_sorted k v l : StronglySorted key_le l -> StronglySorted key_le (mm_insert k v l).
Proof.
  induction l as [|[k' v'] l IH]; intros H; cbn [mm_insert]; [repeat constructor|].
  inversion H as [|? ? Hs Hf]; subst. destruct (Nat.ltb_spec k k') as [Hlt|Hge].
  - constructor; [exact H|]. constructor; [unfold key_le; cbn; lia|].
    eapply Forall_impl; [|exact Hf]. intros q Hq. unfold key_le in *. cbn in *. lia.
  - constructor; [now apply IH|]. apply Forall_forall. intros q Hq. apply mm_insert_in in Hq.
    destruct Hq as [->|Hq]; [unfold key_le; cbn; lia|]. rewrite Forall_forall in Hf. now apply Hf.
Qed.

Lemma fill_conn_spec store i insub outs : forall E ds conn me, ds_inv E ds ->
  (forall o (a : A), In (o, a) outs -> o < ds_size ds) ->
  exists ds' conn' me', fill_conn store ds conn me i insub outs = Some (ds', conn', me') /\
    ds_inv E ds' /\ ds_size ds' = ds_size ds /\ n_sets ds' = n_sets ds /\ same_roots (parents ds) (parents ds') /\
    (StronglySorted key_le conn -> StronglySorted key_le conn') /\
    (forall p, In p conn' <-> In p conn \/ exists o a r, In (o, a) outs /\ rt (parents ds) o r /\ p = (insub, r)) /\
    me' = if store then me_store me i outs else me.
Proof.
  induction outs as [|[o a] outs IH]; intros E ds conn me I Ho.
  - exists ds, conn, me. split; [reflexivity|]. split; [exact I|]. split; [reflexivity|]. split; [reflexivity|].
    split; [apply same_roots_refl|]. split; [auto|]. split; [|destruct store; reflexivity].
    intros p. split; [auto|]. intros [H|[x [y [r [[] _]]]]]; exact H.
  - cbn [fill_conn]. destruct (find_root_rt E ds o I (Ho o a (or_introl eq_refl))) as [d1 [r [Hf [Hr [I1 [S1 [Z1 N1]]]]]]].
    rewrite Hf. cbn [dbind fst snd].
    destruct (IH E d1 (mm_insert insub r conn) (if store then me_set me (o, i) a else me) I1)
      as [ds' [conn' [me' [H2 [I2 [Z2 [N2 [S2 [Hso [Hin Hme]]]]]]]]]].
    { intros o' a' H. rewrite Z1. apply (Ho o' a'). now right. }
    exists ds', conn', me'. split; [exact H2|]. split; [exact I2|]. split; [congruence|]. split; [congruence|].
    split; [eapply same_roots_trans; eauto|]. split; [intros K; apply Hso; now apply mm_insert_sorted|].
    split; [|subst me'; destruct store; reflexivity].
    pose proof I as [F _]. intros p. rewrite Hin, mm_insert_in. split.
    + intros [[->|H]|[o' [a' [r' [K1 [K2 ->]]]]]].
      * right. exists o, a, r. split; [now left|]. auto.
      * now left.
      * right. exists o', a', r'. split; [now right|]. split; [|reflexivity]. now apply (same_roots_rt _ _ _ _ F S1).
    + intros [H|[o' [a' [r' [[K|K1] [K2 ->]]]]]].
      * left. now right.
      * injection K as <- <-. left. left. now rewrite (rt_det _ _ _ _ Hr K2).
      * right. exists o', a', r'. split; [exact K1|]. split; [|reflexivity]. now apply (same_roots_rt _ _ _ _ F S1).
Qed.

Fixpoint me_all store op (me : me_map A) (st : list nat) : me_map A :=
  match st with [] => me | i :: st' => me_all store op (if store : bool then me_store me i (op i) else me) st' end.

Lemma fill_all_spec store Cd C st : forall E ds cdc cc cdm cm, ds_inv E ds ->
  (forall i, In i st -> i < ds_size ds) ->
  (forall i o, In i st -> links Cd i o -> o < ds_size ds) -> (forall i o, In i st -> links C i o -> o < ds_size ds) ->
  exists ds' cdc' cc', fill_all store Cd C ds cdc cc cdm cm st = Some (ds', cdc', cc', me_all store Cd cdm st, me_all store C cm st) /\
    ds_inv E ds' /\ ds_size ds' = ds_size ds /\ n_sets ds' = n_sets ds /\ same_roots (parents ds) (parents ds') /\
    (StronglySorted key_le cdc -> StronglySorted key_le cdc') /\ (StronglySorted key_le cc -> StronglySorted key_le cc') /\
    (forall p, In p cdc' <-> In p cdc \/ exists i o ri ro, In i st /\ links Cd i o /\ rt (parents ds) i ri /\ rt (parents ds) o ro /\ p = (ri, ro)) /\
    (forall p, In p cc' <-> In p cc \/ exists i o ri ro, In i st /\ links C i o /\ rt (parents ds) i ri /\ rt (parents ds) o ro /\ p = (ri, ro)).
Proof.
  induction st as [|i st IH]; intros E ds cdc cc cdm cm I Hst HCd HC.
  - exists ds, cdc, cc. split; [reflexivity|]. split; [exact I|]. split; [reflexivity|]. split; [reflexivity|].
    split; [apply same_roots_refl|]. split; [auto|]. split; [auto|].
    split; intros p; (split; [auto|]); intros [H|[x [o [ri [ro [[] _]]]]]]; exact H.
  - cbn [fill_all]. destruct (find_root_rt E ds i I (Hst i (or_introl eq_refl))) as [d1 [r [Hf [Hr [I1 [S1 [Z1 N1]]]]]]].
    rewrite Hf. cbn [dbind fst snd].
    destruct (fill_conn_spec store i r (Cd i) E d1 cdc cdm I1) as [d2 [cdc1 [cdm1 [H2 [I2 [Z2 [N2 [S2 [So2 [In2 ->]]]]]]]]]].
    { intros o a H. rewrite Z1. apply (HCd i o (or_introl eq_refl)). now exists a. }
    rewrite H2. cbn [dbind fst snd].
    destruct (fill_conn_spec store i r (C i) E d2 cc cm I2) as [d3 [cc1 [cm1 [H3 [I3 [Z3 [N3 [S3 [So3 [In3 ->]]]]]]]]]].
    { intros o a H. rewrite Z2, Z1. apply (HC i o (or_introl eq_refl)). now exists a. }
    rewrite H3. cbn [dbind fst snd].
    destruct (IH E d3 cdc1 cc1 (if store then me_store cdm i (Cd i) else cdm) (if store then me_store cm i (C i) else cm) I3)
      as [ds' [cdc' [cc' [H4 [I4 [Z4 [N4 [S4 [So4 [So4' [In4 In4']]]]]]]]]]].
    { intros x Hx. rewrite Z3, Z2, Z1. apply Hst. now right. }
    { intros x o Hx Hl. rewrite Z3, Z2, Z1. apply (HCd x o); auto. now right. }
    { intros x o Hx Hl. rewrite Z3, Z2, Z1. apply (HC x o); auto. now right. }
    pose proof (same_roots_trans _ _ _ S1 S2) as S12. pose proof (same_roots_trans _ _ _ S12 S3) as S123.
    pose proof I as [F _].
    assert (forall x q, rt (parents ds) x q <-> rt (parents d1) x q) as R1 by (intros; now apply same_roots_rt).
    assert (forall x q, rt (parents ds) x q <-> rt (parents d2) x q) as R2 by (intros; now apply same_roots_rt).
    assert (forall x q, rt (parents ds) x q <-> rt (parents d3) x q) as R3 by (intros; now apply same_roots_rt).
    exists ds', cdc', cc'. split; [exact H4|]. split; [exact I4|]. split; [congruence|]. split; [congruence|].
    split; [eapply same_roots_trans; eauto|]. split; [auto|]. split; [auto|]. split.
    + intros p. rewrite In4, In2. split.
      * intros [[H|[o [a [ro [K1 [K2 ->]]]]]]|[x [o [ri [ro [K1 [K2 [K3 [K4 ->]]]]]]]]]; [now left| |].
        -- right. exists i, o, r, ro. split; [now left|]. split; [now exists a|]. split; [exact Hr|]. split; [now apply R1|reflexivity].
        -- right. exists x, o, ri, ro. split; [now right|]. split; [exact K2|]. split; [now apply R3|]. split; [now apply R3|reflexivity].
      * intros [H|[x [o [ri [ro [[<-|K1] [K2 [K3 [K4 ->]]]]]]]]]; [auto| |].
        -- left. right. destruct K2 as [a Ha]. exists o, a, ro. split; [exact Ha|]. split; [now apply R1|]. now rewrite (rt_det _ _ _ _ Hr K3).
        -- right. exists x, o, ri, ro. split; [exact K1|]. split; [exact K2|]. split; [now apply R3|]. split; [now apply R3|reflexivity].
    + intros p. rewrite In4', In3. split.
      * intros [[H|[o [a [ro [K1 [K2 ->]]]]]]|[x [o [ri [ro [K1 [K2 [K3 [K4 ->]]]]]]]]]; [now left| |].
        -- right. exists i, o, r, ro. split; [now left|]. split; [now exists a|]. split; [exact Hr|]. split; [now apply R2|reflexivity].
        -- right. exists x, o, ri, ro. split; [now right|]. split; [exact K2|]. split; [now apply R3|]. split; [now apply R3|reflexivity].
      * intros [H|[x [o [ri [ro [[<-|K1] [K2 [K3 [K4 ->]]]]]]]]]; [auto| |].
        -- left. right. destruct K2 as [a Ha]. exists o, a, ro. split; [exact Ha|]. split; [now apply R2|]. now rewrite (rt_det _ _ _ _ Hr K3).
        -- right. exists x, o, ri, ro. split; [exact K1|]. split; [exact K2|]. split; [now apply R3|]. split; [now apply R3|reflexivity].
Qed.
Lemma me_all_spec op st : forall me, (forall i, In i st -> NoDup (map fst (op i))) -> forall i o,
  (forall a, In i st -> In (o, a) (op i) -> me_find (me_all true op me st) (o, i) = Some a) /\
  (~ (In i st /\ links op i o) -> me_find (me_all true op me st) (o, i) = me_find me (o, i)).
Proof.
  induction st as [|j st IH]; intros me Hnd i o; cbn [me_all].
  - split; [intros a []|reflexivity].
  - destruct (IH (me_store me j (op j)) (fun x Hx => Hnd x (or_intror Hx)) i o) as [H1 H2]. split.
    + intros a Hi Ha. destruct (in_dec Nat.eq_dec i st) as [Hin|Hni]; [now apply H1|].
      destruct Hi as [->|Hi]; [|contradiction]. rewrite H2 by tauto.
      apply me_store_in; [apply Hnd; now left|exact Ha].
    + intros Hn. rewrite H2 by (intros [K1 K2]; apply Hn; split; [now right|exact K2]).
      apply me_store_other. intros [-> K]. apply Hn. split; [now left|]. now apply in_fst in K.
Qed.
Lemma me_all_false op st : forall me, me_all false op me st = me.
Proof. induction st; intros; cbn; auto. Qed.

(** merge_loop *)
(** an equivalence relation containing the edges *)
Definition eqv (R : nat -> nat -> Prop) : Prop :=
  (forall x, R x x) /\ (forall x y, R x y -> R y x) /\ (forall x y z, R x y -> R y z -> R x z).
Lemma connected_in_eqv R E a b : eqv R -> (forall x y, In (x, y) E -> R x y) -> connected E a b -> R a b.
Proof. intros [H1 [H2 H3]] H. now apply clos_rst_least. Qed.

Lemma n_sets_pos E d x : ds_inv E d -> nth_error (parents d) x = Some x -> 0 < n_sets d.
Proof.
  intros [_ [_ [Hn _]]] Hx. rewrite Hn. unfold n_roots.
  assert (In x (filter (is_root (parents d)) (seq 0 (length (parents d))))) as K.
  { apply filter_In. split; [apply in_seq; assert (x < length (parents d)) by (apply nth_error_Some; congruence); lia|now apply is_root_true]. }
  destruct (filter _ _); [destruct K|cbn; lia].
Qed.
Lemma root_union_nsets d x y d' r : root_union d x y = Some (d', r) -> n_sets d' = n_sets d - 1.
Proof.
  unfold root_union. destruct (nth_error (parents d) x); [|discriminate]. destruct (nth_error (parents d) y); [|discriminate]. cbn [dbind].
  destruct (negb _); [discriminate|]. destruct (nth_error (ranks d) x); [|discriminate]. destruct (nth_error (ranks d) y); [|discriminate]. cbn [dbind].
  destruct (_ <? _); intros [= <- _]; reflexivity.
Qed.

(** consecutive pairs with connected keys have connected values *)
Fixpoint chain (Q : nat -> nat -> Prop) (k v : nat) (l : list (nat * nat)) : Prop :=
  match l with [] => True | (k', v') :: l' => (Q k k' -> Q v v') /\ chain Q k' v' l' end.

Lemma merge_loop_spec (R : nat -> nat -> Prop) (all : list (nat * nat)) conn : eqv R ->
  (forall k v k' v', In (k, v) all -> In (k', v') all -> R k k' -> R v v') ->
  forall E ds insub outsub linked k0 v0, ds_inv E ds -> (forall x y, In (x, y) E -> R x y) ->
  incl conn all -> (forall k v, In (k, v) conn -> k < ds_size ds /\ v < ds_size ds) ->
  insub < ds_size ds -> outsub < ds_size ds ->
  In (k0, v0) all -> connected E k0 insub -> connected E v0 outsub ->
  exists ds' linked' E', merge_loop ds insub outsub linked conn = Some (ds', linked') /\
    ds_inv E' ds' /\ ds_size ds' = ds_size ds /\ incl E E' /\ (forall x y, In (x, y) E' -> R x y) /\
    n_sets ds' <= n_sets ds /\ (linked = true -> linked' = true) /\
    (linked' = true -> linked = true \/ n_sets ds' < n_sets ds) /\
    (linked' = false -> E' = E /\ n_sets ds' = n_sets ds /\
       (forall kp vp, connected E kp insub -> connected E vp outsub -> chain (connected E) kp vp conn)).
Proof.
  intros HR Hcl. induction conn as [|[f s] conn IH]; intros E ds insub outsub linked k0 v0 I HE Hincl Hb Hi Ho H0 Hk0 Hv0.
  - exists ds, linked, E. cbn [merge_loop]. split; [reflexivity|]. split; [exact I|]. split; [reflexivity|]. split; [apply incl_refl|].
    split; [exact HE|]. split; [lia|]. split; [auto|]. split; [auto|]. intros _. split; [reflexivity|]. split; [reflexivity|]. intros; exact Logic.I.
  - cbn [merge_loop]. destruct (Hb f s (or_introl eq_refl)) as [Hf Hs].
    assert (In (f, s) all) as Hfs by (apply Hincl; now left).
    assert (incl conn all) as Hincl' by (intros q Hq; apply Hincl; now right).
    destruct (find_root_rt E ds f I Hf) as [d1 [r1 [Hf1 [Hr1 [I1 [S1 [Z1 N1]]]]]]]. rewrite Hf1. cbn [dbind fst snd].
    destruct (find_root_rt E d1 insub I1 ltac:(lia)) as [d2 [r2 [Hf2 [Hr2 [I2 [S2 [Z2 N2]]]]]]]. rewrite Hf2. cbn [dbind fst snd].
    assert (rt (parents d1) f r1) as Hr1' by (apply (same_roots_rt (parents ds)); [apply I|exact S1|exact Hr1]).
    pose proof (inv_conn_rt E d1 f insub r1 r2 I1 Hr1' Hr2) as Hfi.
    destruct (Nat.eqb_spec r1 r2) as [Heq|Hneq].
    + assert (connected E f insub) as Cfi by (now apply Hfi).
      destruct (find_root_rt E d2 outsub I2 ltac:(lia)) as [d3 [r3 [Hf3 [Hr3 [I3 [S3 [Z3 N3]]]]]]]. rewrite Hf3. cbn [dbind fst snd].
      destruct (find_root_rt E d3 s I3 ltac:(lia)) as [d4 [r4 [Hf4 [Hr4 [I4 [S4 [Z4 N4]]]]]]]. rewrite Hf4. cbn [dbind fst snd].
      assert (rt (parents d3) outsub r3) as Hr3' by (apply (same_roots_rt (parents d2)); [apply I2|exact S3|exact Hr3]).
      pose proof (inv_conn_rt E d3 outsub s r3 r4 I3 Hr3' Hr4) as Hos.
      assert (R v0 s) as Rvs.
      { apply (Hcl k0 v0 f s H0 Hfs). apply (connected_in_eqv R E); auto. eapply connected_trans; [exact Hk0|]. now apply connected_sym. }
      destruct (Nat.eqb_spec r3 r4) as [Heq2|Hneq2]; cbn [negb].
      * assert (connected E outsub s) as Cos by (now apply Hos).
        destruct (IH E d4 insub outsub linked k0 v0 I4 HE Hincl') as [ds' [l' [E' [K1 [K2 [K3 [K4 [K5 [K6 [K7 [K8 K9]]]]]]]]]]]; auto; try lia.
        { intros k v Hkv. rewrite Z4, Z3, Z2, Z1. apply Hb. now right. }
        exists ds', l', E'. split; [exact K1|]. split; [exact K2|]. split; [lia|]. split; [exact K4|]. split; [exact K5|].
        split; [lia|]. split; [exact K7|]. split; [intros K; destruct (K8 K); [auto|right; lia]|].
        intros K. destruct (K9 K) as [K10 [K11 K12]]. split; [exact K10|]. split; [lia|].
        intros kp vp Hkp Hvp. cbn [chain]. split.
        -- intros _. eapply connected_trans; [exact Hvp|exact Cos].
        -- apply K12; [exact Cfi|now apply connected_sym].
      * assert (rt (parents d4) r3 r3) as Hr3''.
        { apply (same_roots_rt (parents d3)); [apply I3|exact S4|]. exact (rt_self _ _ _ Hr3'). }
        assert (rt (parents d4) r4 r4) as Hr4''.
        { apply (same_roots_rt (parents d3)); [apply I3|exact S4|]. exact (rt_self _ _ _ Hr4). }
        assert (nth_error (parents d4) r3 = Some r3) as P3 by (destruct Hr3'' as [q Q]; now apply root_at_root in Q).
        assert (nth_error (parents d4) r4 = Some r4) as P4 by (destruct Hr4'' as [q Q]; now apply root_at_root in Q).
        destruct (root_union_spec E d4 r3 r4 I4 P3 P4 Hneq2) as [d5 [q [Hu [I5 [Z5 _]]]]]. rewrite Hu. cbn [dbind fst].
        pose proof (root_union_nsets _ _ _ _ _ Hu) as N5. pose proof (n_sets_pos E d4 r3 I4 P3) as Npos.
        assert (connected E outsub r3) as Co3 by (exact (inv_rt_conn E d3 outsub r3 I3 Hr3')).
        assert (connected E s r4) as Cs4 by (exact (inv_rt_conn E d3 s r4 I3 Hr4)).
        assert (forall x y, In (x, y) ((r3, r4) :: E) -> R x y) as HE5.
        { intros x y [K|K]; [|now apply HE]. injection K as <- <-. destruct HR as [HR1 [HR2 HR3]].
          apply HR3 with outsub; [apply HR2; apply (connected_in_eqv R E); try (split; auto); auto|].
          apply HR3 with s; [|apply (connected_in_eqv R E); try (split; auto); auto].
          apply HR3 with v0; [apply HR2; apply (connected_in_eqv R E); try (split; auto); auto|exact Rvs]. }
        assert (incl E ((r3, r4) :: E)) as Hi5 by (intros z Hz; now right).
        destruct (IH ((r3, r4) :: E) d5 insub outsub true k0 v0 I5 HE5 Hincl') as [ds' [l' [E' [K1 [K2 [K3 [K4 [K5 [K6 [K7 [K8 K9]]]]]]]]]]]; auto; try lia.
        { intros k v Hkv. rewrite Z5, Z4, Z3, Z2, Z1. apply Hb. now right. }
        { now apply (connected_incl E). }
        { now apply (connected_incl E). }
        exists ds', l', E'. split; [exact K1|]. split; [exact K2|]. split; [lia|]. split; [eapply incl_tran; eauto|]. split; [exact K5|].
        split; [lia|]. split; [auto|]. split; [intros _; right; lia|]. intros K. rewrite (K7 eq_refl) in K. discriminate.
    + assert (~ connected E f insub) as NCfi by (intros K; apply Hfi in K; contradiction).
      destruct (find_root_rt E d2 f I2 ltac:(lia)) as [d3 [r3 [Hf3 [Hr3 [I3 [S3 [Z3 N3]]]]]]]. rewrite Hf3. cbn [dbind fst snd].
      destruct (find_root_rt E d3 s I3 ltac:(lia)) as [d4 [r4 [Hf4 [Hr4 [I4 [S4 [Z4 N4]]]]]]]. rewrite Hf4. cbn [dbind fst snd].
      pose proof (inv_rt_conn E d2 f r3 I2 Hr3) as C3. pose proof (inv_rt_conn E d3 s r4 I3 Hr4) as C4.
      assert (r3 < ds_size ds) as L3 by (pose proof (rt_lt _ _ _ (rt_self _ _ _ Hr3)); unfold ds_size in *; lia).
      assert (r4 < ds_size ds) as L4 by (pose proof (rt_lt _ _ _ (rt_self _ _ _ Hr4)); unfold ds_size in *; lia).
      destruct (IH E d4 r3 r4 linked f s I4 HE Hincl') as [ds' [l' [E' [K1 [K2 [K3 [K4 [K5 [K6 [K7 [K8 K9]]]]]]]]]]]; auto; try lia.
      { intros k v Hkv. rewrite Z4, Z3, Z2, Z1. apply Hb. now right. }
      exists ds', l', E'. split; [exact K1|]. split; [exact K2|]. split; [lia|]. split; [exact K4|]. split; [exact K5|].
      split; [lia|]. split; [exact K7|]. split; [intros K; destruct (K8 K); [auto|right; lia]|].
      intros K. destruct (K9 K) as [K10 [K11 K12]]. split; [exact K10|]. split; [lia|].
      intros kp vp Hkp Hvp. cbn [chain]. split.
      * intros Hkf. exfalso. apply NCfi. eapply connected_trans; [apply connected_sym; exact Hkf|exact Hkp].
      * apply K12; assumption.
Qed.
End Gen.
