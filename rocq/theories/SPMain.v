From Coq Require Import List Bool Arith Lia Relations Sorted FinFun.
From Verif Require Import DSModel DSSpec DSProofs SPModel SPSpec SPProofs SPMerge.
Import ListNotations.

Section Gen.
Context {A : Type}.
Implicit Types (h op Cd C : lop A).

Definition closed_conn (R : nat -> nat -> Prop) (all : list (nat * nat)) : Prop :=
  forall k v k' v', In (k, v) all -> In (k', v') all -> R k k' -> R v v'.

Lemma chain_sorted (Q : nat -> nat -> Prop) l : (forall x, Q x x) -> (forall x y z, Q x y -> Q y z -> Q x z) ->
  forall k v, chain Q k v l -> StronglySorted key_le ((k, v) :: l) -> forall v', In (k, v') l -> Q v v'.
Proof.
  intros Qr Qt. induction l as [|[k2 v2] l IH]; intros k v Hc Hs v' Hin; [destruct Hin|].
  destruct Hc as [Hc1 Hc2]. inversion Hs as [|? ? Hs' Hf]; subst.
  destruct Hin as [Heq|Hin]; [injection Heq as -> ->; auto|].
  assert (k2 = k) as ->.
  { inversion Hs' as [|? ? _ Hf2]; subst. rewrite Forall_forall in Hf2. specialize (Hf2 _ Hin). unfold key_le in Hf2. cbn in Hf2.
    rewrite Forall_forall in Hf. specialize (Hf (k2, v2) (or_introl eq_refl)). unfold key_le in Hf. cbn in Hf. lia. }
  apply Qt with v2; [auto|]. eapply IH; eauto.
Qed.
Lemma chain_tail (Q : nat -> nat -> Prop) l : (forall x, Q x x) -> (forall x y, Q x y -> Q y x) -> (forall x y z, Q x y -> Q y z -> Q x z) ->
  forall k v, chain Q k v l -> StronglySorted key_le ((k, v) :: l) ->
  forall k' v1 v2, In (k', v1) ((k, v) :: l) -> In (k', v2) ((k, v) :: l) -> Q v1 v2.
Proof.
  intros Qr Qs Qt. induction l as [|[k2 v2] l IH]; intros k v Hc Hs k' v1 v1' H1 H2.
  - destruct H1 as [H1|[]], H2 as [H2|[]]. assert (v1 = v1') by congruence. subst; auto.
  - destruct H1 as [H1|H1], H2 as [H2|H2].
    + assert (v1 = v1') by congruence. subst; auto.
    + injection H1 as -> ->. exact (chain_sorted Q _ Qr Qt _ _ Hc Hs _ H2).
    + injection H2 as -> ->. apply Qs. exact (chain_sorted Q _ Qr Qt _ _ Hc Hs _ H1).
    + destruct Hc as [_ Hc]. inversion Hs; subst. eapply IH; eauto.
Qed.

Lemma merge_conn_spec (R : nat -> nat -> Prop) conn E ds : eqv R -> closed_conn R conn ->
  ds_inv E ds -> (forall x y, In (x, y) E -> R x y) -> (forall k v, In (k, v) conn -> k < ds_size ds /\ v < ds_size ds) ->
  StronglySorted key_le conn ->
  exists ds' linked E', merge_conn_targets ds conn = Some (ds', linked) /\ ds_inv E' ds' /\ ds_size ds' = ds_size ds /\
    incl E E' /\ (forall x y, In (x, y) E' -> R x y) /\ n_sets ds' <= n_sets ds /\
    (linked = true -> n_sets ds' < n_sets ds) /\
    (linked = false -> E' = E /\ n_sets ds' = n_sets ds /\
       forall k v v', In (k, v) conn -> In (k, v') conn -> connected E v v').
Proof.
  intros HR Hcl I HE Hb Hs. destruct conn as [|[f s] conn].
  - exists ds, false, E. split; [reflexivity|]. split; [exact I|]. split; [reflexivity|]. split; [apply incl_refl|].
    split; [exact HE|]. split; [lia|]. split; [discriminate|]. intros _. split; [reflexivity|]. split; [reflexivity|]. intros k v v' [].
  - destruct (Hb f s (or_introl eq_refl)) as [Hf Hs'].
    cbn [merge_conn_targets].
    destruct (find_root_rt E ds f I Hf) as [d1 [r1 [Hf1 [Hr1 [I1 [S1 [Z1 N1]]]]]]]. rewrite Hf1. cbn [dbind fst snd].
    destruct (find_root_rt E d1 s I1 ltac:(lia)) as [d2 [r2 [Hf2 [Hr2 [I2 [S2 [Z2 N2]]]]]]]. rewrite Hf2. cbn [dbind fst snd].
    pose proof (inv_rt_conn E ds f r1 I Hr1) as C1. pose proof (inv_rt_conn E d1 s r2 I1 Hr2) as C2.
    assert (r1 < ds_size ds) as L1 by (pose proof (rt_lt _ _ _ (rt_self _ _ _ Hr1)); unfold ds_size in *; lia).
    assert (r2 < ds_size ds) as L2 by (pose proof (rt_lt _ _ _ (rt_self _ _ _ Hr2)); unfold ds_size in *; lia).
    destruct (merge_loop_spec R ((f, s) :: conn) conn HR Hcl E d2 r1 r2 false f s I2 HE) as [ds' [l' [E' [K1 [K2 [K3 [K4 [K5 [K6 [K7 [K8 K9]]]]]]]]]]]; auto; try lia.
    { intros q Hq; now right. }
    { intros k v Hkv. rewrite Z2, Z1. apply Hb. now right. }
    { now left. }
    exists ds', l', E'. split; [exact K1|]. split; [exact K2|]. split; [lia|]. split; [exact K4|]. split; [exact K5|]. split; [lia|].
    split; [intros K; destruct (K8 K); [discriminate|lia]|].
    intros K. destruct (K9 K) as [K10 [K11 K12]]. split; [exact K10|]. split; [lia|].
    intros k v v' H1 H2. apply (chain_tail (connected E) conn) with f s k; auto.
    + intros; apply connected_refl.
    + intros; now apply connected_sym.
    + intros; eapply connected_trans; eauto.
Qed.

Lemma merge_until_spec (R : nat -> nat -> Prop) c1 c2 : eqv R -> closed_conn R c1 -> closed_conn R c2 ->
  StronglySorted key_le c1 -> StronglySorted key_le c2 ->
  forall fuel E ds, n_sets ds < fuel -> ds_inv E ds -> (forall x y, In (x, y) E -> R x y) ->
  (forall k v, In (k, v) c1 -> k < ds_size ds /\ v < ds_size ds) ->
  (forall k v, In (k, v) c2 -> k < ds_size ds /\ v < ds_size ds) ->
  exists ds' E', merge_until fuel ds c1 c2 = Some ds' /\ ds_inv E' ds' /\ ds_size ds' = ds_size ds /\
    incl E E' /\ (forall x y, In (x, y) E' -> R x y) /\
    (forall k v v', In (k, v) c1 -> In (k, v') c1 -> connected E' v v') /\
    (forall k v v', In (k, v) c2 -> In (k, v') c2 -> connected E' v v').
Proof.
  intros HR H1 H2 S1 S2. induction fuel as [|fuel IH]; intros E ds Hf I HE Hb1 Hb2; [lia|].
  cbn [merge_until].
  destruct (merge_conn_spec R c1 E ds HR H1 I HE Hb1 S1) as [d1 [l1 [E1 [K1 [K2 [K3 [K4 [K5 [K6 [K7 K8]]]]]]]]]].
  rewrite K1. cbn [dbind fst snd].
  destruct (merge_conn_spec R c2 E1 d1 HR H2 K2 K5) as [d2 [l2 [E2 [J1 [J2 [J3 [J4 [J5 [J6 [J7 J8]]]]]]]]]]; auto.
  { intros k v Hkv. rewrite K3. now apply Hb2. }
  rewrite J1. cbn [dbind fst snd]. destruct (l1 || l2) eqn:El.
  - destruct (IH E2 d2) as [ds' [E' [L1 [L2 [L3 [L4 [L5 [L6 L7]]]]]]]]; auto.
    + apply orb_true_iff in El. destruct El as [-> | ->]; [specialize (K7 eq_refl)|specialize (J7 eq_refl)]; lia.
    + intros k v Hkv. rewrite J3, K3. now apply Hb1.
    + intros k v Hkv. rewrite J3, K3. now apply Hb2.
    + exists ds', E'. split; [exact L1|]. split; [exact L2|]. split; [lia|]. split; [eapply incl_tran; [|exact L4]; eapply incl_tran; eauto|]. auto.
  - apply orb_false_iff in El. destruct El as [-> ->]. destruct (K8 eq_refl) as [-> [_ K9]]. destruct (J8 eq_refl) as [-> [_ J9]].
    exists d2, E. split; [reflexivity|]. split; [exact J2|]. split; [lia|]. split; [apply incl_refl|]. auto.
Qed.

(** one-to-one closure at the level of basis states *)
Definition state_closed (states : list nat) (R : nat -> nat -> Prop) op : Prop :=
  forall x x' y y', In x states -> In x' states -> R x x' -> links op x y -> links op x' y' -> R y y'.

Lemma merge_subspaces_spec E sp Cd C store : sp_inv E sp ->
  op_on (sp_states sp) Cd -> op_on (sp_states sp) C ->
  exists sp' E', merge_subspaces sp Cd C store = Some (sp', me_all store Cd [] (sp_states sp), me_all store C [] (sp_states sp)) /\
    sp_inv E' sp' /\ sp_states sp' = sp_states sp /\ incl E E' /\
    (forall x x' y y', In x (sp_states sp) -> In x' (sp_states sp) -> connected E x x' -> links Cd x y -> links Cd x' y' -> connected E' y y') /\
    (forall x x' y y', In x (sp_states sp) -> In x' (sp_states sp) -> connected E x x' -> links C x y -> links C x' y' -> connected E' y y') /\
    (forall R, eqv R -> (forall x y, connected E x y -> R x y) -> state_closed (sp_states sp) R Cd -> state_closed (sp_states sp) R C ->
       forall x y, connected E' x y -> R x y).
Proof.
  intros I HCd HC. pose proof I as [Id [Hst Hm]]. unfold merge_subspaces.
  destruct (fill_all_spec store Cd C (sp_states sp) E (sp_ds sp) [] [] [] [] Id Hst)
    as [d1 [cdc [cc [H1 [I1 [Z1 [N1 [S1 [So1 [So2 [In1 In2]]]]]]]]]]].
  { intros i o Hi Hl. apply Hst. now apply (HCd i Hi). }
  { intros i o Hi Hl. apply Hst. now apply (HC i Hi). }
  rewrite H1. cbn [dbind].
  assert (forall p, In p cdc <-> exists i o ri ro, In i (sp_states sp) /\ links Cd i o /\ rt (parents (sp_ds sp)) i ri /\ rt (parents (sp_ds sp)) o ro /\ p = (ri, ro)) as In1'.
  { intros p. rewrite In1. split; [intros [[]|K]; exact K|auto]. }
  assert (forall p, In p cc <-> exists i o ri ro, In i (sp_states sp) /\ links C i o /\ rt (parents (sp_ds sp)) i ri /\ rt (parents (sp_ds sp)) o ro /\ p = (ri, ro)) as In2'.
  { intros p. rewrite In2. split; [intros [[]|K]; exact K|auto]. }
  assert (StronglySorted key_le cdc) as SS1 by (apply So1; constructor).
  assert (StronglySorted key_le cc) as SS2 by (apply So2; constructor).
  assert (forall k v, In (k, v) cdc -> k < ds_size d1 /\ v < ds_size d1) as B1.
  { intros k v H. apply In1' in H. destruct H as [i [o [ri [ro [_ [_ [K3 [K4 K5]]]]]]]]. injection K5 as -> ->. rewrite Z1.
    split; [exact (rt_lt _ _ _ (rt_self _ _ _ K3))|exact (rt_lt _ _ _ (rt_self _ _ _ K4))]. }
  assert (forall k v, In (k, v) cc -> k < ds_size d1 /\ v < ds_size d1) as B2.
  { intros k v H. apply In2' in H. destruct H as [i [o [ri [ro [_ [_ [K3 [K4 K5]]]]]]]]. injection K5 as -> ->. rewrite Z1.
    split; [exact (rt_lt _ _ _ (rt_self _ _ _ K3))|exact (rt_lt _ _ _ (rt_self _ _ _ K4))]. }
  (* transfer of closure from states to roots *)
  assert (forall op c R, (forall p, In p c <-> exists i o ri ro, In i (sp_states sp) /\ links op i o /\ rt (parents (sp_ds sp)) i ri /\ rt (parents (sp_ds sp)) o ro /\ p = (ri, ro)) ->
     eqv R -> (forall x y, connected E x y -> R x y) -> state_closed (sp_states sp) R op -> closed_conn R c) as Htr.
  { intros op c R Hc [R1 [R2 R3]] HER Hcl k v k' v' Hk Hk' Hkk.
    apply Hc in Hk, Hk'. destruct Hk as [i [o [ri [ro [A1 [A2 [A3 [A4 A5]]]]]]]]. destruct Hk' as [i' [o' [ri' [ro' [A1' [A2' [A3' [A4' A5']]]]]]]].
    injection A5 as -> ->. injection A5' as -> ->.
    assert (R o o') as Roo.
    { apply (Hcl i i'); auto. apply R3 with ri; [apply HER; exact (inv_rt_conn E _ _ _ Id A3)|].
      apply R3 with ri'; [exact Hkk|]. apply R2. apply HER. exact (inv_rt_conn E _ _ _ Id A3'). }
    apply R3 with o; [apply R2; apply HER; exact (inv_rt_conn E _ _ _ Id A4)|].
    apply R3 with o'; [exact Roo|]. apply HER; exact (inv_rt_conn E _ _ _ Id A4'). }
  (* run with the trivial relation to get the result, then with any R *)
  assert (forall R, eqv R -> closed_conn R cdc -> closed_conn R cc -> (forall x y, In (x, y) E -> R x y) ->
    exists ds' E', merge_until (S (n_sets d1)) d1 cdc cc = Some ds' /\ ds_inv E' ds' /\ ds_size ds' = ds_size d1 /\
    incl E E' /\ (forall x y, In (x, y) E' -> R x y) /\
    (forall k v v', In (k, v) cdc -> In (k, v') cdc -> connected E' v v') /\
    (forall k v v', In (k, v) cc -> In (k, v') cc -> connected E' v v')) as Hrun.
  { intros R HR C1 C2 HE. apply (merge_until_spec R cdc cc HR C1 C2 SS1 SS2 (S (n_sets d1)) E d1); auto. }
  destruct (Hrun (fun _ _ => True)) as [d2 [E' [H2 [I2 [Z2 [HI [_ [U1 U2]]]]]]]].
  { repeat split; auto. } { intros k v k' v' _ _ _; exact Logic.I. } { intros k v k' v' _ _ _; exact Logic.I. } { auto. }
  rewrite H2. cbn [dbind].
  destruct (update_spec E' (sp_states sp) d2 I2) as [sp' [H3 [I3 [Hs3 Z3]]]].
  { intros x Hx. rewrite Z2, Z1. auto. }
  rewrite H3. cbn [dbind]. exists sp', E'. split; [reflexivity|]. split; [exact I3|]. split; [exact Hs3|]. split; [exact HI|].
  assert (forall op c, (forall p, In p c <-> exists i o ri ro, In i (sp_states sp) /\ links op i o /\ rt (parents (sp_ds sp)) i ri /\ rt (parents (sp_ds sp)) o ro /\ p = (ri, ro)) ->
    op_on (sp_states sp) op -> (forall k v v', In (k, v) c -> In (k, v') c -> connected E' v v') ->
    forall x x' y y', In x (sp_states sp) -> In x' (sp_states sp) -> connected E x x' -> links op x y -> links op x' y' -> connected E' y y') as Huse.
  { intros op c Hc Hop Hu x x' y y' Hx Hx' Hxx Hl Hl'.
    assert (In y (sp_states sp)) as Hy by (now apply (Hop x Hx)). assert (In y' (sp_states sp)) as Hy' by (now apply (Hop x' Hx')).
    destruct (inv_rt E _ x Id (Hst x Hx)) as [rx Rx]. destruct (inv_rt E _ x' Id (Hst x' Hx')) as [rx' Rx'].
    destruct (inv_rt E _ y Id (Hst y Hy)) as [ry Ry]. destruct (inv_rt E _ y' Id (Hst y' Hy')) as [ry' Ry'].
    apply (inv_conn_rt E _ _ _ _ _ Id Rx Rx') in Hxx. subst rx'.
    assert (connected E' ry ry') as K.
    { apply (Hu rx); apply Hc; [exists x, y, rx, ry|exists x', y', rx, ry']; auto. }
    eapply connected_trans; [apply (connected_incl E E' _ _ HI); exact (inv_rt_conn E _ _ _ Id Ry)|].
    eapply connected_trans; [exact K|]. apply connected_sym. apply (connected_incl E E' _ _ HI). exact (inv_rt_conn E _ _ _ Id Ry'). }
  split; [exact (Huse Cd cdc In1' HCd U1)|]. split; [exact (Huse C cc In2' HC U2)|].
  intros R HR HER C1 C2 x y Hxy.
  destruct (Hrun R HR (Htr Cd cdc R In1' HR HER C1) (Htr C cc R In2' HR HER C2)) as [d2' [E'' [H2' [I2' [Z2' [_ [HR' _]]]]]]].
  { intros a b Hab. apply HER. apply rst_step. exact Hab. }
  assert (d2' = d2) by congruence. subst d2'.
  destruct (Nat.eq_dec x y) as [->|Hne]; [exact (proj1 HR y)|].
  assert (x < ds_size d2 /\ y < ds_size d2) as [Hx Hy].
  { destruct (connected_bounded E' (ds_size d2) x y) as [|K]; [apply I2|exact Hxy|contradiction|exact K]. }
  apply (connected_in_eqv R E''); auto.
  destruct I2 as [_ [_ [_ [_ Hc]]]]. destruct I2' as [_ [_ [_ [_ Hc']]]]. apply Hc'; auto. now apply Hc.
Qed.

(** ** queries *)
Lemma conn_inner_spec E insub outs : forall sp c, sp_inv E sp -> (forall o (a : A), In (o, a) outs -> In o (sp_states sp)) ->
  exists sp' c', conn_inner sp c insub outs = Some (sp', c') /\ sp_eq sp sp' /\ sp_inv E sp' /\ (NoDup c -> NoDup c') /\
    (forall p, In p c' <-> In p c \/ exists o a k, In (o, a) outs /\ label sp o = Some k /\ p = (insub, k)).
Proof.
  induction outs as [|[o a] outs IH]; intros sp c I Ho.
  - exists sp, c. split; [reflexivity|]. split; [apply sp_eq_refl|]. split; [exact I|]. split; [auto|].
    intros p; split; [auto|]. intros [H|[x [y [k [[] _]]]]]; exact H.
  - cbn [conn_inner]. destruct (label_defined E sp o I (Ho o a (or_introl eq_refl))) as [sp1 [k [H1 [Hk [_ [E1 I1]]]]]].
    rewrite H1. cbn [dbind fst snd].
    assert (forall q, In q (set_emplace c (insub, k)) <-> In q c \/ q = (insub, k)) as Hse.
    { intros q. unfold set_emplace. destruct (existsb (pair_eqb (insub, k)) c) eqn:Ex.
      - apply existsb_exists in Ex. destruct Ex as [z [Hz1 Hz2]]. destruct (pair_eqb_spec (insub, k) z) as [<-|]; [|discriminate].
        split; [auto|]. intros [H| ->]; assumption.
      - rewrite in_app_iff. cbn. split; [intros [H|[<-|[]]]; auto|]. intros [H| ->]; auto. }
    destruct (IH sp1 (set_emplace c (insub, k)) I1) as [sp' [c' [H2 [E2 [I2 [Hnd Hin]]]]]].
    { intros o' a' H. destruct E1 as [-> _]. apply (Ho o' a'). now right. }
    exists sp', c'. split; [exact H2|]. split; [eapply sp_eq_trans; eauto|]. split; [exact I2|]. split.
    { intros Hc. apply Hnd. unfold set_emplace. destruct (existsb (pair_eqb (insub, k)) c) eqn:Ex; [exact Hc|].
      apply NoDup_snoc; [exact Hc|]. intros K. assert (existsb (pair_eqb (insub, k)) c = true); [|congruence].
      apply existsb_exists. exists (insub, k). split; [exact K|]. destruct (pair_eqb_spec (insub, k) (insub, k)); congruence. }
    intros p. rewrite Hin, Hse. split.
    + intros [[H|H]|[o' [a' [k' [K1 [K2 ->]]]]]]; [now left| |].
      * right. exists o, a, k. split; [now left|]. auto.
      * right. exists o', a', k'. split; [now right|]. split; [|reflexivity].
        rewrite <- (label_eq E sp sp1 o' I I1 E1); [exact K2|]. apply (Ho o' a'). now right.
    + intros [H|[o' [a' [k' [[K1|K1] [K2 ->]]]]]]; [auto| |].
      * injection K1 as <- <-. left. right. congruence.
      * right. exists o', a', k'. split; [exact K1|]. split; [|reflexivity].
        rewrite (label_eq E sp sp1 o' I I1 E1); [exact K2|]. apply (Ho o' a'). now right.
Qed.
Lemma conn_outer_spec op E st : forall sp c, sp_inv E sp -> (forall x, In x st -> In x (sp_states sp)) ->
  (forall x o, In x st -> links op x o -> In o (sp_states sp)) ->
  exists sp' c', conn_outer op sp c st = Some (sp', c') /\ sp_eq sp sp' /\ sp_inv E sp' /\ (NoDup c -> NoDup c') /\
    (forall a b, In (a, b) c' <-> In (a, b) c \/ exists i o, In i st /\ links op i o /\ label sp i = Some a /\ label sp o = Some b).
Proof.
  induction st as [|i st IH]; intros sp c I Hst Ho.
  - exists sp, c. split; [reflexivity|]. split; [apply sp_eq_refl|]. split; [exact I|]. split; [auto|].
    intros a b; split; [auto|]. intros [H|[x [y [[] _]]]]; exact H.
  - cbn [conn_outer]. destruct (label_defined E sp i I (Hst i (or_introl eq_refl))) as [sp1 [k [H1 [Hk [_ [E1 I1]]]]]].
    rewrite H1. cbn [dbind fst snd].
    destruct (conn_inner_spec E k (op i) sp1 c I1) as [sp2 [c2 [H2 [E2 [I2 [Hnd2 Hin2]]]]]].
    { intros o a H. destruct E1 as [-> _]. apply (Ho i o (or_introl eq_refl)). now exists a. }
    rewrite H2. cbn [dbind fst snd].
    pose proof (sp_eq_trans _ _ _ E1 E2) as E12. pose proof E12 as [Es2 _]. pose proof E1 as [Es1 _].
    destruct (IH sp2 c2 I2) as [sp3 [c3 [H3 [E3 [I3 [Hnd3 Hin3]]]]]].
    { intros x Hx. rewrite Es2. apply Hst. now right. }
    { intros x o Hx Hl. rewrite Es2. apply (Ho x o); auto. now right. }
    exists sp3, c3. split; [exact H3|]. split; [eapply sp_eq_trans; eauto|]. split; [exact I3|]. split; [auto|].
    assert (forall x, In x (sp_states sp) -> label sp1 x = label sp x) as L1 by (intros x Hx; exact (label_eq E sp sp1 x I I1 E1 Hx)).
    assert (forall x, In x (sp_states sp) -> label sp2 x = label sp x) as L2 by (intros x Hx; exact (label_eq E sp sp2 x I I2 E12 Hx)).
    intros a b. rewrite Hin3, Hin2. split.
    + intros [[H|[o [am [k' [K1 [K2 K3]]]]]]|[x [o [K1 [K2 [K3 K4]]]]]]; [now left| |].
      * injection K3 as -> ->. right. exists i, o. split; [now left|]. assert (links op i o) as Hl by (now exists am).
        split; [exact Hl|]. split; [exact Hk|]. rewrite <- L1; [exact K2|]. apply (Ho i o); auto. now left.
      * right. exists x, o. split; [now right|]. split; [exact K2|].
        rewrite <- (L2 x) by (apply Hst; now right). rewrite <- (L2 o) by (apply (Ho x o); auto; now right). auto.
    + intros [H|[x [o [[<-|K1] [K2 [K3 K4]]]]]]; [auto| |].
      * left. right. destruct K2 as [am Ham]. exists o, am, b. split; [exact Ham|].
        rewrite L1 by (apply (Ho i o); [now left|now exists am]). split; [exact K4|]. congruence.
      * right. exists x, o. split; [exact K1|]. split; [exact K2|].
        rewrite (L2 x) by (apply Hst; now right). rewrite (L2 o) by (apply (Ho x o); auto; now right). auto.
Qed.

Definition in_label (sp : space_partition) (k x : nat) : bool :=
  match label sp x with Some j => j =? k | None => false end.
Lemma basis_loop_spec E idx st : forall sp acc, sp_inv E sp -> (forall x, In x st -> In x (sp_states sp)) ->
  exists sp', basis_loop sp idx acc st = Some (sp', acc ++ filter (in_label sp idx) st) /\ sp_eq sp sp' /\ sp_inv E sp'.
Proof.
  induction st as [|x st IH]; intros sp acc I Hst.
  - exists sp. cbn. rewrite app_nil_r. split; [reflexivity|]. split; [apply sp_eq_refl|exact I].
  - cbn [basis_loop]. destruct (label_defined E sp x I (Hst x (or_introl eq_refl))) as [sp1 [k [H1 [Hk [_ [E1 I1]]]]]].
    rewrite H1. cbn [dbind fst snd]. pose proof E1 as [Es1 _].
    destruct (IH sp1 (if k =? idx then acc ++ [x] else acc) I1) as [sp2 [H2 [E2 I2]]].
    { intros y Hy. rewrite Es1. apply Hst. now right. }
    exists sp2. split; [|split; [eapply sp_eq_trans; eauto|exact I2]].
    rewrite H2. f_equal. f_equal. cbn [filter].
    assert (filter (in_label sp1 idx) st = filter (in_label sp idx) st) as ->.
    { apply filter_ext_in. intros y Hy. unfold in_label. rewrite (label_eq E sp sp1 y I I1 E1); [reflexivity|]. apply Hst. now right. }
    unfold in_label at 2. rewrite Hk. destruct (k =? idx); [now rewrite <- app_assoc|reflexivity].
Qed.
Lemma upd_map_seq {B} (f : nat -> B) n k v : k < n -> upd (map f (seq 0 n)) k v = map (fun i => if i =? k then v else f i) (seq 0 n).
Proof.
  assert (forall l b k, upd (map f (seq b l)) k v = map (fun i => if i =? b + k then v else f i) (seq b l)) as HH.
  { induction l as [|l IH]; intros b j; [reflexivity|]. cbn [seq map]. destruct j as [|j]; cbn [upd].
    - rewrite Nat.add_0_r, Nat.eqb_refl. f_equal. apply map_ext_in. intros i Hi. apply in_seq in Hi.
      destruct (Nat.eqb_spec i b); [lia|reflexivity].
    - destruct (Nat.eqb_spec b (b + S j)); [lia|]. f_equal. rewrite IH. apply map_ext. intros i. replace (S b + j) with (b + S j) by lia. reflexivity. }
  intros _. rewrite HH. apply map_ext. intros i. reflexivity.
Qed.
Lemma bases_loop_spec E st : forall sp f n, n = n_subspaces sp -> sp_inv E sp -> (forall x, In x st -> In x (sp_states sp)) ->
  exists sp', bases_loop sp (map f (seq 0 n)) st = Some (sp', map (fun k => f k ++ filter (in_label sp k) st) (seq 0 n)) /\ sp_eq sp sp' /\ sp_inv E sp'.
Proof.
  induction st as [|x st IH]; intros sp f n Hn I Hst.
  - exists sp. cbn. split; [|split; [apply sp_eq_refl|exact I]]. f_equal. f_equal. apply map_ext. intros; now rewrite app_nil_r.
  - cbn [bases_loop]. destruct (label_defined E sp x I (Hst x (or_introl eq_refl))) as [sp1 [k [H1 [Hk [Hlt [E1 I1]]]]]].
    rewrite H1. cbn [dbind fst snd]. pose proof E1 as [Es1 [Er1 _]]. rewrite <- Hn in Hlt.
    assert (nth_error (map f (seq 0 n)) k = Some (f k)) as ->.
    { apply map_nth_error. rewrite nth_error_nth' with (d := 0) by (now rewrite seq_length). now rewrite seq_nth. }
    cbn [dbind]. rewrite upd_map_seq by exact Hlt.
    destruct (IH sp1 (fun i => if i =? k then f k ++ [x] else f i) n) as [sp2 [H2 [E2 I2]]].
    { unfold n_subspaces. now rewrite Er1. } { exact I1. }
    { intros y Hy. rewrite Es1. apply Hst. now right. }
    exists sp2. split; [|split; [eapply sp_eq_trans; eauto|exact I2]].
    rewrite H2. f_equal. f_equal. apply map_ext. intros i. cbn [filter].
    assert (filter (in_label sp1 i) st = filter (in_label sp i) st) as ->.
    { apply filter_ext_in. intros y Hy. unfold in_label. rewrite (label_eq E sp sp1 y I I1 E1); [reflexivity|]. apply Hst. now right. }
    unfold in_label at 2. rewrite Hk. destruct (Nat.eqb_spec i k) as [->|Hik].
    + rewrite Nat.eqb_refl. now rewrite <- app_assoc.
    + destruct (Nat.eqb_spec k i); [congruence|reflexivity].
Qed.

(** counting argument: a coarsening with the same number of subspaces is the same partition *)
Lemma coarsening_same E E' sp sp' : sp_inv E sp -> sp_inv E' sp' -> sp_states sp' = sp_states sp -> incl E E' ->
  n_subspaces sp' = n_subspaces sp -> forall x y, In x (sp_states sp) -> In y (sp_states sp) -> connected E' x y -> connected E x y.
Proof.
  intros I I' Hs HI Hn x y Hx Hy Hxy.
  assert (exists reps, map (label sp) reps = map Some (seq 0 (n_subspaces sp)) /\ forall r, In r reps -> In r (sp_states sp)) as [reps [Hr1 Hr2]].
  { assert (forall l, (forall k, In k l -> k < n_subspaces sp) -> exists reps, map (label sp) reps = map Some l /\ forall r, In r reps -> In r (sp_states sp)) as HH.
    { induction l as [|k l IH]; intros Hl; [exists []; split; [reflexivity|intros r []]|].
      destruct (IH (fun q Hq => Hl q (or_intror Hq))) as [reps [A1 A2]].
      destruct (label_surj E sp k I (Hl k (or_introl eq_refl))) as [z [Z1 Z2]].
      exists (z :: reps). cbn. rewrite Z2, A1. split; [reflexivity|]. intros r [<-|Hr]; auto. }
    apply HH. intros k Hk. apply in_seq in Hk. lia. }
  assert (length reps = n_subspaces sp) as Hlen.
  { apply (f_equal (@length _)) in Hr1. rewrite !map_length, seq_length in Hr1. exact Hr1. }
  assert (forall z, In z (sp_states sp) -> exists r, In r reps /\ connected E z r) as Hcov.
  { intros z Hz. destruct (label_defined E sp z I Hz) as [_ [k [_ [Hk [Hlt _]]]]].
    assert (In (Some k) (map (label sp) reps)) as Hin by (rewrite Hr1; apply in_map, in_seq; lia).
    apply in_map_iff in Hin. destruct Hin as [r [R1 R2]]. exists r. split; [exact R2|].
    apply (label_iff E sp z r I Hz (Hr2 r R2)). congruence. }
  assert (NoDup (map (label sp') reps)) as Hnd.
  { apply NoDup_incl_NoDup with (l := map Some (seq 0 (n_subspaces sp'))).
    - apply FinFun.Injective_map_NoDup; [intros a b [= ->]; reflexivity|apply seq_NoDup].
    - rewrite !map_length, seq_length. lia.
    - intros q Hq. apply in_map_iff in Hq. destruct Hq as [k [<- Hk]]. apply in_seq in Hk.
      destruct (label_surj E' sp' k I' ltac:(lia)) as [z [Z1 Z2]]. rewrite Hs in Z1. destruct (Hcov z Z1) as [r [R1 R2]].
      apply in_map_iff. exists r. split; [|exact R1]. rewrite <- Z2.
      apply (label_iff E' sp' r z I'); [rewrite Hs; auto|now rewrite Hs|]. apply connected_sym. now apply (connected_incl E). }
  destruct (Hcov x Hx) as [rx [X1 X2]]. destruct (Hcov y Hy) as [ry [Y1 Y2]].
  assert (label sp' rx = label sp' ry) as Hl.
  { apply (label_iff E' sp' rx ry I'); [rewrite Hs; auto|rewrite Hs; auto|].
    eapply connected_trans; [apply connected_sym; apply (connected_incl E E' _ _ HI); exact X2|].
    eapply connected_trans; [exact Hxy|apply (connected_incl E E' _ _ HI); exact Y2]. }
  assert (rx = ry) as ->.
  { apply In_nth_error in X1, Y1. destruct X1 as [i Hi], Y1 as [j Hj]. rewrite NoDup_nth_error in Hnd.
    assert (i = j) as ->; [|congruence]. apply Hnd.
    - rewrite map_length. apply nth_error_Some. congruence.
    - rewrite (map_nth_error (label sp') _ _ Hi), (map_nth_error (label sp') _ _ Hj). congruence. }
  eapply connected_trans; [exact X2|]. now apply connected_sym.
Qed.
End Gen.
