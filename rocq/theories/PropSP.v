(** * Properties C49-C52: automatic partitioning of a Hilbert space *)
From Coq Require Import List Bool Arith Lia Relations.
From Verif Require Import DSModel DSSpec DSProofs SPModel SPSpec SPProofs SPMerge SPMain.
Import ListNotations.

(** [states] are the basis states visited by foreach(hs, f), all below get_vec_size(hs) = d;
    [op_on states op]: op maps them to themselves (SPSpec.v). *)

(** ** C49 *)
Theorem C49_constructor_succeeds : forall A d states (h : lop A) me,
  (forall x, In x states -> x < d) -> op_on states h ->
  exists sp me', sp_construct d states h me = Some (sp, me') /\ sp_states sp = states.
Proof.
  intros A d states h me Hst Hop.
  destruct (sp_construct_spec d states h me Hst) as [sp [me' [E [H [_ [Hs _]]]]]].
  { intros x y Hx Hl. apply Hst. now apply (Hop x Hx). }
  eauto.
Qed.
Print Assumptions C49_constructor_succeeds.

(** Subspaces are exactly the connected components of h. *)
Theorem C49_subspaces_are_components : forall A d states (h : lop A) me sp me',
  (forall x, In x states -> x < d) -> op_on states h ->
  sp_construct d states h me = Some (sp, me') ->
  forall x y, In x states -> In y states -> (label sp x = label sp y <-> h_connected states h x y).
Proof.
  intros A d states h me sp me' Hst Hop H x y Hx Hy.
  destruct (sp_construct_spec d states h me Hst) as [sp1 [me1 [E [H1 [I [Hs [_ [HE _]]]]]]]].
  { intros a b Ha Hl. apply Hst. now apply (Hop a Ha). }
  rewrite H1 in H. injection H as -> ->. rewrite <- HE. apply label_iff; [exact I|now rewrite Hs|now rewrite Hs].
Qed.
Print Assumptions C49_subspaces_are_components.

(** h maps every subspace to itself. *)
Theorem C49_subspaces_invariant : forall A d states (h : lop A) me sp me',
  (forall x, In x states -> x < d) -> op_on states h ->
  sp_construct d states h me = Some (sp, me') ->
  forall x y, In x states -> links h x y -> label sp y = label sp x.
Proof.
  intros A d states h me sp me' Hst Hop H x y Hx Hl. assert (In y states) as Hy by (now apply (Hop x Hx)).
  apply (C49_subspaces_are_components A d states h me sp me' Hst Hop H y x Hy Hx).
  apply rst_sym, rst_step. auto.
Qed.
Print Assumptions C49_subspaces_invariant.

(** Subspaces are numbered 0..n_subspaces()-1 without gaps, in the order of their first
    basis state: the number of a subspace whose first state is x is exactly the number of
    subspaces met before x. *)
Theorem C49_numbering : forall A d states (h : lop A) me sp me',
  (forall x, In x states -> x < d) -> op_on states h ->
  sp_construct d states h me = Some (sp, me') ->
  (forall x, In x states -> exists k, label sp x = Some k /\ k < n_subspaces sp) /\
  (forall k, k < n_subspaces sp -> exists x, In x states /\ label sp x = Some k) /\
  (forall l1 x l2, states = l1 ++ x :: l2 -> (forall y, In y l1 -> ~ h_connected states h y x) ->
     exists k, label sp x = Some k /\ forall i, i < k <-> exists y, In y l1 /\ label sp y = Some i).
Proof.
  intros A d states h me sp me' Hst Hop H.
  destruct (sp_construct_spec d states h me Hst) as [sp1 [me1 [E [H1 [I [Hs [_ [HE _]]]]]]]].
  { intros a b Ha Hl. apply Hst. now apply (Hop a Ha). }
  rewrite H1 in H. injection H as -> ->. rewrite <- Hs. split; [|split].
  - intros x Hx. destruct (label_defined E sp x I Hx) as [_ [k [_ [K1 [K2 _]]]]]. eauto.
  - intros k Hk. apply (label_surj E sp k I Hk).
  - intros l1 x l2 Hd Hn. apply (label_order E sp l1 x l2 I Hd). intros y Hy K. apply (Hn y Hy). rewrite Hs. now apply HE.
Qed.
Print Assumptions C49_numbering.

(** The stored matrix elements are exactly the non-zero ones; other entries of the
    user-supplied map are left untouched. *)
Theorem C49_matrix_elements : forall A d states (h : lop A) me sp me',
  op_on states h -> sp_construct d states h me = Some (sp, me') ->
  forall i o,
    (forall a, In i states -> In (o, a) (h i) -> me_find me' (o, i) = Some a) /\
    (~ (In i states /\ links h i o) -> me_find me' (o, i) = me_find me (o, i)).
Proof.
  intros A d states h me sp me' Hop H. unfold sp_construct in H.
  destruct (phase1 h (ds_init d) me states) as [[ds0 me0]|] eqn:E; [|discriminate]. cbn [dbind fst snd] in H.
  destruct (update_root_to_subspace states ds0); [|discriminate]. cbn [dbind] in H. injection H as -> ->.
  apply (phase1_me h states (ds_init d) me ds0 me'); [|exact E]. intros i Hi. now apply (Hop i Hi).
Qed.
Print Assumptions C49_matrix_elements.

(** ** C50 *)
(** A partition reachable through the interface (the queries compress paths, so they
    change the representation). *)
Inductive sp_reachable {A} (d : nat) (states : list nat) : space_partition -> Prop :=
| sr_new (h : lop A) me sp me' : op_on states h -> sp_construct d states h me = Some (sp, me') -> sp_reachable d states sp
| sr_merge sp (Cd C : lop A) store sp' m1 m2 : sp_reachable d states sp -> op_on states Cd -> op_on states C ->
    merge_subspaces sp Cd C store = Some (sp', m1, m2) -> sp_reachable d states sp'
| sr_index sp x sp' k : sp_reachable d states sp -> In x states -> sp_index sp x = Some (sp', k) -> sp_reachable d states sp'
| sr_conn sp (op : lop A) sp' c : sp_reachable d states sp -> op_on states op -> find_connections sp op = Some (sp', c) -> sp_reachable d states sp'
| sr_basis sp i sp' b : sp_reachable d states sp -> subspace_basis sp i = Some (sp', b) -> sp_reachable d states sp'
| sr_bases sp sp' b : sp_reachable d states sp -> subspace_bases sp = Some (sp', b) -> sp_reachable d states sp'.

Lemma find_connections_spec {A} E sp (op : lop A) : sp_inv E sp -> op_on (sp_states sp) op ->
  exists sp' c, find_connections sp op = Some (sp', c) /\ sp_eq sp sp' /\ sp_inv E sp' /\ NoDup c /\
    (forall a b, In (a, b) c <-> exists i o, In i (sp_states sp) /\ links op i o /\ label sp i = Some a /\ label sp o = Some b).
Proof.
  intros I Hop. destruct (conn_outer_spec op E (sp_states sp) sp [] I) as [sp' [c [H1 [H2 [H3 [H4 H5]]]]]]; auto.
  { intros x o Hx Hl. now apply (Hop x Hx). }
  exists sp', c. split; [exact H1|]. split; [exact H2|]. split; [exact H3|]. split; [apply H4; constructor|].
  intros a b. rewrite H5. cbn. tauto.
Qed.
Lemma subspace_basis_spec E sp i : sp_inv E sp -> i < n_subspaces sp ->
  exists sp', subspace_basis sp i = Some (sp', filter (in_label sp i) (sp_states sp)) /\ sp_eq sp sp' /\ sp_inv E sp'.
Proof.
  intros I Hi. unfold subspace_basis. destruct (Nat.leb_spec (n_subspaces sp) i); [lia|].
  destruct (basis_loop_spec E i (sp_states sp) sp [] I) as [sp' [H1 H2]]; auto. exists sp'. split; [exact H1|exact H2].
Qed.
Lemma repeat_map_seq {B} (b : B) n : repeat b n = map (fun _ => b) (seq 0 n).
Proof. assert (forall s, repeat b n = map (fun _ => b) (seq s n)) as H; [|apply H]. induction n as [|n IH]; intros s; cbn; [reflexivity|]. f_equal. apply IH. Qed.
Lemma subspace_bases_spec E sp : sp_inv E sp ->
  exists sp', subspace_bases sp = Some (sp', map (fun k => filter (in_label sp k) (sp_states sp)) (seq 0 (n_subspaces sp))) /\ sp_eq sp sp' /\ sp_inv E sp'.
Proof.
  intros I. unfold subspace_bases. rewrite repeat_map_seq.
  destruct (bases_loop_spec E (sp_states sp) sp (fun _ => []) (n_subspaces sp) eq_refl I) as [sp' [H1 H2]]; auto. exists sp'. split; [exact H1|exact H2].
Qed.
Lemma reachable_inv {A} d states sp : (forall x, In x states -> x < d) -> @sp_reachable A d states sp ->
  exists E, sp_inv E sp /\ sp_states sp = states.
Proof.
  intros Hst H. induction H as [h me sp me' Hop H|sp Cd C store sp' m1 m2 _ [E [I Hs]] H1 H2 H|sp x sp' k _ [E [I Hs]] Hx H
    |sp op sp' c _ [E [I Hs]] Hop H|sp i sp' b _ [E [I Hs]] H|sp sp' b _ [E [I Hs]] H].
  - destruct (sp_construct_spec d states h me Hst) as [sp1 [me1 [E [H1 [I [Hs _]]]]]].
    { intros a b Ha Hl. apply Hst. now apply (Hop a Ha). }
    rewrite H1 in H. injection H as -> ->. eauto.
  - rewrite <- Hs in H1, H2. destruct (merge_subspaces_spec E sp Cd C store I H1 H2) as [sp1 [E' [K [I' [Hs' _]]]]].
    rewrite K in H. injection H as -> _ _. exists E'. split; [exact I'|congruence].
  - rewrite <- Hs in Hx. destruct (label_defined E sp x I Hx) as [sp1 [k1 [K [_ [_ [Heq I']]]]]]. rewrite K in H. injection H as -> ->.
    exists E. split; [exact I'|]. destruct Heq. congruence.
  - rewrite <- Hs in Hop. destruct (find_connections_spec E sp op I Hop) as [sp1 [c1 [K [Heq [I' _]]]]]. rewrite K in H. injection H as -> ->.
    exists E. split; [exact I'|]. destruct Heq. congruence.
  - assert (i < n_subspaces sp) as Hi. { unfold subspace_basis in H. destruct (Nat.leb_spec (n_subspaces sp) i); [discriminate|assumption]. }
    destruct (subspace_basis_spec E sp i I Hi) as [sp1 [K [Heq I']]]. rewrite K in H. injection H as -> _.
    exists E. split; [exact I'|]. destruct Heq. congruence.
  - destruct (subspace_bases_spec E sp I) as [sp1 [K [Heq I']]]. rewrite K in H. injection H as -> _.
    exists E. split; [exact I'|]. destruct Heq. congruence.
Qed.

(** merge_subspaces terminates; it only merges whole subspaces; and it never merges more
    than required: any equivalence relation that contains the old partition and is
    respected by Cd and C contains the new partition. *)
Theorem C50_merge_coarsens_minimally : forall A d states sp (Cd C : lop A) store,
  (forall x, In x states -> x < d) -> @sp_reachable A d states sp -> op_on states Cd -> op_on states C ->
  exists sp' m1 m2, merge_subspaces sp Cd C store = Some (sp', m1, m2) /\
    (forall x y, In x states -> In y states -> label sp x = label sp y -> label sp' x = label sp' y) /\
    (forall R : nat -> nat -> Prop, (forall x, R x x) -> (forall x y, R x y -> R y x) -> (forall x y z, R x y -> R y z -> R x z) ->
       (forall x y, In x states -> In y states -> label sp x = label sp y -> R x y) ->
       one_to_one states R Cd -> one_to_one states R C ->
       forall x y, In x states -> In y states -> label sp' x = label sp' y -> R x y).
Proof.
  intros A d states sp Cd C store Hst Hr H1 H2. destruct (reachable_inv d states sp Hst Hr) as [E [I Hs]]. subst states.
  destruct (merge_subspaces_spec E sp Cd C store I H1 H2) as [sp' [E' [K [I' [Hs' [HI [_ [_ HR]]]]]]]].
  exists sp'. do 2 eexists. split; [exact K|]. split.
  - intros x y Hx Hy Hl. apply (label_iff E' sp' x y I'); try (now rewrite Hs'). apply (connected_incl E E' _ _ HI). now apply (label_iff E sp x y I).
  - intros R Rr Rs Rt HER C1 C2 x y Hx Hy Hl. apply (label_iff E' sp' x y I') in Hl; try (now rewrite Hs').
    (* extend R by the identity-free part outside of states *)
    set (R' := fun a b => a = b \/ connected E a b \/ (exists a' b', In a' (sp_states sp) /\ In b' (sp_states sp) /\ connected E a a' /\ R a' b' /\ connected E b' b)).
    assert (eqv R') as HR'.
    { split; [now left|]. split.
      - intros a b [->|[H|[a' [b' [Ka [Kb [K1 [K2 K3]]]]]]]]; [now left|right; left; now apply connected_sym|].
        right; right. exists b', a'. split; [exact Kb|]. split; [exact Ka|]. split; [now apply connected_sym|]. split; [now apply Rs|now apply connected_sym].
      - intros a b c Hab Hbc. destruct Hab as [->|Hab]; [exact Hbc|]. destruct Hbc as [<-|Hbc]; [now right|].
        right. destruct Hab as [Hab|[a1 [b1 [Ka [Kb [K1 [K2 K3]]]]]]]; destruct Hbc as [Hbc|[b2 [c2 [La [Lb [L1 [L2 L3]]]]]]].
        + left. eapply connected_trans; eauto.
        + right. exists b2, c2. split; [exact La|]. split; [exact Lb|]. split; [eapply connected_trans; eauto|auto].
        + right. exists a1, b1. split; [exact Ka|]. split; [exact Kb|]. split; [exact K1|]. split; [exact K2|eapply connected_trans; eauto].
        + right. exists a1, c2. split; [exact Ka|]. split; [exact Lb|]. split; [exact K1|]. split; [|exact L3].
          apply Rt with b1; [exact K2|]. apply Rt with b2; [|exact L2].
          apply HER; auto. apply (label_iff E sp b1 b2 I Kb La). eapply connected_trans; eauto. }
    assert (forall a b, In a (sp_states sp) -> In b (sp_states sp) -> (R' a b -> R a b)) as HRR.
    { intros a b Ha Hb [->|[H|[a' [b' [Ka [Kb [K1 [K2 K3]]]]]]]]; [apply Rr| |].
      - apply HER; auto. now apply (label_iff E sp a b I).
      - apply Rt with a'; [apply HER; auto; now apply (label_iff E sp a a' I)|].
        apply Rt with b'; [exact K2|]. apply HER; auto; now apply (label_iff E sp b' b I). }
    apply HRR; auto. apply (HR R' HR'); auto.
    + intros a b Hab. right. now left.
    + intros a a' b b' Ha Ha' Haa Hl1 Hl2. assert (In b (sp_states sp)) as Hb by (now apply (H1 a Ha)). assert (In b' (sp_states sp)) as Hb' by (now apply (H1 a' Ha')).
      right; right. exists b, b'. split; [exact Hb|]. split; [exact Hb'|]. split; [apply connected_refl|]. split; [|apply connected_refl].
      apply (C1 a a'); auto.
    + intros a a' b b' Ha Ha' Haa Hl1 Hl2. assert (In b (sp_states sp)) as Hb by (now apply (H2 a Ha)). assert (In b' (sp_states sp)) as Hb' by (now apply (H2 a' Ha')).
      right; right. exists b, b'. split; [exact Hb|]. split; [exact Hb'|]. split; [apply connected_refl|]. split; [|apply connected_refl].
      apply (C2 a a'); auto.
Qed.
Print Assumptions C50_merge_coarsens_minimally.

(** Matrix elements returned by merge_subspaces. *)
Theorem C50_merge_matrix_elements : forall A d states sp (Cd C : lop A) store sp' m1 m2,
  (forall x, In x states -> x < d) -> @sp_reachable A d states sp -> op_on states Cd -> op_on states C ->
  merge_subspaces sp Cd C store = Some (sp', m1, m2) ->
  (store = false -> m1 = [] /\ m2 = []) /\
  (store = true -> forall i o,
     (forall a, In i states -> In (o, a) (Cd i) -> me_find m1 (o, i) = Some a) /\
     (~ (In i states /\ links Cd i o) -> me_find m1 (o, i) = None) /\
     (forall a, In i states -> In (o, a) (C i) -> me_find m2 (o, i) = Some a) /\
     (~ (In i states /\ links C i o) -> me_find m2 (o, i) = None)).
Proof.
  intros A d states sp Cd C store sp' m1 m2 Hst Hr H1 H2 H. destruct (reachable_inv d states sp Hst Hr) as [E [I Hs]]. subst states.
  destruct (merge_subspaces_spec E sp Cd C store I H1 H2) as [sp1 [E' [K _]]]. rewrite K in H. injection H as -> <- <-. split.
  - intros ->. now rewrite !me_all_false.
  - intros -> i o.
    destruct (me_all_spec Cd (sp_states sp) [] (fun i Hi => proj1 (H1 i Hi)) i o) as [A1 A2].
    destruct (me_all_spec C (sp_states sp) [] (fun i Hi => proj1 (H2 i Hi)) i o) as [B1 B2].
    auto.
Qed.
Print Assumptions C50_merge_matrix_elements.

(** ** C51 *)
(** What merge_subspaces guarantees: every subspace of the partition *before* the call is
    linked by Cd (and by C) to at most one subspace of the partition after the call... *)
Theorem C51_each_old_subspace_has_one_target : forall A d states sp (Cd C : lop A) store sp' m1 m2,
  (forall x, In x states -> x < d) -> @sp_reachable A d states sp -> op_on states Cd -> op_on states C ->
  merge_subspaces sp Cd C store = Some (sp', m1, m2) ->
  forall x x' y y', In x states -> In x' states -> label sp x = label sp x' ->
    (links Cd x y -> links Cd x' y' -> label sp' y = label sp' y') /\
    (links C x y -> links C x' y' -> label sp' y = label sp' y').
Proof.
  intros A d states sp Cd C store sp' m1 m2 Hst Hr H1 H2 H x x' y y' Hx Hx' Hl.
  destruct (reachable_inv d states sp Hst Hr) as [E [I Hs]]. subst states.
  destruct (merge_subspaces_spec E sp Cd C store I H1 H2) as [sp1 [E' [K [I' [Hs' [_ [U1 [U2 _]]]]]]]]. rewrite K in H. injection H as -> <- <-.
  apply (label_iff E sp x x' I Hx Hx') in Hl.
  split; intros L1 L2; apply (label_iff E' sp' y y' I'); rewrite ?Hs'.
  - now apply (H1 x Hx). - now apply (H1 x' Hx'). - now apply (U1 x x').
  - now apply (H2 x Hx). - now apply (H2 x' Hx'). - now apply (U2 x x').
Qed.
Print Assumptions C51_each_old_subspace_has_one_target.

(** ... so the connections are one-to-one if the call did not change the number of
    subspaces (repeating the call until it does not gives the documented guarantee). *)
Theorem C51_one_to_one_at_fixpoint : forall A d states sp (Cd C : lop A) store sp' m1 m2,
  (forall x, In x states -> x < d) -> @sp_reachable A d states sp -> op_on states Cd -> op_on states C ->
  merge_subspaces sp Cd C store = Some (sp', m1, m2) -> n_subspaces sp' = n_subspaces sp ->
  one_to_one states (fun x y => label sp' x = label sp' y) Cd /\
  one_to_one states (fun x y => label sp' x = label sp' y) C.
Proof.
  intros A d states sp Cd C store sp' m1 m2 Hst Hr H1 H2 H Hn.
  pose proof (C51_each_old_subspace_has_one_target A d states sp Cd C store sp' m1 m2 Hst Hr H1 H2 H) as P.
  destruct (reachable_inv d states sp Hst Hr) as [E [I Hs]]. subst states.
  destruct (merge_subspaces_spec E sp Cd C store I H1 H2) as [sp1 [E' [K [I' [Hs' [HI _]]]]]]. rewrite K in H. injection H as -> <- <-.
  assert (forall x x', In x (sp_states sp) -> In x' (sp_states sp) -> label sp' x = label sp' x' -> label sp x = label sp x') as Q.
  { intros x x' Hx Hx' Hl. apply (label_iff E sp x x' I Hx Hx'). apply (coarsening_same E E' sp sp' I I' Hs' HI Hn x x' Hx Hx').
    apply (label_iff E' sp' x x' I'); try (now rewrite Hs'). exact Hl. }
  split; intros x x' y y' Hx Hx' Hl L1 L2; destruct (P x x' y y' Hx Hx' (Q x x' Hx Hx' Hl)) as [P1 P2]; auto.
Qed.
Print Assumptions C51_one_to_one_at_fixpoint.

(** The documented guarantee itself is false: a single call can leave a subspace
    connected to two different subspaces.  Here H = 0 on four states (for instance two
    fermionic modes), Cd: |0> -> |2>, |1> -> |1>, |3> -> |0> + |3> and C is its adjoint.
    The call terminates with subspaces {0,3}, {1}, {2}, and Cd links {0,3} to both {2}
    and {0,3}. *)
Definition cexH : lop nat := fun _ => [].
Definition cexCd : lop nat := fun x =>
  match x with 0 => [(2, 1)] | 1 => [(1, 1)] | 3 => [(0, 1); (3, 1)] | _ => [] end.
Definition cexC : lop nat := fun x =>
  match x with 0 => [(3, 1)] | 1 => [(1, 1)] | 2 => [(0, 1)] | 3 => [(3, 1)] | _ => [] end.
Theorem C51_one_to_one_refuted :
  let states := [0; 1; 2; 3] in
  (forall x y a, In x states -> In y states -> (In (y, a) (cexCd x) <-> In (x, a) (cexC y))) /\
  exists sp me sp' m1 m2,
    sp_construct 4 states cexH [] = Some (sp, me) /\
    merge_subspaces sp cexCd cexC true = Some (sp', m1, m2) /\
    ~ one_to_one states (fun x y => label sp' x = label sp' y) cexCd.
Proof.
  cbv zeta. split.
  - intros x y a Hx Hy. repeat (destruct Hx as [<-|Hx]; [repeat (destruct Hy as [<-|Hy]; [cbn; intuition congruence|]); destruct Hy|]). destruct Hx.
  - do 5 eexists. split; [vm_compute; reflexivity|]. split; [vm_compute; reflexivity|].
    intros H. specialize (H 0 3 2 0). cbn [In] in H.
    assert (links cexCd 0 2) as L1 by (exists 1; cbn; auto).
    assert (links cexCd 3 0) as L2 by (exists 1; cbn; auto).
    assert (Some 2 = Some 0 :> option nat); [|discriminate].
    refine (H _ _ _ L1 L2); auto 6.
Qed.
Print Assumptions C51_one_to_one_refuted.

(** ** C52 *)
Theorem C52_find_connections_exact : forall A d states sp (op : lop A),
  (forall x, In x states -> x < d) -> @sp_reachable A d states sp -> op_on states op ->
  exists sp' c, find_connections sp op = Some (sp', c) /\ NoDup c /\
    forall a b, In (a, b) c <-> exists i o, In i states /\ links op i o /\ label sp i = Some a /\ label sp o = Some b.
Proof.
  intros A d states sp op Hst Hr Hop. destruct (reachable_inv d states sp Hst Hr) as [E [I Hs]]. subst states.
  destruct (find_connections_spec E sp op I Hop) as [sp' [c [K [_ [_ [K2 K3]]]]]]. eauto 6.
Qed.
Print Assumptions C52_find_connections_exact.

Theorem C52_subspace_bases_partition : forall A d states sp,
  (forall x, In x states -> x < d) -> @sp_reachable A d states sp ->
  exists sp' bases, subspace_bases sp = Some (sp', bases) /\ length bases = n_subspaces sp /\
    (forall i b, nth_error bases i = Some b ->
       (* b lists, in foreach order, the states of subspace i *)
       (forall x, In x b <-> In x states /\ label sp x = Some i) /\
       (exists f, b = filter f states) /\
       exists sp'', subspace_basis sp i = Some (sp'', b)) /\
    (forall i, n_subspaces sp <= i -> subspace_basis sp i = None).
Proof.
  intros A d states sp Hst Hr. destruct (reachable_inv d states sp Hst Hr) as [E [I Hs]]. subst states.
  destruct (subspace_bases_spec E sp I) as [sp' [K _]]. exists sp'. eexists. split; [exact K|].
  split; [now rewrite map_length, seq_length|]. split.
  - intros i b Hb. assert (i < n_subspaces sp) as Hi.
    { assert (i < length (map (fun k => filter (in_label sp k) (sp_states sp)) (seq 0 (n_subspaces sp)))) as L by (apply nth_error_Some; congruence).
      now rewrite map_length, seq_length in L. }
    rewrite (map_nth_error _ i (seq 0 (n_subspaces sp)) (d := i)) in Hb.
    2:{ rewrite nth_error_nth' with (d := 0) by (now rewrite seq_length). now rewrite seq_nth. }
    injection Hb as <-. split.
    + intros x. rewrite filter_In. unfold in_label. destruct (label sp x) as [j|].
      * rewrite Nat.eqb_eq. intuition congruence.
      * intuition congruence.
    + split; [eauto|]. destruct (subspace_basis_spec E sp i I Hi) as [sp'' [K2 _]]. eauto.
  - intros i Hi. unfold subspace_basis. apply Nat.leb_le in Hi. now rewrite Hi.
Qed.
Print Assumptions C52_subspace_bases_partition.

(** Non-vacuity: a Hamiltonian with components {0,2},{1},{3}; merging with Cd: 0->1, 2->3 joins 1 and 3. *)
Definition exH : lop nat := fun x => match x with 0 => [(2, 7)] | 2 => [(2, 1); (0, 7)] | 3 => [(3, 5)] | _ => [] end.
Definition exCd : lop nat := fun x => match x with 0 => [(1, 1)] | 2 => [(3, 1)] | _ => [] end.
Definition exC : lop nat := fun x => match x with 1 => [(0, 1)] | 3 => [(2, 1)] | _ => [] end.
Example C49_nonvacuous : op_on [0; 1; 2; 3] exH /\ op_on [0; 1; 2; 3] exCd /\
  exists sp me sp' m1 m2, sp_construct 4 [0; 1; 2; 3] exH [] = Some (sp, me) /\
    map (label sp) [0; 1; 2; 3] = [Some 0; Some 1; Some 0; Some 2] /\ me_find me (2, 0) = Some 7 /\
    merge_subspaces sp exCd exC true = Some (sp', m1, m2) /\
    map (label sp') [0; 1; 2; 3] = [Some 0; Some 1; Some 0; Some 1].
Proof.
  assert (forall op : lop nat, (forall x, In x [0; 1; 2; 3] -> NoDup (map fst (op x)) /\ Forall (fun p => In (fst p) [0; 1; 2; 3]) (op x)) -> op_on [0; 1; 2; 3] op) as H.
  { intros op H x Hx. destruct (H x Hx) as [H1 H2]. split; [exact H1|]. intros y [a Ha]. rewrite Forall_forall in H2. exact (H2 _ Ha). }
  split; [|split].
  - apply H. intros x Hx. repeat (destruct Hx as [<-|Hx]; [cbn; split; [repeat (apply NoDup_cons; [cbn; lia|]); apply NoDup_nil|repeat (apply Forall_cons; [cbn; lia|]); apply Forall_nil]|]); destruct Hx.
  - apply H. intros x Hx. repeat (destruct Hx as [<-|Hx]; [cbn; split; [repeat (apply NoDup_cons; [cbn; lia|]); apply NoDup_nil|repeat (apply Forall_cons; [cbn; lia|]); apply Forall_nil]|]); destruct Hx.
  - do 5 eexists. split; [vm_compute; reflexivity|]. split; [vm_compute; reflexivity|]. split; [reflexivity|]. split; vm_compute; reflexivity.
Qed.
