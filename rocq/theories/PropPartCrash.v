(** * Property C80: exceptions while partitioning a Hilbert space.
    The crash point [k] is the number of calls that succeed before one throws
    (PartCrashModel.v).  [label sp x] is sp[x] ([None]: it throws out_of_range). *)
From Coq Require Import List Bool Arith Lia Relations.
From Verif Require Import DSModel DSSpec DSProofs SPModel SPSpec SPProofs SPMerge SPMain PropSP PartCrashModel PartCrashProofs.
Import ListNotations.

(** The partition that an uninterrupted call would give, and the four ranges of
    crash points. *)
Theorem C80_interrupted_merge : forall A d states sp (Cd C : lop A) store k,
  (forall x, In x states -> x < d) -> @sp_reachable A d states sp -> op_on states Cd -> op_on states C ->
  let F := fill_calls store Cd C states in let N := length states in
  exists new m1 m2, merge_subspaces sp Cd C store = Some (new, m1, m2) /\
  (* an operator throws, or memory runs out while the connections are collected: as before the call *)
  (k < F -> exists sp', merge_subspaces_c k sp Cd C store = Some (sp', None) /\
     n_subspaces sp' = n_subspaces sp /\ forall x, In x states -> label sp' x = label sp x) /\
  (* memory runs out while the subspaces are renumbered: the new partition, but
     only the subspaces of the first k - F basis states have got a number *)
  (F <= k < F + N -> exists sp', merge_subspaces_c k sp Cd C store = Some (sp', None) /\
     (forall j, j < n_subspaces sp' <-> exists x, In x (firstn (k - F) states) /\ label new x = Some j) /\
     (forall x j, In x states -> label new x = Some j ->
        label sp' x = if j <? n_subspaces sp' then Some j else None)) /\
  (* memory runs out in the return statement: the new partition *)
  (k = F + N -> merge_subspaces_c k sp Cd C store = Some (new, None)) /\
  (F + N < k -> merge_subspaces_c k sp Cd C store = Some (new, Some (m1, m2))).
Proof.
  intros A d states sp Cd C store k Hst Hr H1 H2 F N. destruct (reachable_inv d states sp Hst Hr) as [E [I Hs]]. subst states.
  destruct (merge_c_spec E sp Cd C store k I H1 H2) as (spn & m1 & m2 & E' & M & I' & Hs' & P1 & P2 & P3 & P4).
  exists spn, m1, m2. split; [exact M|]. split; [|split; [|split; [exact P3|exact P4]]].
  - intros h. destruct (P1 h) as (sp' & Q1 & Q2 & Q3 & _). exists sp'. split; [exact Q1|]. split.
    + unfold n_subspaces. destruct Q3 as [_ [-> _]]. reflexivity.
    + intros x Hx. exact (label_eq E sp sp' x I Q2 Q3 Hx).
  - intros h. destruct (P2 h) as (sp' & Q1 & Q2 & Q3 & Q4 & Q5). exists sp'. split; [exact Q1|]. split; [exact Q5|].
    intros x j Hx Lx. now rewrite (Q4 x Hx), Lx.
Qed.
Print Assumptions C80_interrupted_merge.

(** Any object left behind by an exception can be used for another call of
    merge_subspaces, which gives what it would have given without the failed call,
    or after a successful one; in particular it is a complete partition again. *)
Theorem C80_retry : forall A d states sp (Cd C Cd' C' : lop A) store store' k sp',
  (forall x, In x states -> x < d) -> @sp_reachable A d states sp ->
  op_on states Cd -> op_on states C -> op_on states Cd' -> op_on states C' ->
  merge_subspaces_c k sp Cd C store = Some (sp', None) ->
  exists base good m1 m2 res,
    (if k <? fill_calls store Cd C states then base = sp else exists n1 n2, merge_subspaces sp Cd C store = Some (base, n1, n2)) /\
    merge_subspaces base Cd' C' store' = Some (good, m1, m2) /\
    merge_subspaces sp' Cd' C' store' = Some (res, m1, m2) /\
    n_subspaces res = n_subspaces good /\
    (forall x, In x states -> label res x = label good x /\ label res x <> None).
Proof.
  intros A d states sp Cd C Cd' C' store store' k sp' Hst Hr H1 H2 H3 H4 HC.
  destruct (reachable_inv d states sp Hst Hr) as [E [I Hs]]. subst states.
  destruct (merge_c_spec E sp Cd C store k I H1 H2) as (spn & m1 & m2 & E' & M & I' & Hs' & P1 & P2 & P3 & P4).
  assert (exists base E0, (if k <? fill_calls store Cd C (sp_states sp) then base = sp else exists n1 n2, merge_subspaces sp Cd C store = Some (base, n1, n2)) /\
    sp_inv E0 base /\ sp_states base = sp_states sp /\ sp_states sp' = sp_states sp /\ ds_sim E0 (sp_ds base) (sp_ds sp')) as (base & E0 & B1 & B2 & B3 & B4 & B5).
  { destruct (Nat.ltb_spec k (fill_calls store Cd C (sp_states sp))) as [L|G].
    - destruct (P1 L) as (s & Q1 & Q2 & [Q3 _] & Q4). rewrite HC in Q1. injection Q1 as <-. exists sp, E. auto.
    - destruct (Nat.lt_ge_cases k (fill_calls store Cd C (sp_states sp) + length (sp_states sp))) as [L'|G'].
      + destruct P2 as (s & Q1 & Q2 & Q3 & _); [lia|]. rewrite HC in Q1. injection Q1 as <-. exists spn, E'. split; [eauto|]. auto.
      + apply Nat.lt_eq_cases in G'. destruct G' as [G'|G'].
        * specialize (P4 G'). rewrite HC in P4. discriminate.
        * symmetry in G'. specialize (P3 G'). rewrite HC in P3. injection P3 as <-. exists sp', E'. split; [eauto|].
          split; [exact I'|]. split; [exact Hs'|]. split; [exact Hs'|]. apply ds_sim_refl. apply I'. }
  rewrite <- B3 in H3, H4.
  destruct (merge_sim E0 base sp' Cd' C' store' B5 ltac:(congruence) (proj1 (proj2 B2)) H3 H4)
    as (good & res & n1 & n2 & E2 & G1 & G2 & G3 & G4 & G5 & G6 & G7 & G8).
  exists base, good, n1, n2, res. split; [exact B1|]. split; [exact G1|]. split; [exact G2|]. split; [congruence|].
  intros x Hx. rewrite <- B3 in Hx. split; [symmetry; now apply G7|].
  rewrite <- G6 in Hx. destruct (label_defined E2 res x G4 Hx) as [s [j [_ [-> _]]]]. discriminate.
Qed.
Print Assumptions C80_retry.

(** An exception in the constructor: there is no object, and the caller's map of matrix
    elements has received an initial part of the elements, in the order of computation. *)
Theorem C80_interrupted_constructor : forall A d states (h : lop A) me k,
  (forall x, In x states -> x < d) -> op_on states h ->
  exists n me' res, sp_construct_c k d states h me = Some (me', res) /\
  (res = None <-> k < 1 + phase1_calls h states + length states) /\
  (forall sp, res = Some sp -> exists me2, sp_construct d states h me = Some (sp, me2)) /\
  (res <> None -> n = length (elements h states)) /\
  (forall key a, In (key, a) (firstn n (elements h states)) -> me_find me' key = Some a) /\
  (forall key, (forall a, ~ In (key, a) (firstn n (elements h states))) -> me_find me' key = me_find me key).
Proof.
  intros A d states h me k Hst Hop.
  assert (ds_size (ds_init d) = d) as Z0 by (unfold ds_size, ds_init; cbn; apply seq_length).
  assert (forall key a b, In (key, a) (elements h states) -> In (key, b) (elements h states) -> a = b) as FUN.
  { intros key a b Ha Hb. apply in_flat_map in Ha, Hb. destruct Ha as [i [Hi Ha]], Hb as [j [Hj Hb]].
    apply in_map_iff in Ha, Hb. destruct Ha as [[o a'] [Ea Ha]], Hb as [[o2 b'] [Eb Hb]]. cbn [fst snd] in *.
    destruct key as [ko ki]. injection Ea as -> -> ->. injection Eb as -> -> ->.
    destruct (Hop ki Hi) as [ND _]. clear - ND Ha Hb. induction (h ki) as [|[x y] l IH]; [destruct Ha|].
    cbn [map fst] in ND. inversion ND; subst. destruct Ha as [Ha|Ha], Hb as [Hb|Hb].
    - congruence.
    - injection Ha as -> ->. exfalso. apply H1. now apply (in_map fst) in Hb.
    - injection Hb as -> ->. exfalso. apply H1. now apply (in_map fst) in Ha.
    - auto. }
  assert (forall n me', me' = store_all me (firstn n (elements h states)) ->
    (forall key a, In (key, a) (firstn n (elements h states)) -> me_find me' key = Some a) /\
    (forall key, (forall a, ~ In (key, a) (firstn n (elements h states))) -> me_find me' key = me_find me key)) as ME.
  { intros n me' ->.
    assert (forall p, In p (firstn n (elements h states)) -> In p (elements h states)) as Hin.
    { intros p hp. rewrite <- (firstn_skipn n). apply in_or_app. auto. }
    split.
    - intros key a Ha. apply store_all_some; [|exact Ha]. intros b Hb. apply (FUN key); auto.
    - intros key Hn. apply store_all_none. intros K. apply in_map_iff in K. destruct K as [[k' a] [Ek K]]. cbn [fst] in Ek. subst k'. exact (Hn a K). }
  destruct k as [|k].
  { exists 0, me, None. split; [reflexivity|]. split; [split; [lia|reflexivity]|]. split; [discriminate|]. split; [congruence|]. apply ME. reflexivity. }
  cbn [sp_construct_c].
  destruct (phase1_c_spec h states [] k (ds_init d) me (ds_init_inv d)) as (n & Hn & P & Q).
  { intros i Hi. rewrite Z0. auto. } { rewrite Z0. now apply op_on_bounded. }
  destruct (Nat.lt_ge_cases k (phase1_calls h states)) as [L|G].
  - rewrite (P L). cbn [dbind fst snd]. exists n. do 2 eexists. split; [reflexivity|]. split; [split; [lia|reflexivity]|]. split; [discriminate|].
    split; [congruence|]. apply ME. reflexivity.
  - destruct (Q G) as (En & d1 & E1 & I1 & Z1 & [me1 Ph] & Q1). rewrite Q1. cbn [dbind fst snd].
    destruct (update_c_spec E1 (k - phase1_calls h states) states d1 I1) as [spn [U1 [U2 [U3 [U4 [U5 U6]]]]]].
    { intros x Hx. rewrite Z1, Z0. auto. }
    assert (store_all me (elements h states) = store_all me (firstn n (elements h states))) as ES by (rewrite En, firstn_all; reflexivity).
    destruct (Nat.lt_ge_cases (k - phase1_calls h states) (length states)) as [L'|G'].
    + destruct (U6 L') as (sp' & V1 & _). rewrite V1. cbn [dbind fst snd].
      exists n. do 2 eexists. split; [reflexivity|]. split; [split; [lia|reflexivity]|]. split; [discriminate|].
      split; [congruence|]. apply ME. exact ES.
    + rewrite (U5 G'). cbn [dbind fst snd].
      exists n. do 2 eexists. split; [reflexivity|]. split; [split; [discriminate|lia]|]. split.
      * intros sp [= <-]. exists me1. unfold sp_construct. rewrite Ph. cbn [dbind fst snd]. rewrite U1. reflexivity.
      * split; [auto|]. apply ME. exact ES.
Qed.
Print Assumptions C80_interrupted_constructor.

(** The partition left behind by an exception during renumbering is not usable:
    sp[x] throws for x = 1, and find_connections() dereferences the end iterator
    (space_partition.hpp:247, here [None]).  H = 0 on two states, Cd = C = 1. *)
Definition cr_zero : lop nat := fun _ => [].
Definition cr_one : lop nat := fun x => [(x, 1)].
Theorem C80_unusable_refuted :
  op_on [0; 1] cr_one /\
  exists sp me sp', sp_construct 2 [0; 1] cr_zero [] = Some (sp, me) /\ label sp 0 = Some 0 /\ label sp 1 = Some 1 /\
    merge_subspaces_c 15 sp cr_one cr_one true = Some (sp', None) /\
    n_subspaces sp' = 1 /\ label sp' 0 = Some 0 /\ label sp' 1 = None /\ find_connections sp' cr_one = None.
Proof.
  split.
  - intros x Hx. split; [repeat constructor; auto|]. intros y [a [[= <- <-]|[]]]. exact Hx.
  - do 3 eexists. split; [vm_compute; reflexivity|]. do 2 (split; [vm_compute; reflexivity|]). split; [vm_compute; reflexivity|].
    repeat (split; [vm_compute; reflexivity|]). vm_compute. reflexivity.
Qed.
Print Assumptions C80_unusable_refuted.

(** Non-vacuity: H = 0 on four states; Cd links 0 to 1 and 2, so that {1} and {2} are merged.
    The call makes 20 calls that may throw before the renumbering, and 4 during it. *)
Definition cr_Cd : lop nat := fun x => match x with 0 => [(1, 1); (2, 1)] | _ => [] end.
Definition cr_C : lop nat := fun x => match x with 1 => [(0, 1)] | 2 => [(0, 1)] | _ => [] end.
Example C80_ex :
  op_on [0; 1; 2; 3] cr_Cd /\ op_on [0; 1; 2; 3] cr_C /\ fill_calls true cr_Cd cr_C [0; 1; 2; 3] = 20 /\
  (exists sp, @sp_reachable nat 4 [0; 1; 2; 3] sp /\
    (let at_k k := option_map (fun r => (map (label (fst r)) [0; 1; 2; 3], match snd r with Some _ => true | None => false end)) (merge_subspaces_c k sp cr_Cd cr_C true) in
     at_k 19 = Some ([Some 0; Some 1; Some 2; Some 3], false) /\
     at_k 20 = Some ([None; None; None; None], false) /\
     at_k 22 = Some ([Some 0; Some 1; Some 1; None], false) /\
     at_k 24 = Some ([Some 0; Some 1; Some 1; Some 2], false) /\
     at_k 25 = Some ([Some 0; Some 1; Some 1; Some 2], true))).
Proof.
  split; [|split; [|split; [reflexivity|]]].
  - intros x Hx. destruct Hx as [<-|[<-|[<-|[<-|[]]]]]; cbn; (split; [repeat (apply NoDup_cons; [cbn; intuition discriminate|]); apply NoDup_nil|
      intros y [a Hy]; cbn in Hy; repeat (destruct Hy as [Hy|Hy]; [injection Hy as <- <-; auto|]); destruct Hy]).
  - intros x Hx. destruct Hx as [<-|[<-|[<-|[<-|[]]]]]; cbn; (split; [repeat (apply NoDup_cons; [cbn; intuition discriminate|]); apply NoDup_nil|
      intros y [a Hy]; cbn in Hy; repeat (destruct Hy as [Hy|Hy]; [injection Hy as <- <-; auto|]); destruct Hy]).
  - destruct (sp_construct 4 [0; 1; 2; 3] cr_zero []) as [[sp me]|] eqn:E; [|vm_compute in E; discriminate].
    exists sp. split.
    + apply (sr_new 4 [0; 1; 2; 3] cr_zero [] sp me); [|exact E]. intros x _. split; [constructor|]. intros y [a []].
    + vm_compute in E. injection E as <- _. cbn zeta. repeat split; vm_compute; reflexivity.
Qed.
