(** * C82: monomials behave like sequences of generators, although copies share them *)
From Coq Require Import List Bool Arith Lia.
From Verif Require Import MonModel MonSpec MonProofs.
Import ListNotations.

Section PROP.
  Context {G : Type}.
  (** what size() and operator[] show of every monomial ([None]: a destroyed generator) *)
  Definition contents (s : @mstate G) : list (list (option G)) := map (m_value s) (m_vars s).
  (** how many generators of all monomials are the object at address [id] *)
  Definition occurrences (s : @mstate G) (id : nat) : nat :=
    list_sum (map (fun v => count_occ Nat.eq_dec (v_ids v) id) (m_vars s)).

  Lemma contents_rel : forall s A, rel s A -> contents s = map (map Some) A.
  Proof.
    intros s A [_ HV]. unfold contents, m_value. revert HV. generalize (m_heap s) as h. intros h HV.
    induction HV as [|v l vs A Hv HF IH]; simpl; [reflexivity|]. rewrite IH. f_equal. exact Hv.
  Qed.
  Lemma occurrences_refs : forall s id, occurrences s id = count_occ Nat.eq_dec (refs s) id.
  Proof.
    intros s id. unfold occurrences, refs. induction (m_vars s) as [|v vs IH]; simpl; [reflexivity|].
    rewrite count_occ_app, <- IH. reflexivity.
  Qed.

  (** Programs whose arguments are in range, and that never append a range of a
      monomial to itself, run without error and every monomial holds the sequence
      of generators that the program describes; whatever the growth policy of vectors. *)
  Theorem C82_values : forall (grow : nat -> nat) (p : list (@mop G)) A,
    arun [] p = Some A -> Forall no_self_range p ->
    exists s, mrun grow mempty p = Done s /\ contents s = map (map Some) A.
  Proof.
    intros grow p A Ha Hn. destruct (run_safe grow p mempty [] A rel_empty Hn Ha) as (s & E & R).
    exists s. split; [exact E|]. apply contents_rel. exact R.
  Qed.
  (** Every program that finishes has computed the sequences it describes. *)
  Theorem C82_finished : forall (grow : nat -> nat) (p : list (@mop G)) s,
    mrun grow mempty p = Done s ->
    exists A, arun [] p = Some A /\ contents s = map (map Some) A.
  Proof.
    intros grow p s H. destruct (run_done grow p mempty [] s rel_empty H) as (A & E & R).
    exists A. split; [exact E|]. apply contents_rel. exact R.
  Qed.
  (** Life times: at every point of every program a generator object exists exactly as
      long as some monomial contains it, and its use count is the number of places. *)
  Theorem C82_lifetime : forall (grow : nat -> nat) (p : list (@mop G)) s,
    mrun grow mempty p = Done s ->
    (forall id g n, nth_error (m_heap s) id = Some (Some (g, n)) -> n = occurrences s id /\ 0 < n) /\
    (forall id, 0 < occurrences s id -> exists g, lookup (m_heap s) id = Some g) /\
    (Forall (fun v => v_ids v = []) (m_vars s) -> Forall (fun o => o = None) (m_heap s)).
  Proof.
    intros grow p s H. destruct (run_done grow p mempty [] s rel_empty H) as (A & _ & ((Hacc & _) & _)).
    split; [|split].
    - intros id g n E. specialize (Hacc id). rewrite E, <- occurrences_refs in Hacc. exact Hacc.
    - intros id Ho. rewrite occurrences_refs in Ho. apply (acc_lookup _ _ _ Hacc).
      apply (count_occ_In Nat.eq_dec). exact Ho.
    - intros He. assert (Er : refs s = []).
      { unfold refs. induction He as [|v vs Hv HF IH]; simpl; [reflexivity|]. rewrite Hv. exact IH. }
      rewrite Er in Hacc. apply Forall_forall. intros o Ho. apply In_nth_error in Ho. destruct Ho as (id & E).
      specialize (Hacc id). rewrite E in Hacc. destruct o as [[g n]|]; [|reflexivity]. simpl in Hacc. lia.
  Qed.
  (** m.append(m.range) : undefined exactly when the vector has to grow *)
  Theorem C82_self_range : forall (grow : nat -> nat) (p : list (@mop G)) s i v a b,
    mrun grow mempty p = Done s -> nth_error (m_vars s) i = Some v -> a <= b -> b <= length (v_ids v) ->
    (mstep grow s (MAppendRange i i a b) = UB <-> a < b /\ v_cap v < length (v_ids v) + (b - a)) /\
    (~ (a < b /\ v_cap v < length (v_ids v) + (b - a)) ->
     exists s' l, nth_error (contents s) i = Some (map Some l) /\ mstep grow s (MAppendRange i i a b) = Done s' /\
       contents s' = setl (contents s) i (map Some (l ++ slice a b l))).
  Proof.
    intros grow p s i v a b H Ev Hab Hb.
    destruct (run_done grow p mempty [] s rel_empty H) as (A & _ & R).
    pose proof R as [_ HV]. destruct (F2_l _ _ _ HV i v Ev) as (l & El & Hv). pose proof (vrel_len _ _ _ Hv) as HL.
    assert (Ea : astep A (MAppendRange i i a b) = Some (setl A i (l ++ slice a b l))).
    { simpl. rewrite El, (proj2 (Nat.leb_le a b) Hab), <- HL, (proj2 (Nat.leb_le b _) Hb). simpl.
      unfold upd_val. rewrite El. reflexivity. }
    destruct (step_some grow s A _ _ R Ea) as [(Hno & s' & E & R')|((i' & a' & b' & v' & Eo & Ev' & H1 & H2) & E)].
    - split.
      + rewrite E. split; [discriminate|]. intros [H1 H2]. exfalso. apply Hno. exists i, a, b, v. auto.
      + intros _. exists s', l. split.
        * rewrite (contents_rel s A R). apply map_nth_error. exact El.
        * split; [exact E|]. rewrite (contents_rel _ _ R'), (contents_rel _ _ R), setl_map. reflexivity.
    - injection Eo as <- _ <- <-. rewrite Ev in Ev'. injection Ev' as <-. split.
      + rewrite E. split; auto.
      + intros Hn. exfalso. apply Hn. auto.
  Qed.
  (** m.append(m) is safe and doubles the monomial *)
  Theorem C82_self_append : forall (grow : nat -> nat) (p : list (@mop G)) s i l,
    mrun grow mempty p = Done s -> nth_error (contents s) i = Some (map Some l) ->
    exists s', mstep grow s (MAppendMono i i) = Done s' /\ contents s' = setl (contents s) i (map Some (l ++ l)).
  Proof.
    intros grow p s i l H Hi.
    destruct (run_done grow p mempty [] s rel_empty H) as (A & _ & R).
    rewrite (contents_rel _ _ R) in Hi.
    destruct (nth_error A i) as [l'|] eqn:El.
    - rewrite (map_nth_error _ _ _ El) in Hi. injection Hi as Hi.
      assert (El' : l' = l).
      { clear - Hi. revert l Hi. induction l' as [|x l' IH]; intros [|y l] Hi; simpl in *; try discriminate; [reflexivity|].
        injection Hi as -> Hi. f_equal. apply IH. exact Hi. }
      subst l'. destruct (append_mono_ok grow s A i i l l R El El) as (s' & E & R').
      exists s'. split; [exact E|]. rewrite (contents_rel _ _ R'), (contents_rel _ _ R), setl_map. reflexivity.
    - apply nth_error_None in El. assert (Hc : nth_error (map (map Some) A) i = None) by (apply nth_error_None; rewrite map_length; exact El).
      rewrite Hc in Hi. discriminate.
  Qed.
End PROP.

(** Non-vacuity: a copy shares its generators, survives the destruction of the
    original and is not affected by changes of it. *)
Definition C82_prog : list (@mop nat) :=
  [MNew [10; 20; 30]; MCopy 0; MAppendMono 1 1; MSwap 1 0 5; MConcat [PRange 0 1 3; PGen 1 0; PMono 0];
   MDestroy 0; MMove 1; MAssign 0 2; MAppendRange 0 3 4 6].
Example C82_ex :
  arun [] C82_prog = Some [[20; 30; 30; 10; 20; 30; 20; 10]; []; [20; 30; 30; 10; 20; 30]; [30; 20; 30; 10; 20; 10]] /\
  Forall no_self_range C82_prog /\
  (exists s, mrun (fun c => 2 * c + 1) mempty C82_prog = Done s /\ occurrences s 1 = 7 /\ lookup (m_heap s) 1 = Some 20).
Proof.
  split; [vm_compute; reflexivity|]. split.
  - repeat constructor. discriminate.
  - eexists. split; [vm_compute; reflexivity|]. split; vm_compute; reflexivity.
Qed.
Example C82_ex_self :
  (exists s, mrun (fun c => 2 * c + 1) mempty [MNew [10; 20; 30]; MDestroy 0] = Done s /\ m_heap s = [None; None; None]) /\
  (* growth 0, 1, 3: capacity 3 is full, so the range loop reads through a dangling iterator *)
  mrun (fun c => 2 * c + 1) mempty [MNew [10; 20; 30]; MAppendRange 0 0 0 1] = UB /\
  (* capacity 3 but two elements: works *)
  (exists s, mrun (fun c => 2 * c + 1) mempty [MNew [10; 20]; MAppendRange 0 0 0 1] = Done s /\
             contents s = [[Some 10; Some 20; Some 10]]).
Proof.
  split; [|split].
  - eexists. split; [vm_compute; reflexivity|reflexivity].
  - vm_compute. reflexivity.
  - eexists. split; [vm_compute; reflexivity|vm_compute; reflexivity].
Qed.

Print Assumptions C82_values.
Print Assumptions C82_finished.
Print Assumptions C82_lifetime.
Print Assumptions C82_self_range.
Print Assumptions C82_self_append.
