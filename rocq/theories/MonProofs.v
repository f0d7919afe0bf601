(** * Proofs about monomials as vectors of shared generators *)
From Coq Require Import List Bool Arith Lia Permutation.
From Verif Require Import MonModel MonSpec.
Import ListNotations.

Lemma setl_length : forall X (l : list X) i x, length (setl l i x) = length l.
Proof. induction l as [|y l IH]; intros [|i] x; simpl; auto. Qed.
Lemma setl_nth_eq : forall X (l : list X) i x, i < length l -> nth_error (setl l i x) i = Some x.
Proof. induction l as [|y l IH]; intros [|i] x H; simpl in *; try lia; auto. apply IH. lia. Qed.
Lemma setl_nth_neq : forall X (l : list X) i k x, i <> k -> nth_error (setl l i x) k = nth_error l k.
Proof. induction l as [|y l IH]; intros [|i] [|k] x H; simpl; auto; try lia. Qed.
Lemma setl_setl : forall X (l : list X) i x y, setl (setl l i x) i y = setl l i y.
Proof. induction l as [|z l IH]; intros [|i] x y; simpl; auto. f_equal. auto. Qed.
Lemma setl_same : forall X (l : list X) i x, nth_error l i = Some x -> setl l i x = l.
Proof. induction l as [|z l IH]; intros [|i] x H; simpl in *; try congruence. f_equal. auto. Qed.
Lemma setl_map : forall X Y (f : X -> Y) (l : list X) i x, map f (setl l i x) = setl (map f l) i (f x).
Proof. induction l as [|z l IH]; intros [|i] x; simpl; auto. f_equal. auto. Qed.
Lemma setl_app_last : forall X (l : list X) x y, setl (l ++ [x]) (length l) y = l ++ [y].
Proof. induction l as [|z l IH]; intros x y; simpl; auto. f_equal. auto. Qed.
Lemma nth_lt : forall X (l : list X) i x, nth_error l i = Some x -> i < length l.
Proof. intros X l i x H. apply nth_error_Some. congruence. Qed.
Lemma setl_Forall : forall X (P : X -> Prop) (l : list X) i x, Forall P l -> P x -> Forall P (setl l i x).
Proof. induction l as [|z l IH]; intros [|i] x H Hx; simpl; auto; inversion H; subst; constructor; auto. Qed.
Lemma setl_flat : forall X Y (f : X -> list Y) (l : list X) i x,
  nth_error l i = Some x ->
  exists rest, Permutation (flat_map f l) (f x ++ rest) /\
    forall y, Permutation (flat_map f (setl l i y)) (f y ++ rest).
Proof.
  induction l as [|z l IH]; intros [|i] x H; simpl in *; try discriminate.
  - injection H as ->. exists (flat_map f l). split; auto.
  - destruct (IH i x H) as (rest & H1 & H2).
    exists (f z ++ rest). split; [|intros y].
    + rewrite H1, !app_assoc. apply Permutation_app_tail, Permutation_app_comm.
    + rewrite (H2 y), !app_assoc. apply Permutation_app_tail, Permutation_app_comm.
Qed.

Section F2.
  Context {X Y : Type} (P : X -> Y -> Prop).
  Lemma F2_len : forall l m, Forall2 P l m -> length l = length m.
  Proof. induction 1; simpl; auto. Qed.
  Lemma F2_l : forall l m, Forall2 P l m -> forall i x, nth_error l i = Some x -> exists y, nth_error m i = Some y /\ P x y.
  Proof. induction 1; intros [|i] z Hz; simpl in *; try discriminate; eauto. injection Hz as <-. eauto. Qed.
  Lemma F2_r : forall l m, Forall2 P l m -> forall i y, nth_error m i = Some y -> exists x, nth_error l i = Some x /\ P x y.
  Proof. induction 1; intros [|i] z Hz; simpl in *; try discriminate; eauto. injection Hz as <-. eauto. Qed.
  Lemma F2_setl : forall l m, Forall2 P l m -> forall i x y, P x y -> Forall2 P (setl l i x) (setl m i y).
  Proof. induction 1; intros [|i] u v Hu; simpl; constructor; auto. Qed.
  Lemma F2_app1 : forall l m x y, Forall2 P l m -> P x y -> Forall2 P (l ++ [x]) (m ++ [y]).
  Proof. intros. apply Forall2_app; auto. Qed.
End F2.

Section PROOFS.
  Context {G : Type} (grow : nat -> nat).
  Notation heap := (@heap G).
  Notation mstate := (@mstate G).
  Notation cnt := (count_occ Nat.eq_dec).

  (** every use count is the number of references; an object without reference is gone *)
  Definition acc (h : heap) (l : list nat) : Prop :=
    forall id, match nth_error h id with
               | Some (Some (_, n)) => n = cnt l id /\ 0 < n
               | _ => cnt l id = 0
               end.
  Lemma acc_perm : forall h l l', Permutation l l' -> acc h l -> acc h l'.
  Proof.
    intros h l l' HP H id. specialize (H id).
    assert (E : cnt l id = cnt l' id) by (apply (proj1 (Permutation_count_occ Nat.eq_dec l l') HP)).
    rewrite <- E. exact H.
  Qed.
  Lemma acc_in : forall h l id, acc h l -> In id l -> exists g n, nth_error h id = Some (Some (g, n)) /\ n = cnt l id.
  Proof.
    intros h l id H Hin. specialize (H id). apply (count_occ_In Nat.eq_dec) in Hin.
    destruct (nth_error h id) as [[[g n]|]|]; try lia. exists g, n. split; [reflexivity|apply H].
  Qed.
  Lemma acc_lookup : forall h l id, acc h l -> In id l -> exists g, lookup h id = Some g.
  Proof. intros h l id H Hin. destruct (acc_in h l id H Hin) as (g & n & E & _). unfold lookup. rewrite E. eauto. Qed.
  Lemma lookup_in : forall h l id g, acc h l -> lookup h id = Some g -> In id l.
  Proof.
    intros h l id g H E. specialize (H id). unfold lookup in E.
    destruct (nth_error h id) as [[[g' n]|]|]; try discriminate. apply (count_occ_In Nat.eq_dec). lia.
  Qed.

  Lemma retain_ok : forall h l id, acc h l -> In id l ->
    exists h', retain h id = Some h' /\ acc h' (id :: l) /\ forall k, lookup h' k = lookup h k.
  Proof.
    intros h l id H Hin. destruct (acc_in h l id H Hin) as (g & n & E & En).
    unfold retain. rewrite E. eexists. split; [reflexivity|].
    pose proof (nth_lt _ _ _ _ E) as Hlt.
    split.
    - intros k. destruct (Nat.eq_dec id k) as [<-|Hne].
      + rewrite setl_nth_eq by exact Hlt. rewrite count_occ_cons_eq by reflexivity. lia.
      + rewrite setl_nth_neq by exact Hne. rewrite count_occ_cons_neq by exact Hne. apply H.
    - intros k. unfold lookup. destruct (Nat.eq_dec id k) as [<-|Hne].
      + rewrite setl_nth_eq by exact Hlt. rewrite E. reflexivity.
      + rewrite setl_nth_neq by exact Hne. reflexivity.
  Qed.
  Lemma release_ok : forall h l id, acc h (id :: l) ->
    exists h', release h id = Some h' /\ acc h' l /\ forall k, In k l -> lookup h' k = lookup h k.
  Proof.
    intros h l id H. destruct (acc_in h _ id H (or_introl eq_refl)) as (g & n & E & En).
    rewrite count_occ_cons_eq in En by reflexivity.
    pose proof (nth_lt _ _ _ _ E) as Hlt.
    unfold release. rewrite E. subst n.
    destruct (cnt l id) as [|m] eqn:Ec.
    - eexists. split; [reflexivity|]. split.
      + intros k. destruct (Nat.eq_dec id k) as [<-|Hne].
        * rewrite setl_nth_eq by exact Hlt. exact Ec.
        * rewrite setl_nth_neq by exact Hne. specialize (H k). rewrite count_occ_cons_neq in H by exact Hne. exact H.
      + intros k Hk. unfold lookup. destruct (Nat.eq_dec id k) as [<-|Hne].
        * apply (count_occ_In Nat.eq_dec) in Hk. lia.
        * rewrite setl_nth_neq by exact Hne. reflexivity.
    - eexists. split; [reflexivity|]. split.
      + intros k. destruct (Nat.eq_dec id k) as [<-|Hne].
        * rewrite setl_nth_eq by exact Hlt. lia.
        * rewrite setl_nth_neq by exact Hne. specialize (H k). rewrite count_occ_cons_neq in H by exact Hne. exact H.
      + intros k Hk. unfold lookup. destruct (Nat.eq_dec id k) as [<-|Hne].
        * rewrite setl_nth_eq by exact Hlt. rewrite E. reflexivity.
        * rewrite setl_nth_neq by exact Hne. reflexivity.
  Qed.
  Lemma retain_all_ok : forall ids h l, acc h l -> incl ids l ->
    exists h', retain_all h ids = Some h' /\ acc h' (ids ++ l) /\ forall k, lookup h' k = lookup h k.
  Proof.
    induction ids as [|i ids IH]; intros h l H Hin; simpl.
    - exists h. auto.
    - destruct (retain_ok h l i H (Hin i (or_introl eq_refl))) as (h1 & -> & A1 & L1).
      destruct (IH h1 (i :: l) A1) as (h2 & -> & A2 & L2).
      { intros k Hk. right. apply Hin. right. exact Hk. }
      exists h2. split; [reflexivity|]. split.
      + apply (acc_perm _ (ids ++ i :: l)); [|exact A2]. symmetry. apply Permutation_middle.
      + intros k. rewrite L2. apply L1.
  Qed.
  Lemma release_all_ok : forall ids h l, acc h (ids ++ l) ->
    exists h', release_all h ids = Some h' /\ acc h' l /\ forall k, In k l -> lookup h' k = lookup h k.
  Proof.
    induction ids as [|i ids IH]; intros h l H; simpl.
    - exists h. auto.
    - destruct (release_ok h _ i H) as (h1 & -> & A1 & L1).
      destruct (IH h1 l A1) as (h2 & -> & A2 & L2).
      exists h2. split; [reflexivity|]. split; [exact A2|].
      intros k Hk. rewrite L2 by exact Hk. apply L1. apply in_or_app. right. exact Hk.
  Qed.
  Lemma alloc_ok : forall h l g, acc h l ->
    acc (h ++ [Some (g, 1)]) (length h :: l) /\
    lookup (h ++ [Some (g, 1)]) (length h) = Some g /\
    forall k, In k l -> lookup (h ++ [Some (g, 1)]) k = lookup h k.
  Proof.
    intros h l g H.
    assert (E : nth_error (h ++ [Some (g, 1)]) (length h) = Some (Some (g, 1))).
    { rewrite nth_error_app2 by lia. rewrite Nat.sub_diag. reflexivity. }
    split; [|split].
    - intros k. destruct (Nat.eq_dec (length h) k) as [<-|Hne].
      + rewrite E, count_occ_cons_eq by reflexivity. specialize (H (length h)).
        assert (En : nth_error h (length h) = None) by (apply nth_error_None; lia).
        rewrite En in H. lia.
      + rewrite count_occ_cons_neq by exact Hne. specialize (H k).
        destruct (Nat.lt_ge_cases k (length h)) as [Hlt|Hge].
        * rewrite nth_error_app1 by exact Hlt. exact H.
        * assert (En : nth_error h k = None) by (apply nth_error_None; lia). rewrite En in H.
          assert (En' : nth_error (h ++ [Some (g, 1)]) k = None) by (apply nth_error_None; rewrite app_length; simpl; lia).
          rewrite En'. exact H.
    - unfold lookup. rewrite E. reflexivity.
    - intros k Hk. destruct (acc_in h l k H Hk) as (g' & n & E' & _).
      unfold lookup. rewrite nth_error_app1; [reflexivity|]. exact (nth_lt _ _ _ _ E').
  Qed.

  Definition refs (s : mstate) : list nat := flat_map v_ids (m_vars s).
  Definition minv (s : mstate) : Prop :=
    acc (m_heap s) (refs s) /\ NoDup (map v_buf (m_vars s)) /\ Forall (fun v => v_buf v < m_next s) (m_vars s).
  Definition vrel (h : heap) (v : vec) (l : list G) : Prop := map (lookup h) (v_ids v) = map Some l.
  Definition rel (s : mstate) (A : list (list G)) : Prop :=
    minv s /\ Forall2 (vrel (m_heap s)) (m_vars s) A.

  Lemma refs_in : forall s i v id, nth_error (m_vars s) i = Some v -> In id (v_ids v) -> In id (refs s).
  Proof. intros s i v id H Hin. apply in_flat_map. exists v. split; [eapply nth_error_In; eauto|exact Hin]. Qed.
  Lemma vrel_len : forall h v l, vrel h v l -> length (v_ids v) = length l.
  Proof. intros h v l H. apply (f_equal (@length _)) in H. rewrite !map_length in H. exact H. Qed.
  Lemma vrel_nth : forall h v l n, vrel h v l ->
    match nth_error (v_ids v) n with
    | Some id => exists g, nth_error l n = Some g /\ lookup h id = Some g
    | None => nth_error l n = None
    end.
  Proof.
    intros h v l n H. pose proof (vrel_len _ _ _ H) as HL.
    destruct (nth_error (v_ids v) n) as [id|] eqn:E.
    - assert (E2 := map_nth_error (lookup h) n (v_ids v) E). unfold vrel in H. rewrite H in E2.
      destruct (nth_error l n) as [g|] eqn:E3.
      + rewrite (map_nth_error Some n l E3) in E2. injection E2 as E2. exists g. auto.
      + assert (n < length l). { rewrite <- HL. apply nth_error_Some. congruence. }
        apply nth_error_None in E3. lia.
    - apply nth_error_None in E. apply nth_error_None. lia.
  Qed.
  Lemma vrel_ext : forall h h' v l, (forall k, In k (v_ids v) -> lookup h' k = lookup h k) -> vrel h v l -> vrel h' v l.
  Proof. intros h h' v l H Hv. unfold vrel in *. rewrite <- Hv. apply map_ext_in. exact H. Qed.
  Lemma F2_ext : forall (h h' : heap) vs A,
    (forall k, In k (flat_map v_ids vs) -> lookup h' k = lookup h k) ->
    Forall2 (vrel h) vs A -> Forall2 (vrel h') vs A.
  Proof.
    intros h h' vs A Hl H. induction H as [|v l vs A Hv HF IH]; constructor.
    - apply (vrel_ext h); [|exact Hv]. intros k Hk. apply Hl. simpl. apply in_or_app. left. exact Hk.
    - apply IH. intros k Hk. apply Hl. simpl. apply in_or_app. right. exact Hk.
  Qed.

  Lemma NoDup_setl_fresh : forall (l : list nat) i x, NoDup l -> ~ In x l -> NoDup (setl l i x).
  Proof.
    induction l as [|y l IH]; intros [|i] x H Hx; simpl; auto; inversion H; subst.
    - constructor; auto. intros Hc. apply Hx. right. exact Hc.
    - constructor.
      + intros Hc.
        assert (Hs : forall (l : list nat) i x y, In y (setl l i x) -> In y l \/ y = x).
        { clear. induction l as [|z l IH]; intros [|i] x y H; simpl in *; auto; destruct H as [H|H]; auto.
          apply IH in H. tauto. }
        apply Hs in Hc. destruct Hc as [Hc| ->]; [tauto|]. apply Hx. left. reflexivity.
      + apply IH; auto. intros Hc. apply Hx. right. exact Hc.
  Qed.
  Lemma bufs_fresh : forall (s : mstate), Forall (fun v => v_buf v < m_next s) (m_vars s) -> ~ In (m_next s) (map v_buf (m_vars s)).
  Proof. intros s H Hc. apply in_map_iff in Hc. destruct Hc as (v & E & Hv). rewrite Forall_forall in H. specialize (H v Hv). lia. Qed.
  Lemma bufs_lt_S : forall n (vs : list vec), Forall (fun v => v_buf v < n) vs -> Forall (fun v => v_buf v < S n) vs.
  Proof. intros n vs H. eapply Forall_impl; [|exact H]. simpl. lia. Qed.
  (** replacing a vector by one in the same buffer or in a fresh one *)
  Lemma bufs_same : forall (vs : list vec) n i v v', nth_error vs i = Some v -> v_buf v' = v_buf v ->
    NoDup (map v_buf vs) -> Forall (fun v => v_buf v < n) vs ->
    NoDup (map v_buf (setl vs i v')) /\ Forall (fun v => v_buf v < n) (setl vs i v').
  Proof.
    intros vs n i v v' E Eb HN HF.
    split.
    - rewrite setl_map, Eb. rewrite setl_same; [exact HN|]. apply map_nth_error. exact E.
    - apply setl_Forall; [exact HF|]. rewrite Eb. rewrite Forall_forall in HF. apply HF. eapply nth_error_In; eauto.
  Qed.
  Lemma bufs_new : forall (vs : list vec) n i v', v_buf v' = n ->
    NoDup (map v_buf vs) -> Forall (fun v => v_buf v < n) vs ->
    NoDup (map v_buf (setl vs i v')) /\ Forall (fun v => v_buf v < S n) (setl vs i v').
  Proof.
    intros vs n i v' Eb HN HF.
    split.
    - rewrite setl_map, Eb. apply NoDup_setl_fresh; [exact HN|].
      exact (bufs_fresh {| m_heap := []; m_next := n; m_vars := vs |} HF).
    - apply setl_Forall; [apply bufs_lt_S; exact HF|]. lia.
  Qed.
  Lemma bufs_snoc : forall (vs : list vec) n v', v_buf v' = n ->
    NoDup (map v_buf vs) -> Forall (fun v => v_buf v < n) vs ->
    NoDup (map v_buf (vs ++ [v'])) /\ Forall (fun v => v_buf v < S n) (vs ++ [v']).
  Proof.
    intros vs n v' Eb HN HF.
    split.
    - rewrite map_app. simpl. apply (Permutation_NoDup (Permutation_cons_append (map v_buf vs) (v_buf v'))).
      constructor; [|exact HN]. rewrite Eb. exact (bufs_fresh {| m_heap := []; m_next := n; m_vars := vs |} HF).
    - apply Forall_app. split; [apply bufs_lt_S; exact HF|]. constructor; [lia|constructor].
  Qed.

  (** vector v_i gets a further element *)
  Lemma push_ok : forall s A i v l h id g,
    rel s A -> nth_error (m_vars s) i = Some v -> nth_error A i = Some l ->
    acc h (id :: refs s) -> lookup h id = Some g ->
    (forall k, In k (refs s) -> lookup h k = lookup (m_heap s) k) ->
    rel (push grow s i v h id) (setl A i (l ++ [g])).
  Proof.
    intros s A i v l h id g [(Hacc & HN & HF) HR] Ev El Hh Hg Hl.
    destruct (F2_l _ _ _ HR i v Ev) as (l' & El' & Hv). rewrite El in El'. injection El' as <-.
    assert (HA : forall v', v_ids v' = v_ids v ++ [id] -> acc h (flat_map v_ids (setl (m_vars s) i v'))).
    { intros v' Ei. destruct (setl_flat _ _ v_ids (m_vars s) i v Ev) as (rest & P1 & P2).
      apply (acc_perm _ (id :: refs s)); [|exact Hh].
      unfold refs. rewrite P1, P2, Ei, <- app_assoc. simpl. apply Permutation_middle. }
    assert (HV : forall v', v_ids v' = v_ids v ++ [id] -> Forall2 (vrel h) (setl (m_vars s) i v') (setl A i (l ++ [g]))).
    { intros v' Ei. apply F2_setl; [apply (F2_ext (m_heap s)); assumption|].
      unfold vrel. rewrite Ei, !map_app. simpl. rewrite Hg. f_equal.
      apply (vrel_ext (m_heap s)); [|exact Hv]. intros k Hk. apply Hl. exact (refs_in s i v k Ev Hk). }
    unfold push. destruct (length (v_ids v) <? v_cap v).
    - split; [split; [|]|]; simpl.
      + apply HA. reflexivity.
      + exact (bufs_same _ _ i v {| v_buf := v_buf v; v_cap := v_cap v; v_ids := v_ids v ++ [id] |} Ev eq_refl HN HF).
      + apply HV. reflexivity.
    - split; [split; [|]|]; simpl.
      + apply HA. reflexivity.
      + exact (bufs_new _ _ i {| v_buf := m_next s; v_cap := grow (v_cap v); v_ids := v_ids v ++ [id] |} eq_refl HN HF).
      + apply HV. reflexivity.
  Qed.
  Lemma push_vars : forall (s : mstate) i v h id, i < length (m_vars s) ->
    exists v', m_vars (push grow s i v h id) = setl (m_vars s) i v' /\ v_ids v' = v_ids v ++ [id] /\
      (length (v_ids v) < v_cap v -> v_buf v' = v_buf v /\ v_cap v' = v_cap v) /\
      (v_cap v <= length (v_ids v) -> v_buf v' = m_next s).
  Proof.
    intros s i v h id Hi. unfold push. destruct (Nat.ltb_spec (length (v_ids v)) (v_cap v)); simpl; eexists;
      (split; [reflexivity|]); simpl; (split; [reflexivity|]); split; intros; auto; lia.
  Qed.

  Lemma append_id_ok : forall s A i l id g,
    rel s A -> nth_error A i = Some l -> lookup (m_heap s) id = Some g ->
    exists s' v v', append_id grow s i id = Done s' /\ rel s' (setl A i (l ++ [g])) /\
      nth_error (m_vars s) i = Some v /\ m_vars s' = setl (m_vars s) i v' /\ v_ids v' = v_ids v ++ [id] /\
      (length (v_ids v) < v_cap v -> v_buf v' = v_buf v /\ v_cap v' = v_cap v) /\
      (v_cap v <= length (v_ids v) -> v_buf v' = m_next s) /\
      (forall k, lookup (m_heap s') k = lookup (m_heap s) k).
  Proof.
    intros s A i l id g HR El Hg. pose proof HR as [(Hacc & HN & HF) HV].
    destruct (F2_r _ _ _ HV i l El) as (v & Ev & Hv).
    destruct (retain_ok (m_heap s) (refs s) id Hacc (lookup_in _ _ _ _ Hacc Hg)) as (h & Er & Ha & Hl).
    destruct (push_vars s i v h id (nth_lt _ _ _ _ Ev)) as (v' & E1 & E2 & E3 & E4).
    exists (push grow s i v h id), v, v'. unfold append_id. rewrite Ev, Er.
    split; [reflexivity|]. split.
    { apply push_ok; auto. rewrite Hl. exact Hg. }
    split; [reflexivity|]. split; [exact E1|]. split; [exact E2|]. split; [exact E3|]. split; [exact E4|].
    intros k. unfold push. destruct (length (v_ids v) <? v_cap v); simpl; apply Hl.
  Qed.

  (** the loop over a range of another monomial *)
  Lemma append_loop_other : forall c s A i j l w lw pos,
    rel s A -> i <> j -> nth_error A i = Some l -> nth_error (m_vars s) j = Some w -> nth_error A j = Some lw ->
    pos + c <= length lw ->
    exists s', append_loop grow c s i j (v_buf w) pos = Done s' /\ rel s' (setl A i (l ++ firstn c (skipn pos lw))).
  Proof.
    induction c as [|c IH]; intros s A i j l w lw pos HR Hij El Ew Elw Hc; simpl; rewrite Ew, Nat.eqb_refl.
    - exists s. split; [reflexivity|]. rewrite app_nil_r, (setl_same _ _ _ _ El). exact HR.
    - pose proof HR as [_ HV]. destruct (F2_l _ _ _ HV j w Ew) as (lw' & E' & Hw). rewrite Elw in E'. injection E' as <-.
      pose proof (vrel_nth _ _ _ pos Hw) as Hn.
      destruct (nth_error (v_ids w) pos) as [id|] eqn:Eid.
      + destruct Hn as (g & Eg & Hg).
        destruct (append_id_ok s A i l id g HR El Hg) as (s1 & v & v' & E1 & R1 & Ev & EV & _).
        rewrite E1. simpl.
        destruct (IH s1 (setl A i (l ++ [g])) i j (l ++ [g]) w lw (S pos) R1 Hij) as (s2 & E2 & R2).
        * apply setl_nth_eq. exact (nth_lt _ _ _ _ El).
        * rewrite EV, setl_nth_neq by exact Hij. exact Ew.
        * rewrite setl_nth_neq by exact Hij. exact Elw.
        * lia.
        * exists s2. split; [exact E2|]. rewrite setl_setl, <- app_assoc in R2. simpl in R2.
          assert (Es : skipn pos lw = g :: skipn (S pos) lw).
          { clear - Eg. revert lw Eg. induction pos as [|p IHp]; intros [|x lw] Eg; simpl in *; try discriminate.
            - injection Eg as ->. reflexivity.
            - rewrite (IHp lw Eg). destruct lw; simpl in *; [destruct p; discriminate|reflexivity]. }
          rewrite Es. simpl. exact R2.
      + apply nth_error_None in Hn. lia.
  Qed.
  (** the loop over a range of the monomial itself, with enough room *)
  Lemma skipn_cons : forall X pos (l : list X) g, nth_error l pos = Some g -> skipn pos l = g :: skipn (S pos) l.
  Proof.
    induction pos as [|p IHp]; intros [|x lw] g Eg; simpl in *; try discriminate.
    - injection Eg as ->. reflexivity.
    - rewrite (IHp lw g Eg). destruct lw; simpl in *; [destruct p; discriminate|reflexivity].
  Qed.
  Lemma append_loop_self : forall c s A i l v pos,
    rel s A -> nth_error A i = Some l -> nth_error (m_vars s) i = Some v ->
    pos + c <= length l -> length l + c <= v_cap v ->
    exists s', append_loop grow c s i i (v_buf v) pos = Done s' /\ rel s' (setl A i (l ++ firstn c (skipn pos l))).
  Proof.
    induction c as [|c IH]; intros s A i l v pos HR El Ev Hc Hcap; simpl; rewrite Ev, Nat.eqb_refl.
    - exists s. split; [reflexivity|]. rewrite app_nil_r, (setl_same _ _ _ _ El). exact HR.
    - pose proof HR as [_ HV]. destruct (F2_l _ _ _ HV i v Ev) as (l' & E' & Hv). rewrite El in E'. injection E' as <-.
      pose proof (vrel_nth _ _ _ pos Hv) as Hn.
      destruct (nth_error (v_ids v) pos) as [id|] eqn:Eid.
      + destruct Hn as (g & Eg & Hg).
        destruct (append_id_ok s A i l id g HR El Hg) as (s1 & v0 & v' & E1 & R1 & Ev0 & EV & Ei & Hb & _ & _).
        rewrite Ev in Ev0. injection Ev0 as <-.
        rewrite E1. simpl. pose proof (vrel_len _ _ _ Hv) as HL.
        destruct Hb as [Hb Hcp]; [lia|].
        destruct (IH s1 (setl A i (l ++ [g])) i (l ++ [g]) v' (S pos) R1) as (s2 & E2 & R2).
        * apply setl_nth_eq. exact (nth_lt _ _ _ _ El).
        * rewrite EV. apply setl_nth_eq. exact (nth_lt _ _ _ _ Ev).
        * rewrite app_length. simpl. lia.
        * rewrite app_length, Hcp. simpl. lia.
        * exists s2. rewrite <- Hb. split; [exact E2|]. rewrite setl_setl, <- app_assoc in R2. simpl in R2.
          rewrite (skipn_cons _ _ _ _ Eg). simpl.
          assert (Es : firstn c (skipn (S pos) (l ++ [g])) = firstn c (skipn (S pos) l)).
          { rewrite skipn_app, firstn_app.
            replace (c - length (skipn (S pos) l)) with 0 by (rewrite skipn_length; lia).
            rewrite firstn_O, app_nil_r. reflexivity. }
          change (skipn (S pos) (l ++ [g])) with (match l ++ [g] with [] => [] | _ :: t => skipn pos t end) in Es.
          rewrite Es in R2. exact R2.
      + apply nth_error_None in Hn. lia.
  Qed.
  (** ... and without enough room *)
  Lemma append_loop_self_ub : forall c s A i l v pos,
    rel s A -> nth_error A i = Some l -> nth_error (m_vars s) i = Some v ->
    0 < c -> pos + c <= length l -> v_cap v < length l + c ->
    append_loop grow c s i i (v_buf v) pos = UB.
  Proof.
    induction c as [|c IH]; intros s A i l v pos HR El Ev H0 Hc Hcap; [lia|].
    simpl. rewrite Ev, Nat.eqb_refl.
    pose proof HR as [(_ & _ & HF) HV]. destruct (F2_l _ _ _ HV i v Ev) as (l' & E' & Hv). rewrite El in E'. injection E' as <-.
    pose proof (vrel_nth _ _ _ pos Hv) as Hn.
    destruct (nth_error (v_ids v) pos) as [id|] eqn:Eid; [|reflexivity].
    destruct Hn as (g & Eg & Hg).
    destruct (append_id_ok s A i l id g HR El Hg) as (s1 & v0 & v' & E1 & R1 & Ev0 & EV & Ei & Hb & Hb2 & _).
    rewrite Ev in Ev0. injection Ev0 as <-.
    rewrite E1. simpl. pose proof (vrel_len _ _ _ Hv) as HL.
    assert (Ev' : nth_error (m_vars s1) i = Some v') by (rewrite EV; apply setl_nth_eq; exact (nth_lt _ _ _ _ Ev)).
    destruct (Nat.lt_ge_cases (length (v_ids v)) (v_cap v)) as [Hlt|Hge].
    - destruct (Hb Hlt) as [Hbb Hcp]. rewrite <- Hbb.
      apply (IH s1 (setl A i (l ++ [g])) i (l ++ [g]) v' (S pos) R1).
      + apply setl_nth_eq. exact (nth_lt _ _ _ _ El).
      + exact Ev'.
      + lia.
      + rewrite app_length. simpl. lia.
      + rewrite app_length, Hcp. simpl. lia.
    - specialize (Hb2 Hge).
      assert (Hne : v_buf v =? v_buf v' = false).
      { apply Nat.eqb_neq. rewrite Hb2. rewrite Forall_forall in HF. specialize (HF v (nth_error_In _ _ Ev)). simpl in HF. lia. }
      destruct c; simpl; rewrite Ev', Hne; reflexivity.
  Qed.

  Lemma reserve_ok : forall s A i l n, rel s A -> nth_error A i = Some l ->
    exists s' v v', reserve s i n = Done s' /\ rel s' A /\ nth_error (m_vars s) i = Some v /\
      m_vars s' = setl (m_vars s) i v' /\ v_ids v' = v_ids v /\ n <= v_cap v'.
  Proof.
    intros s A i l n HR El. pose proof HR as [(Hacc & HN & HF) HV].
    destruct (F2_r _ _ _ HV i l El) as (v & Ev & Hv).
    unfold reserve. rewrite Ev. destruct (Nat.leb_spec n (v_cap v)) as [Hle|Hgt].
    - exists s, v, v. split; [reflexivity|]. split; [exact HR|]. split; [reflexivity|].
      split; [symmetry; apply setl_same; exact Ev|]. auto.
    - set (v' := {| v_buf := m_next s; v_cap := n; v_ids := v_ids v |}).
      eexists _, v, v'. split; [reflexivity|]. split.
      + split; [split; [|]|]; simpl.
        * destruct (setl_flat _ _ v_ids (m_vars s) i v Ev) as (rest & P1 & P2).
          apply (acc_perm _ (refs s)); [|exact Hacc]. unfold refs; simpl. rewrite P1, P2. reflexivity.
        * exact (bufs_new _ _ i v' eq_refl HN HF).
        * rewrite <- (setl_same _ A i l El). apply F2_setl; [exact HV|]. exact Hv.
      + simpl. auto.
  Qed.
  Lemma append_mono_ok : forall s A i j l lw, rel s A -> nth_error A i = Some l -> nth_error A j = Some lw ->
    exists s', append_mono grow s i j = Done s' /\ rel s' (setl A i (l ++ lw)).
  Proof.
    intros s A i j l lw HR El Elw. pose proof HR as [_ HV].
    destruct (F2_r _ _ _ HV i l El) as (v & Ev & Hv).
    destruct (F2_r _ _ _ HV j lw Elw) as (w & Ew & Hw).
    unfold append_mono. rewrite Ev, Ew.
    destruct (reserve_ok s A i l (length (v_ids v) + length (v_ids w)) HR El) as (s1 & v0 & v' & E1 & R1 & Ev0 & EV & Ei & Hcap).
    rewrite Ev in Ev0. injection Ev0 as <-. rewrite E1. simpl.
    pose proof (vrel_len _ _ _ Hv) as HL. pose proof (vrel_len _ _ _ Hw) as HLw.
    destruct (Nat.eq_dec i j) as [<-|Hij].
    - rewrite EV, setl_nth_eq by exact (nth_lt _ _ _ _ Ev). rewrite Ei.
      rewrite El in Elw. injection Elw as <-. rewrite Ev in Ew. injection Ew as <-.
      destruct (append_loop_self (length (v_ids v)) s1 A i l v' 0 R1 El) as (s2 & E2 & R2).
      + rewrite EV. apply setl_nth_eq. exact (nth_lt _ _ _ _ Ev).
      + simpl. lia.
      + lia.
      + exists s2. split; [exact E2|]. simpl in R2. rewrite HL, firstn_all in R2. exact R2.
    - rewrite EV, setl_nth_neq by exact Hij. rewrite Ew.
      destruct (append_loop_other (length (v_ids w)) s1 A i j l w lw 0 R1 Hij El) as (s2 & E2 & R2).
      + rewrite EV, setl_nth_neq by exact Hij. exact Ew.
      + exact Elw.
      + simpl. lia.
      + exists s2. split; [exact E2|]. simpl in R2. rewrite HLw, firstn_all in R2. exact R2.
  Qed.
  Lemma append_gen_ok : forall s A i j n l lw g, rel s A -> nth_error A i = Some l -> nth_error A j = Some lw ->
    nth_error lw n = Some g ->
    exists s', append_gen grow s i j n = Done s' /\ rel s' (setl A i (l ++ [g])).
  Proof.
    intros s A i j n l lw g HR El Elw Eg. pose proof HR as [_ HV].
    destruct (F2_r _ _ _ HV j lw Elw) as (w & Ew & Hw).
    unfold append_gen. rewrite Ew. pose proof (vrel_nth _ _ _ n Hw) as Hn.
    destruct (nth_error (v_ids w) n) as [id|]; [|congruence].
    destruct Hn as (g' & Eg' & Hg). rewrite Eg in Eg'. injection Eg' as <-.
    destruct (append_id_ok s A i l id g HR El Hg) as (s' & v & v' & E & R' & _). eauto.
  Qed.
  Lemma append_range_other : forall s A i j a b l lw, rel s A -> i <> j -> nth_error A i = Some l -> nth_error A j = Some lw ->
    a <= b -> b <= length lw ->
    exists s', append_range grow s i j a b = Done s' /\ rel s' (setl A i (l ++ slice a b lw)).
  Proof.
    intros s A i j a b l lw HR Hij El Elw Hab Hb. pose proof HR as [_ HV].
    destruct (F2_r _ _ _ HV j lw Elw) as (w & Ew & Hw). pose proof (vrel_len _ _ _ Hw) as HLw.
    destruct (F2_r _ _ _ HV i l El) as (v & Ev & Hv).
    unfold append_range. rewrite Ev, Ew, HLw, (proj2 (Nat.leb_le a b) Hab), (proj2 (Nat.leb_le b (length lw)) Hb). simpl.
    apply append_loop_other with (l := l); auto. lia.
  Qed.
  Lemma append_part_ok : forall s A i p l x, rel s A -> i <> part_var p -> nth_error A i = Some l ->
    part_value A p = Some x ->
    exists s', append_part grow s i p = Done s' /\ rel s' (setl A i (l ++ x)).
  Proof.
    intros s A i [j n|j|j a b] l x HR Hij El Ex; simpl in *.
    - destruct (nth_error A j) as [lw|] eqn:Elw; [|discriminate].
      destruct (nth_error lw n) as [g|] eqn:Eg; [|discriminate]. injection Ex as <-.
      eapply append_gen_ok; eauto.
    - apply append_mono_ok; auto.
    - destruct (nth_error A j) as [lw|] eqn:Elw; [|discriminate].
      destruct (Nat.leb_spec a b) as [Hab|]; simpl in Ex; [|discriminate].
      destruct (Nat.leb_spec b (length lw)) as [Hb|]; simpl in Ex; [|discriminate]. injection Ex as <-.
      apply append_range_other; auto.
  Qed.
  Lemma part_value_setl : forall (A : list (list G)) i l p, i <> part_var p -> part_value (setl A i l) p = part_value A p.
  Proof. intros A i l [j n|j|j a b] H; simpl in *; rewrite setl_nth_neq by exact H; reflexivity. Qed.
  Lemma parts_value_setl : forall ps (A : list (list G)) i l, Forall (fun p => i <> part_var p) ps ->
    parts_value (setl A i l) ps = parts_value A ps.
  Proof.
    induction ps as [|p ps IH]; intros A i l H; simpl; [reflexivity|].
    inversion H; subst. rewrite part_value_setl, IH by assumption. reflexivity.
  Qed.
  Lemma append_parts_ok : forall ps s A i l x, rel s A -> Forall (fun p => i <> part_var p) ps -> nth_error A i = Some l ->
    parts_value A ps = Some x ->
    exists s', append_parts grow s i ps = Done s' /\ rel s' (setl A i (l ++ x)).
  Proof.
    induction ps as [|p ps IH]; intros s A i l x HR HF El Ex; simpl in *.
    - injection Ex as <-. exists s. split; [reflexivity|]. rewrite app_nil_r, setl_same by exact El. exact HR.
    - inversion HF; subst.
      destruct (part_value A p) as [y|] eqn:Ey; [|discriminate].
      destruct (parts_value A ps) as [z|] eqn:Ez; [|discriminate]. injection Ex as <-.
      destruct (append_part_ok s A i p l y HR H1 El Ey) as (s1 & E1 & R1). rewrite E1. simpl.
      destruct (IH s1 (setl A i (l ++ y)) i (l ++ y) z R1 H2) as (s2 & E2 & R2).
      + apply setl_nth_eq. exact (nth_lt _ _ _ _ El).
      + rewrite parts_value_setl by exact H2. exact Ez.
      + exists s2. split; [exact E2|]. rewrite setl_setl, <- app_assoc in R2. exact R2.
  Qed.

  Lemma new_var_ok : forall s A, rel s A -> rel (new_var s) (A ++ [[]]).
  Proof.
    intros s A [(Hacc & HN & HF) HV]. split; [split|]; simpl.
    - unfold refs; simpl. rewrite flat_map_app. simpl. rewrite app_nil_r. exact Hacc.
    - exact (bufs_snoc _ _ {| v_buf := m_next s; v_cap := 0; v_ids := [] |} eq_refl HN HF).
    - apply F2_app1; [exact HV|]. reflexivity.
  Qed.
  Lemma part_var_lt : forall (A : list (list G)) p x, part_value A p = Some x -> part_var p < length A.
  Proof.
    intros A [j n|j|j a b] x H; simpl in *; apply nth_error_Some; intros E; rewrite E in H; discriminate.
  Qed.
  Lemma parts_var_lt : forall ps (A : list (list G)) x, parts_value A ps = Some x -> Forall (fun p => part_var p < length A) ps.
  Proof.
    induction ps as [|p ps IH]; intros A x H; simpl in *; [constructor|].
    destruct (part_value A p) as [y|] eqn:Ey; [|discriminate].
    destruct (parts_value A ps) as [z|] eqn:Ez; [|discriminate].
    constructor; [eapply part_var_lt; eauto|eapply IH; eauto].
  Qed.
  Lemma part_value_app : forall (A B : list (list G)) p, part_var p < length A -> part_value (A ++ B) p = part_value A p.
  Proof. intros A B [j n|j|j a b] H; simpl in *; rewrite nth_error_app1 by exact H; reflexivity. Qed.
  Lemma parts_value_app : forall ps (A B : list (list G)), Forall (fun p => part_var p < length A) ps ->
    parts_value (A ++ B) ps = parts_value A ps.
  Proof.
    induction ps as [|p ps IH]; intros A B H; simpl; [reflexivity|]. inversion H; subst.
    rewrite part_value_app, IH by assumption. reflexivity.
  Qed.
  Lemma nth_last : forall X (l : list X) x, nth_error (l ++ [x]) (length l) = Some x.
  Proof. intros X l x. rewrite nth_error_app2 by lia. rewrite Nat.sub_diag. reflexivity. Qed.
  Lemma concatenate_ok : forall s A ps x, rel s A -> parts_value A ps = Some x ->
    exists s', concatenate grow s ps = Done s' /\ rel s' (A ++ [x]).
  Proof.
    intros s A ps x HR Ex. pose proof HR as [_ HV]. pose proof (F2_len _ _ _ HV) as HL.
    pose proof (parts_var_lt _ _ _ Ex) as Hps.
    unfold concatenate. rewrite HL.
    assert (Eb : forallb (fun p => part_var p <? length A) ps = true).
    { apply forallb_forall. intros p Hp. apply Nat.ltb_lt. rewrite Forall_forall in Hps. apply Hps. exact Hp. }
    rewrite Eb.
    destruct (reserve_ok (new_var s) (A ++ [[]]) (length A) [] (list_sum (map (part_size s) ps)) (new_var_ok s A HR) (nth_last _ A []))
      as (s1 & v & v' & E1 & R1 & _).
    rewrite E1. simpl.
    destruct (append_parts_ok ps s1 (A ++ [[]]) (length A) [] x R1) as (s2 & E2 & R2).
    - eapply Forall_impl; [|exact Hps]. simpl. intros p Hp. lia.
    - apply nth_last.
    - rewrite parts_value_app by exact Hps. exact Ex.
    - exists s2. split; [exact E2|]. simpl in R2. rewrite setl_app_last in R2. exact R2.
  Qed.
  Lemma emplace_new_ok : forall gs s A i l, rel s A -> nth_error A i = Some l ->
    exists s', emplace_new grow s i gs = Done s' /\ rel s' (setl A i (l ++ gs)).
  Proof.
    induction gs as [|g gs IH]; intros s A i l HR El; simpl.
    - exists s. split; [reflexivity|]. rewrite app_nil_r, setl_same by exact El. exact HR.
    - pose proof HR as [(Hacc & HN & HF) HV].
      destruct (F2_r _ _ _ HV i l El) as (v & Ev & Hv). rewrite Ev.
      destruct (alloc_ok (m_heap s) (refs s) g Hacc) as (H1 & H2 & H3).
      pose proof (push_ok s A i v l _ _ g HR Ev El H1 H2 H3) as R1.
      destruct (IH _ (setl A i (l ++ [g])) i (l ++ [g]) R1) as (s2 & E2 & R2).
      + apply setl_nth_eq. exact (nth_lt _ _ _ _ El).
      + exists s2. split; [exact E2|]. rewrite setl_setl, <- app_assoc in R2. exact R2.
  Qed.
  Lemma construct_ok : forall s A gs, rel s A -> exists s', construct grow s gs = Done s' /\ rel s' (A ++ [gs]).
  Proof.
    intros s A gs HR. pose proof HR as [_ HV]. pose proof (F2_len _ _ _ HV) as HL. unfold construct. rewrite HL.
    destruct (emplace_new_ok gs (new_var s) (A ++ [[]]) (length A) [] (new_var_ok s A HR) (nth_last _ A [])) as (s' & E & R').
    exists s'. split; [exact E|]. simpl in R'. rewrite setl_app_last in R'. exact R'.
  Qed.
  Lemma copy_ok : forall s A j l, rel s A -> nth_error A j = Some l -> exists s', copy s j = Done s' /\ rel s' (A ++ [l]).
  Proof.
    intros s A j l HR El. pose proof HR as [(Hacc & HN & HF) HV].
    destruct (F2_r _ _ _ HV j l El) as (w & Ew & Hw). unfold copy. rewrite Ew.
    destruct (retain_all_ok (v_ids w) (m_heap s) (refs s) Hacc) as (h & Eh & Ha & Hl).
    { intros k Hk. exact (refs_in s j w k Ew Hk). }
    rewrite Eh. eexists. split; [reflexivity|]. split; [split|]; simpl.
    - unfold refs; simpl. rewrite flat_map_app. simpl. rewrite app_nil_r.
      apply (acc_perm _ (v_ids w ++ refs s)); [apply Permutation_app_comm|exact Ha].
    - exact (bufs_snoc _ _ {| v_buf := m_next s; v_cap := length (v_ids w); v_ids := v_ids w |} eq_refl HN HF).
    - apply F2_app1.
      + apply (F2_ext (m_heap s)); [intros k _; apply Hl|exact HV].
      + apply (vrel_ext (m_heap s)); [intros k _; apply Hl|exact Hw].
  Qed.
  Lemma assign_ok : forall s A i j l lw, rel s A -> nth_error A i = Some l -> nth_error A j = Some lw ->
    exists s', assign s i j = Done s' /\ rel s' (setl A i lw).
  Proof.
    intros s A i j l lw HR El Elw. pose proof HR as [(Hacc & HN & HF) HV].
    destruct (F2_r _ _ _ HV i l El) as (v & Ev & Hv).
    destruct (F2_r _ _ _ HV j lw Elw) as (w & Ew & Hw).
    unfold assign. rewrite Ev, Ew. destruct (Nat.eqb_spec i j) as [<-|Hij].
    - exists s. split; [reflexivity|]. rewrite setl_same by exact Elw. exact HR.
    - destruct (retain_all_ok (v_ids w) (m_heap s) (refs s) Hacc) as (h & Eh & Ha & Hl).
      { intros k Hk. exact (refs_in s j w k Ew Hk). }
      rewrite Eh.
      destruct (setl_flat _ _ v_ids (m_vars s) i v Ev) as (rest & P1 & P2).
      assert (Ha' : acc h (v_ids v ++ (v_ids w ++ rest))).
      { apply (acc_perm _ (v_ids w ++ refs s)); [|exact Ha]. unfold refs. rewrite P1, !app_assoc.
        apply Permutation_app_tail, Permutation_app_comm. }
      destruct (release_all_ok (v_ids v) h _ Ha') as (h' & Eh' & Hb & Hl').
      rewrite Eh'. eexists. split; [reflexivity|].
      set (v' := {| v_buf := m_next s; v_cap := length (v_ids w); v_ids := v_ids w |}).
      split; [split|]; simpl.
      + apply (acc_perm _ (v_ids w ++ rest)); [|exact Hb]. unfold refs; simpl. rewrite (P2 v'). reflexivity.
      + exact (bufs_new _ _ i v' eq_refl HN HF).
      + apply (F2_ext h).
        * intros k Hk. apply Hl'. rewrite (P2 v') in Hk. exact Hk.
        * apply F2_setl; [apply (F2_ext (m_heap s)); [intros k _; apply Hl|exact HV]|].
          apply (vrel_ext (m_heap s)); [intros k _; apply Hl|exact Hw].
  Qed.
  Lemma move_ok : forall s A j l, rel s A -> nth_error A j = Some l ->
    exists s', move s j = Done s' /\ rel s' (setl A j [] ++ [l]).
  Proof.
    intros s A j l HR El. pose proof HR as [(Hacc & HN & HF) HV].
    destruct (F2_r _ _ _ HV j l El) as (w & Ew & Hw). unfold move. rewrite Ew.
    eexists. split; [reflexivity|].
    set (v' := {| v_buf := m_next s; v_cap := 0; v_ids := [] |}).
    destruct (setl_flat _ _ v_ids (m_vars s) j w Ew) as (rest & P1 & P2).
    destruct (setl_flat _ _ (fun v => [v_buf v]) (m_vars s) j w Ew) as (restb & Q1 & Q2).
    split; [split; [|split]|]; simpl.
    - apply (acc_perm _ (refs s)); [|exact Hacc]. unfold refs; simpl. rewrite flat_map_app, (P2 v'), P1. simpl.
      rewrite app_nil_r. apply Permutation_app_comm.
    - assert (Em : forall vs : list vec, map v_buf vs = flat_map (fun v => [v_buf v]) vs).
      { clear. induction vs as [|x vs IH]; simpl; [reflexivity|]. rewrite IH. reflexivity. }
      pose proof (bufs_fresh s HF) as Hfr. rewrite Em in HN, Hfr |- *.
      rewrite flat_map_app. simpl. simpl in Q1. rewrite Q1 in HN, Hfr. rewrite (Q2 v'). simpl.
      constructor.
      + intros Hc. apply Hfr. apply in_app_or in Hc. destruct Hc as [Hc|[Hc|[]]]; [right; exact Hc|left; exact Hc].
      + apply (Permutation_NoDup (Permutation_cons_append restb (v_buf w))). exact HN.
    - apply Forall_app. split.
      + apply setl_Forall; [apply bufs_lt_S; exact HF|]. simpl. lia.
      + constructor; [|constructor]. rewrite Forall_forall in HF. specialize (HF w (nth_error_In _ _ Ew)). simpl in HF. lia.
    - apply F2_app1; [|exact Hw]. apply F2_setl; [exact HV|]. reflexivity.
  Qed.
  Lemma destroy_ok : forall s A i l, rel s A -> nth_error A i = Some l ->
    exists s', destroy s i = Done s' /\ rel s' (setl A i []).
  Proof.
    intros s A i l HR El. pose proof HR as [(Hacc & HN & HF) HV].
    destruct (F2_r _ _ _ HV i l El) as (v & Ev & Hv). unfold destroy. rewrite Ev.
    destruct (setl_flat _ _ v_ids (m_vars s) i v Ev) as (rest & P1 & P2).
    assert (Ha' : acc (m_heap s) (v_ids v ++ rest)) by (apply (acc_perm _ (refs s)); [exact P1|exact Hacc]).
    destruct (release_all_ok (v_ids v) _ _ Ha') as (h' & Eh' & Hb & Hl'). rewrite Eh'.
    eexists. split; [reflexivity|].
    set (v' := {| v_buf := m_next s; v_cap := 0; v_ids := [] |}).
    split; [split|]; simpl.
    - apply (acc_perm _ rest); [|exact Hb]. unfold refs; simpl. rewrite (P2 v'). reflexivity.
    - exact (bufs_new _ _ i v' eq_refl HN HF).
    - apply (F2_ext (m_heap s)).
      + intros k Hk. apply Hl'. rewrite (P2 v') in Hk. exact Hk.
      + apply F2_setl; [exact HV|]. reflexivity.
  Qed.
  Lemma setl2_perm : forall (l : list nat) n1 n2 x y, nth_error l n1 = Some x -> nth_error l n2 = Some y ->
    Permutation l (setl (setl l n1 y) n2 x).
  Proof.
    intros l n1 n2 x y E1 E2.
    assert (Em : forall vs : list nat, vs = flat_map (fun v => [v]) vs).
    { clear. induction vs as [|z vs IH]; simpl; [reflexivity|]. f_equal. exact IH. }
    destruct (setl_flat _ _ (fun v => [v]) l n1 x E1) as (r1 & P1 & Q1).
    assert (E3 : exists y', nth_error (setl l n1 y) n2 = Some y' /\ (y' = y)).
    { destruct (Nat.eq_dec n1 n2) as [<-|Hne].
      - exists y. split; [|reflexivity]. apply setl_nth_eq. exact (nth_lt _ _ _ _ E1).
      - exists y. rewrite setl_nth_neq by exact Hne. auto. }
    destruct E3 as (y' & E3 & ->).
    destruct (setl_flat _ _ (fun v => [v]) (setl l n1 y) n2 y E3) as (r2 & P2 & Q2).
    rewrite (Em l) at 1. rewrite (Em (setl (setl l n1 y) n2 x)). rewrite P1, (Q2 x).
    simpl. constructor. apply (Permutation_cons_inv (a := y)).
    pose proof (Q1 y) as Q1y. simpl in Q1y. rewrite <- Q1y. exact P2.
  Qed.
  Lemma swap_ok : forall s A i n1 n2 l l', rel s A -> nth_error A i = Some l -> swapped l n1 n2 = Some l' ->
    exists s', swap s i n1 n2 = Done s' /\ rel s' (setl A i l').
  Proof.
    intros s A i n1 n2 l l' HR El Es. pose proof HR as [(Hacc & HN & HF) HV].
    destruct (F2_r _ _ _ HV i l El) as (v & Ev & Hv). unfold swap. rewrite Ev.
    unfold swapped in Es.
    pose proof (vrel_nth _ _ _ n1 Hv) as H1. pose proof (vrel_nth _ _ _ n2 Hv) as H2.
    destruct (nth_error (v_ids v) n1) as [x|] eqn:Ex; [|rewrite H1 in Es; discriminate].
    destruct H1 as (g1 & Eg1 & Hg1). rewrite Eg1 in Es.
    destruct (nth_error (v_ids v) n2) as [y|] eqn:Ey; [|rewrite H2 in Es; discriminate].
    destruct H2 as (g2 & Eg2 & Hg2). rewrite Eg2 in Es. injection Es as <-.
    eexists. split; [reflexivity|].
    set (v' := {| v_buf := v_buf v; v_cap := v_cap v; v_ids := setl (setl (v_ids v) n1 y) n2 x |}).
    split; [split|]; simpl.
    - destruct (setl_flat _ _ v_ids (m_vars s) i v Ev) as (rest & P1 & P2).
      apply (acc_perm _ (refs s)); [|exact Hacc]. unfold refs; simpl. rewrite P1, (P2 v'). simpl.
      apply Permutation_app_tail. apply setl2_perm; assumption.
    - exact (bufs_same _ _ i v v' Ev eq_refl HN HF).
    - apply F2_setl; [exact HV|]. unfold vrel; simpl. rewrite !setl_map, Hg1, Hg2. f_equal. f_equal. exact Hv.
  Qed.

  (** one operation *)
  Definition self_overflow (s : mstate) (o : @mop G) : Prop :=
    exists i a b v, o = MAppendRange i i a b /\ nth_error (m_vars s) i = Some v /\ a < b /\
      v_cap v < length (v_ids v) + (b - a).
  Lemma step_some : forall s A o A', rel s A -> astep A o = Some A' ->
    (~ self_overflow s o /\ exists s', mstep grow s o = Done s' /\ rel s' A') \/
    (self_overflow s o /\ mstep grow s o = UB).
  Proof.
    intros s A o A' HR Ha.
    assert (NR : (forall i a b, o <> MAppendRange i i a b) -> (exists s', mstep grow s o = Done s' /\ rel s' A') ->
                 (~ self_overflow s o /\ exists s', mstep grow s o = Done s' /\ rel s' A') \/
                 (self_overflow s o /\ mstep grow s o = UB)).
    { intros Hn He. left. split; [|exact He]. intros (i & a & b & v & Eo & _). exact (Hn i a b Eo). }
    destruct o as [gs|j|i j|j|i|i j n|i j|i j a b|i g|ps|i n1 n2]; simpl in Ha; unfold upd_val in Ha;
      try (apply NR; [discriminate|]; clear NR; simpl).
    - injection Ha as <-. apply construct_ok; exact HR.
    - destruct (nth_error A j) as [l|] eqn:El; [|discriminate]. injection Ha as <-. apply copy_ok with (1 := HR); exact El.
    - destruct (nth_error A j) as [lw|] eqn:Elw; [|discriminate].
      destruct (nth_error A i) as [l|] eqn:El; [|discriminate]. injection Ha as <-. eapply assign_ok; eauto.
    - destruct (nth_error A j) as [l|] eqn:El; [|discriminate]. injection Ha as <-. apply move_ok; auto.
    - destruct (nth_error A i) as [l|] eqn:El; [|discriminate]. injection Ha as <-. eapply destroy_ok; eauto.
    - destruct (nth_error A j) as [lw|] eqn:Elw; [|discriminate].
      destruct (nth_error lw n) as [g|] eqn:Eg; [|discriminate].
      destruct (nth_error A i) as [l|] eqn:El; [|discriminate]. injection Ha as <-. eapply append_gen_ok; eauto.
    - destruct (nth_error A j) as [lw|] eqn:Elw; [|discriminate].
      destruct (nth_error A i) as [l|] eqn:El; [|discriminate]. injection Ha as <-. eapply append_mono_ok; eauto.
    - destruct (nth_error A j) as [lw|] eqn:Elw; [|discriminate].
      destruct (Nat.leb_spec a b) as [Hab|]; simpl in Ha; [|discriminate].
      destruct (Nat.leb_spec b (length lw)) as [Hb|]; simpl in Ha; [|discriminate].
      destruct (nth_error A i) as [l|] eqn:El; [|discriminate]. injection Ha as <-.
      destruct (Nat.eq_dec i j) as [<-|Hij].
      + rewrite El in Elw. injection Elw as <-. pose proof HR as [_ HV].
        destruct (F2_r _ _ _ HV i l El) as (v & Ev & Hv). pose proof (vrel_len _ _ _ Hv) as HL.
        assert (Er : mstep grow s (MAppendRange i i a b) = append_loop grow (b - a) s i i (v_buf v) a).
        { simpl. unfold append_range. rewrite Ev, HL, (proj2 (Nat.leb_le a b) Hab), (proj2 (Nat.leb_le b (length l)) Hb). reflexivity. }
        rewrite Er.
        destruct (Nat.eq_dec a b) as [Eab|Hne].
        { left. split.
          - intros (i' & a' & b' & v' & Eo & _ & Hlt & _). injection Eo as -> _ -> ->. lia.
          - subst b. rewrite Nat.sub_diag. exists s. simpl. rewrite Ev, Nat.eqb_refl. split; [reflexivity|].
            unfold slice. rewrite Nat.sub_diag. simpl. rewrite app_nil_r, setl_same by exact El. exact HR. }
        destruct (Nat.lt_ge_cases (v_cap v) (length l + (b - a))) as [Hlt|Hge].
        * right. split.
          -- exists i, a, b, v. split; [reflexivity|]. split; [exact Ev|]. split; [lia|]. rewrite HL. exact Hlt.
          -- apply (append_loop_self_ub (b - a) s A i l v a); auto; lia.
        * left. split.
          -- intros (i' & a' & b' & v' & Eo & Ev' & _ & Hov). injection Eo as <- _ <- <-.
             rewrite Ev in Ev'. injection Ev' as <-. lia.
          -- apply append_loop_self; auto; lia.
      + apply NR; [intros i' a' b' Eo; injection Eo; intros; subst; lia|]. simpl. apply append_range_other; auto.
    - discriminate.
    - destruct (parts_value A ps) as [x|] eqn:Ex; [|discriminate]. injection Ha as <-. apply concatenate_ok; auto.
    - destruct (nth_error A i) as [l|] eqn:El; [|discriminate].
      destruct (swapped l n1 n2) as [l'|] eqn:Es; [|discriminate]. injection Ha as <-. eapply swap_ok; eauto.
  Qed.

  Lemma vars_none : forall s A i, rel s A -> nth_error A i = None -> nth_error (m_vars s) i = None.
  Proof.
    intros s A i [_ HV] H. apply nth_error_None. rewrite (F2_len _ _ _ HV). apply nth_error_None. exact H.
  Qed.
  Lemma append_part_none : forall s A i p s', rel s A -> part_value A p = None -> append_part grow s i p <> Done s'.
  Proof.
    intros s A i [j n|j|j a b] s' HR Hn; simpl in *.
    - unfold append_gen. destruct (nth_error A j) as [lw|] eqn:Elw.
      + destruct (nth_error lw n) as [g|] eqn:Eg; [discriminate|]. pose proof HR as [_ HV].
        destruct (F2_r _ _ _ HV j lw Elw) as (w & Ew & Hw). rewrite Ew.
        pose proof (vrel_nth _ _ _ n Hw) as H1. destruct (nth_error (v_ids w) n) as [id|]; [|discriminate].
        destruct H1 as (g & E & _). congruence.
      + rewrite (vars_none s A j HR Elw). discriminate.
    - unfold append_mono. rewrite (vars_none s A j HR Hn). destruct (nth_error (m_vars s) i); discriminate.
    - unfold append_range. destruct (nth_error A j) as [lw|] eqn:Elw.
      + pose proof HR as [_ HV]. destruct (F2_r _ _ _ HV j lw Elw) as (w & Ew & Hw). rewrite Ew, (vrel_len _ _ _ Hw).
        destruct (nth_error (m_vars s) i); [|discriminate].
        destruct ((a <=? b) && (b <=? length lw)); discriminate.
      + rewrite (vars_none s A j HR Elw). destruct (nth_error (m_vars s) i); discriminate.
  Qed.
  Lemma append_parts_none : forall ps s A i l s', rel s A -> Forall (fun p => i <> part_var p) ps -> nth_error A i = Some l ->
    parts_value A ps = None -> append_parts grow s i ps <> Done s'.
  Proof.
    induction ps as [|p ps IH]; intros s A i l s' HR HF El Hn; simpl in *; [discriminate|].
    inversion HF; subst. destruct (part_value A p) as [y|] eqn:Ey.
    - destruct (append_part_ok s A i p l y HR H1 El Ey) as (s1 & E1 & R1). rewrite E1. simpl.
      apply (IH s1 (setl A i (l ++ y)) i (l ++ y) s' R1 H2).
      + apply setl_nth_eq. exact (nth_lt _ _ _ _ El).
      + rewrite parts_value_setl by exact H2. destruct (parts_value A ps); [discriminate|reflexivity].
    - pose proof (append_part_none s A i p) as Hp.
      destruct (append_part grow s i p) as [s1|s1|] eqn:E1; simpl; try discriminate.
      exfalso. exact (Hp s1 HR Ey eq_refl).
  Qed.
  Lemma append_id_none : forall s A i id s', rel s A -> nth_error A i = None -> append_id grow s i id <> Done s'.
  Proof. intros s A i id s' HR Hn. unfold append_id. rewrite (vars_none s A i HR Hn). discriminate. Qed.

  Lemma step_none : forall s A o s', rel s A -> astep A o = None -> mstep grow s o <> Done s'.
  Proof.
    intros s A o s' HR Ha.
    destruct o as [gs|j|i j|j|i|i j n|i j|i j a b|i g|ps|i n1 n2]; simpl in Ha; unfold upd_val in Ha; simpl.
    - discriminate.
    - destruct (nth_error A j) as [l|] eqn:El; [discriminate|]. unfold copy. rewrite (vars_none s A j HR El). discriminate.
    - unfold assign. destruct (nth_error A j) as [l|] eqn:El.
      + destruct (nth_error A i) as [l'|] eqn:El'; [discriminate|]. rewrite (vars_none s A i HR El'). discriminate.
      + rewrite (vars_none s A j HR El). destruct (nth_error (m_vars s) i); discriminate.
    - destruct (nth_error A j) as [l|] eqn:El; [discriminate|]. unfold move. rewrite (vars_none s A j HR El). discriminate.
    - destruct (nth_error A i) as [l|] eqn:El; [discriminate|]. unfold destroy. rewrite (vars_none s A i HR El). discriminate.
    - destruct (part_value A (PGen j n)) as [x|] eqn:Ex; simpl in Ex; rewrite Ex in Ha.
      + destruct (nth_error A i) as [l'|] eqn:El'; [discriminate|]. unfold append_gen.
        destruct (nth_error (m_vars s) j) as [w|]; [|discriminate].
        destruct (nth_error (v_ids w) n) as [id|]; [|discriminate]. apply (append_id_none s A); auto.
      + exact (append_part_none s A i (PGen j n) s' HR Ex).
    - destruct (nth_error A j) as [x|] eqn:Ex.
      + destruct (nth_error A i) as [l'|] eqn:El'; [discriminate|]. unfold append_mono.
        rewrite (vars_none s A i HR El'). discriminate.
      + exact (append_part_none s A i (PMono j) s' HR Ex).
    - destruct (part_value A (PRange j a b)) as [x|] eqn:Ex; simpl in Ex; rewrite Ex in Ha.
      + destruct (nth_error A i) as [l'|] eqn:El'; [discriminate|]. unfold append_range.
        rewrite (vars_none s A i HR El'). discriminate.
      + exact (append_part_none s A i (PRange j a b) s' HR Ex).
    - discriminate.
    - destruct (parts_value A ps) as [x|] eqn:Ex; [discriminate|].
      unfold concatenate. pose proof HR as [_ HV]. pose proof (F2_len _ _ _ HV) as HL. rewrite HL.
      destruct (forallb (fun p => part_var p <? length A) ps) eqn:Eb; [|discriminate].
      assert (Hps : Forall (fun p => part_var p < length A) ps).
      { apply Forall_forall. intros p Hp. rewrite forallb_forall in Eb. apply Nat.ltb_lt. apply Eb. exact Hp. }
      destruct (reserve_ok (new_var s) (A ++ [[]]) (length A) [] (list_sum (map (part_size s) ps)) (new_var_ok s A HR) (nth_last _ A []))
        as (s1 & v & v' & E1 & R1 & _).
      rewrite E1. simpl. apply (append_parts_none ps s1 (A ++ [[]]) (length A) [] s' R1).
      + eapply Forall_impl; [|exact Hps]. simpl. intros p Hp. lia.
      + apply nth_last.
      + rewrite parts_value_app by exact Hps. exact Ex.
    - unfold swap. destruct (nth_error A i) as [l|] eqn:El.
      + pose proof HR as [_ HV]. destruct (F2_r _ _ _ HV i l El) as (v & Ev & Hv). rewrite Ev.
        unfold swapped in Ha.
        pose proof (vrel_nth _ _ _ n1 Hv) as H1. pose proof (vrel_nth _ _ _ n2 Hv) as H2.
        destruct (nth_error (v_ids v) n1) as [x|]; [|discriminate].
        destruct H1 as (g1 & Eg1 & _). rewrite Eg1 in Ha.
        destruct (nth_error (v_ids v) n2) as [y|]; [|discriminate].
        destruct H2 as (g2 & Eg2 & _). rewrite Eg2 in Ha. discriminate.
      + rewrite (vars_none s A i HR El). discriminate.
  Qed.

  Lemma rel_empty : rel mempty [].
  Proof.
    split; [split; [|split]|]; simpl; try constructor.
    intros id. unfold refs; simpl. destruct id; reflexivity.
  Qed.
  (** whole programs *)
  Lemma run_done : forall p s A s', rel s A -> mrun grow s p = Done s' ->
    exists A', arun A p = Some A' /\ rel s' A'.
  Proof.
    induction p as [|o p IH]; intros s A s' HR H; simpl in *.
    - injection H as <-. eauto.
    - destruct (astep A o) as [A1|] eqn:Ea.
      + destruct (step_some s A o A1 HR Ea) as [(_ & s1 & E1 & R1)|(_ & E1)]; rewrite E1 in H; simpl in H.
        * exact (IH s1 A1 s' R1 H).
        * discriminate.
      + pose proof (step_none s A o) as Hs.
        destruct (mstep grow s o) as [s1|s1|] eqn:E1; simpl in H; try discriminate.
        exfalso. exact (Hs s1 HR Ea eq_refl).
  Qed.
  Lemma run_safe : forall p s A A', rel s A -> Forall no_self_range p -> arun A p = Some A' ->
    exists s', mrun grow s p = Done s' /\ rel s' A'.
  Proof.
    induction p as [|o p IH]; intros s A A' HR HF H; simpl in *.
    - injection H as <-. eauto.
    - inversion HF; subst. destruct (astep A o) as [A1|] eqn:Ea; [|discriminate].
      destruct (step_some s A o A1 HR Ea) as [(_ & s1 & E1 & R1)|((i & a & b & v & Eo & _) & _)].
      + rewrite E1. simpl. exact (IH s1 A1 A' R1 H3 H).
      + subst o. simpl in H2. congruence.
  Qed.
End PROOFS.
