From Coq Require Import List Bool Arith Lia Relations.
From Verif Require Import DSModel DSSpec.
Import ListNotations.

(** ** upd *)
Lemma upd_length {A} (l : list A) : forall i v, length (upd l i v) = length l.
Proof. induction l as [|a l IH]; intros [|i] v; simpl; auto. Qed.
Lemma upd_get {A} (l : list A) : forall i j v, i < length l ->
  nth_error (upd l i v) j = if j =? i then Some v else nth_error l j.
Proof.
  induction l as [|a l IH]; intros [|i] [|j] v H; simpl in *; try lia; try reflexivity.
  - destruct (j =? i) eqn:E; rewrite (IH i j v) by lia; rewrite E; reflexivity.
Qed.
Lemma upd_same {A} (l : list A) i v : i < length l -> nth_error (upd l i v) i = Some v.
Proof. intros H. rewrite upd_get, Nat.eqb_refl by exact H. reflexivity. Qed.
Lemma upd_other {A} (l : list A) i j v : i < length l -> j <> i -> nth_error (upd l i v) j = nth_error l j.
Proof. intros H Hn. rewrite upd_get by exact H. destruct (Nat.eqb_spec j i); [contradiction|reflexivity]. Qed.

(** ** root_at ps x r d: r is the root of x, d steps away *)
Inductive root_at (ps : list nat) : nat -> nat -> nat -> Prop :=
| root_here x : nth_error ps x = Some x -> root_at ps x x 0
| root_up x p r d : nth_error ps x = Some p -> p <> x -> root_at ps p r d -> root_at ps x r (S d).

Lemma root_at_det ps x r d : root_at ps x r d -> forall r' d', root_at ps x r' d' -> r = r' /\ d = d'.
Proof.
  induction 1 as [x Hx|x p r d Hx Hp _ IH]; intros r' d' H'.
  - inversion H' as [y Hy|y q r'' d'' Hy Hq _]; subst; [auto|congruence].
  - inversion H' as [y Hy|y q r'' d'' Hy Hq H'']; subst; [congruence|].
    assert (q = p) by congruence. subst q. destruct (IH _ _ H''); subst; auto.
Qed.
Lemma root_at_lt ps x r d : root_at ps x r d -> x < length ps.
Proof. intros H. apply nth_error_Some. inversion H; congruence. Qed.
Lemma root_at_root ps x r d : root_at ps x r d -> nth_error ps r = Some r.
Proof. induction 1; auto. Qed.
Lemma root_at_self ps x r d : root_at ps x r d -> root_at ps r r 0.
Proof. intros H. constructor. now apply root_at_root in H. Qed.

(** every element has a root *)
Definition forest (ps : list nat) : Prop := forall x, x < length ps -> exists r d, root_at ps x r d.
Lemma forest_parent ps x p : forest ps -> nth_error ps x = Some p -> p < length ps.
Proof.
  intros F H. assert (x < length ps) as Hx by (apply nth_error_Some; congruence).
  destruct (F x Hx) as [r [d Hr]]. inversion Hr as [y Hy|y q r' d' Hy Hq H']; subst.
  - congruence.
  - assert (q = p) by congruence. subst. now apply root_at_lt in H'.
Qed.

(** the depth is less than the size *)
Lemma root_at_path ps x r d : root_at ps x r d ->
  exists l, length l = S d /\ NoDup l /\ (forall y, In y l -> y < length ps /\ exists d', root_at ps y r d' /\ d' <= d).
Proof.
  induction 1 as [x Hx|x p r d Hx Hp H IH].
  - exists [x]. split; [reflexivity|]. split; [constructor; [intros []|constructor]|].
    intros y [<-|[]]. split; [apply nth_error_Some; congruence|]. exists 0. split; [now constructor|lia].
  - destruct IH as [l [Hl [Hnd Hin]]]. exists (x :: l). split; [simpl; lia|]. split.
    + constructor; [|exact Hnd]. intros Hx'. destruct (Hin x Hx') as [_ [d' [Hd' Hle]]].
      assert (root_at ps x r (S d)) as Hxx by (econstructor; eauto).
      destruct (root_at_det _ _ _ _ Hxx _ _ Hd'). lia.
    + intros y [<-|Hy].
      * split; [apply nth_error_Some; congruence|]. exists (S d). split; [econstructor; eauto|lia].
      * destruct (Hin y Hy) as [A [d' [B C]]]. split; [exact A|]. exists d'. split; [exact B|lia].
Qed.
Lemma root_at_depth ps x r d : root_at ps x r d -> d < length ps.
Proof.
  intros H. destruct (root_at_path _ _ _ _ H) as [l [Hl [Hnd Hin]]].
  assert (incl l (seq 0 (length ps))) as Hi.
  { intros y Hy. apply in_seq. destruct (Hin y Hy). lia. }
  apply NoDup_incl_length in Hi; [|exact Hnd]. rewrite seq_length in Hi. lia.
Qed.

(** ** the root function does not depend on compression *)
Definition same_roots (ps ps' : list nat) : Prop :=
  length ps' = length ps /\ forall y q d, root_at ps y q d -> exists d', root_at ps' y q d'.
Lemma same_roots_refl ps : same_roots ps ps.
Proof. split; [reflexivity|]. eauto. Qed.
Lemma same_roots_trans a b c : same_roots a b -> same_roots b c -> same_roots a c.
Proof.
  intros [L1 H1] [L2 H2]. split; [congruence|]. intros y q d H.
  destruct (H1 _ _ _ H) as [d' H']. eauto.
Qed.
Lemma same_roots_forest a b : same_roots a b -> forest a -> forest b.
Proof.
  intros [L H] F x Hx. rewrite L in Hx. destruct (F x Hx) as [r [d Hr]].
  destruct (H _ _ _ Hr) as [d' Hd]. eauto.
Qed.
Lemma same_roots_back a b y q d : same_roots a b -> forest a -> root_at b y q d -> exists d', root_at a y q d'.
Proof.
  intros S F H. destruct S as [L S]. pose proof (root_at_lt _ _ _ _ H) as Hy. rewrite L in Hy.
  destruct (F y Hy) as [r [d0 Hr]]. destruct (S _ _ _ Hr) as [d1 H1].
  destruct (root_at_det _ _ _ _ H _ _ H1). subst. eauto.
Qed.

Lemma upd_preserve ps x r dx a da :
  root_at ps x r dx -> root_at ps a r da -> da < dx -> same_roots ps (upd ps x a).
Proof.
  intros Hx Ha Hlt. split; [apply upd_length|].
  pose proof (root_at_lt _ _ _ _ Hx) as Hxl.
  assert (forall d y q, root_at ps y q d -> exists d', root_at (upd ps x a) y q d') as HH.
  { induction d as [d IH] using lt_wf_ind. intros y q Hy.
    destruct (Nat.eq_dec y x) as [->|Hn].
    - destruct (root_at_det _ _ _ _ Hx _ _ Hy) as [<- <-].
      destruct (IH da Hlt a r Ha) as [d' Hd'].
      destruct (Nat.eq_dec a x) as [->|Hax].
      + destruct (root_at_det _ _ _ _ Hx _ _ Ha). lia.
      + exists (S d'). econstructor; [apply upd_same; exact Hxl|exact Hax|exact Hd'].
    - inversion Hy as [z Hz|z p r' d'' Hz Hp H']; subst.
      + exists 0. constructor. rewrite upd_other by assumption. exact Hz.
      + destruct (IH d'' ltac:(lia) p q H') as [d' Hd']. exists (S d').
        econstructor; [rewrite upd_other by assumption; exact Hz|exact Hp|exact Hd']. }
  intros y q d H. eauto.
Qed.

Lemma find_root_fuel_spec fuel : forall ps x r d, root_at ps x r d -> d <= fuel ->
  exists ps', find_root_fuel fuel ps x = Some (ps', r) /\ same_roots ps ps' /\
    (forall y, nth_error ps y = Some y <-> nth_error ps' y = Some y).
Proof.
  induction fuel as [|f IH]; intros ps x r d Hr Hd.
  - assert (d = 0) by lia. subst d. inversion Hr as [y Hy|]; subst.
    exists ps. cbn [find_root_fuel]. rewrite Hy. cbn [dbind]. rewrite Hy. cbn [dbind]. rewrite Nat.eqb_refl.
    split; [reflexivity|]. split; [apply same_roots_refl|]. tauto.
  - inversion Hr as [y Hy|y p r' d' Hy Hp H']; subst.
    + exists ps. cbn [find_root_fuel]. rewrite Hy. cbn [dbind]. rewrite Hy. cbn [dbind]. rewrite Nat.eqb_refl.
      split; [reflexivity|]. split; [apply same_roots_refl|]. tauto.
    + cbn [find_root_fuel]. rewrite Hy. cbn [dbind].
      inversion H' as [z Hz|z p2 r2 d2 Hz Hp2 H2]; subst.
      * rewrite Hz. cbn [dbind]. rewrite Nat.eqb_refl. exists ps. split; [reflexivity|].
        split; [apply same_roots_refl|]. tauto.
      * rewrite Hz. cbn [dbind]. destruct (Nat.eqb_spec p2 p) as [E|_]; [contradiction|].
        destruct (IH ps p r (S d2) H' ltac:(lia)) as [ps' [Hf [Hsr Hroots]]].
        rewrite Hf. cbn [dbind fst snd]. exists (upd ps' x r). split; [reflexivity|].
        destruct Hsr as [L S]. destruct (S _ _ _ Hr) as [dx Hx'].
        assert (x <> r) as Hxr.
        { intros ->. apply root_at_root in Hr. congruence. }
        assert (dx <> 0) as Hdx.
        { intros ->. inversion Hx'; subst. contradiction. }
        pose proof (root_at_self _ _ _ _ Hx') as Hrr.
        pose proof (upd_preserve ps' x r dx r 0 Hx' Hrr ltac:(lia)) as Hup.
        split; [eapply same_roots_trans; [split; eassumption|exact Hup]|].
        pose proof (root_at_lt _ _ _ _ Hx') as Hxl.
        intros q. rewrite upd_get by exact Hxl. destruct (Nat.eqb_spec q x) as [->|Hq]; [|apply Hroots].
        split; intros H; [congruence|]. injection H as ->. contradiction.
Qed.

(** ** counting roots *)
Definition is_root (ps : list nat) (x : nat) : bool :=
  match nth_error ps x with Some p => p =? x | None => false end.
Definition n_roots (ps : list nat) : nat := length (filter (is_root ps) (seq 0 (length ps))).
Lemma is_root_true ps x : is_root ps x = true <-> nth_error ps x = Some x.
Proof.
  unfold is_root. destruct (nth_error ps x) as [p|]; [|split; discriminate].
  rewrite Nat.eqb_eq. split; congruence.
Qed.
Lemma filter_change (f g : nat -> bool) i n : i < n -> (forall j, j <> i -> f j = g j) ->
  length (filter g (seq 0 n)) + (if f i then 1 else 0) = length (filter f (seq 0 n)) + (if g i then 1 else 0).
Proof.
  intros Hi H. replace n with (i + (1 + (n - i - 1))) by lia.
  rewrite !seq_app, !filter_app, !app_length. simpl seq.
  rewrite (filter_ext_in f g (seq 0 i)) by (intros j Hj; apply in_seq in Hj; apply H; lia).
  rewrite (filter_ext_in f g (seq (i + 1) _)) by (intros j Hj; apply in_seq in Hj; apply H; lia).
  simpl. destruct (f i), (g i); simpl; lia.
Qed.
Lemma n_roots_upd ps i v : i < length ps ->
  n_roots (upd ps i v) + (if is_root ps i then 1 else 0) = n_roots ps + (if v =? i then 1 else 0).
Proof.
  intros Hi. unfold n_roots. rewrite upd_length.
  rewrite (filter_change (is_root ps) (is_root (upd ps i v)) i (length ps) Hi).
  - f_equal. unfold is_root. rewrite upd_same by exact Hi. reflexivity.
  - intros j Hj. unfold is_root. rewrite upd_other by assumption. reflexivity.
Qed.
Lemma n_roots_ext ps ps' : length ps' = length ps ->
  (forall y, nth_error ps y = Some y <-> nth_error ps' y = Some y) -> n_roots ps' = n_roots ps.
Proof.
  intros L H. unfold n_roots. rewrite L. f_equal. apply filter_ext. intros x.
  apply eq_true_iff_eq. rewrite !is_root_true. symmetry. apply H.
Qed.

(** ** the invariant *)
Definition same_set (ps : list nat) (a b : nat) : Prop := exists r d d', root_at ps a r d /\ root_at ps b r d'.
Definition ds_inv (E : list (nat * nat)) (d : dsets) : Prop :=
  forest (parents d) /\ length (ranks d) = length (parents d) /\
  n_sets d = n_roots (parents d) /\
  (forall a b, In (a, b) E -> a < ds_size d /\ b < ds_size d) /\
  (forall a b, a < ds_size d -> b < ds_size d -> (same_set (parents d) a b <-> connected E a b)).

Lemma same_set_roots ps ps' a b : forest ps -> same_roots ps ps' -> (same_set ps a b <-> same_set ps' a b).
Proof.
  intros F S. split; intros [r [d [d' [H1 H2]]]].
  - destruct S as [_ S]. destruct (S _ _ _ H1), (S _ _ _ H2). exists r; eauto.
  - destruct (same_roots_back _ _ _ _ _ S F H1), (same_roots_back _ _ _ _ _ S F H2). exists r; eauto.
Qed.

Lemma find_root_spec E d x : ds_inv E d -> x < ds_size d ->
  exists d' r dd, find_root d x = Some (d', r) /\ root_at (parents d) x r dd /\ ds_inv E d' /\
    same_roots (parents d) (parents d') /\ ds_size d' = ds_size d /\ n_sets d' = n_sets d /\ ranks d' = ranks d.
Proof.
  intros [F [Hrk [Hn [HE Hc]]]] Hx. destruct (F x Hx) as [r [dd Hr]].
  pose proof (root_at_depth _ _ _ _ Hr) as Hdep.
  destruct (find_root_fuel_spec (ds_size d) (parents d) x r dd Hr ltac:(unfold ds_size; lia)) as [ps' [Hf [Hs Hrt]]].
  eexists _, r, dd. unfold find_root. rewrite Hf. cbn [dbind fst snd]. split; [reflexivity|]. split; [exact Hr|].
  pose proof Hs as [L S].
  assert (length ps' = ds_size d) as L' by exact L.
  split; [|cbn; split; [exact Hs|unfold ds_size; cbn; auto]].
  unfold ds_inv, ds_size. cbn [parents ranks n_sets]. split; [now apply (same_roots_forest (parents d))|].
  split; [congruence|]. split; [rewrite (n_roots_ext (parents d) ps'); auto|].
  split; [intros a b Hab; rewrite L; now apply HE|].
  intros a b Ha Hb. rewrite L in Ha, Hb. rewrite <- (same_set_roots (parents d) ps' a b F Hs). now apply Hc.
Qed.

Lemma same_set_refl ps a r d : root_at ps a r d -> same_set ps a a.
Proof. intros H. exists r; eauto. Qed.

Lemma in_same_set_spec E d x y : ds_inv E d -> x < ds_size d -> y < ds_size d ->
  exists d' b, in_same_set d x y = Some (d', b) /\ ds_inv E d' /\ ds_size d' = ds_size d /\ (b = true <-> connected E x y).
Proof.
  intros I Hx Hy. destruct (find_root_spec E d x I Hx) as [d1 [r1 [k1 [Hf1 [Hr1 [I1 [S1 [Z1 _]]]]]]]].
  destruct (find_root_spec E d1 y I1 ltac:(congruence)) as [d2 [r2 [k2 [Hf2 [Hr2 [I2 [S2 [Z2 _]]]]]]]].
  exists d2, (r1 =? r2). unfold in_same_set. rewrite Hf1. cbn [dbind fst snd]. rewrite Hf2. cbn [dbind fst snd].
  split; [reflexivity|]. split; [exact I2|]. split; [congruence|].
  destruct I as [F [_ [_ [_ Hc]]]]. rewrite <- Hc by assumption.
  destruct (same_roots_back _ _ _ _ _ S1 F Hr2) as [k3 Hr3].
  rewrite Nat.eqb_eq. split.
  - intros ->. exists r2. eauto.
  - intros [r [a [b [H1 H2]]]]. destruct (root_at_det _ _ _ _ Hr1 _ _ H1), (root_at_det _ _ _ _ Hr3 _ _ H2). congruence.
Qed.

(** ** union of roots *)
Lemma union_roots ps x y : forest ps -> nth_error ps x = Some x -> nth_error ps y = Some y -> x <> y ->
  length (upd ps y x) = length ps /\
  (forall z q d, root_at ps z q d -> exists d', root_at (upd ps y x) z (if q =? y then x else q) d').
Proof.
  intros F Hx Hy Hxy. split; [apply upd_length|].
  assert (y < length ps) as Hyl by (apply nth_error_Some; congruence).
  assert (root_at (upd ps y x) x x 0) as Hxx by (constructor; rewrite upd_other by auto; exact Hx).
  intros z q d H. induction H as [z Hz|z p r d Hz Hp H IH].
  - destruct (Nat.eqb_spec z y) as [->|Hn].
    + exists 1. econstructor; [apply upd_same; exact Hyl|exact Hxy|exact Hxx].
    + exists 0. constructor. rewrite upd_other by assumption. exact Hz.
  - destruct IH as [d' IH]. exists (S d'). econstructor; [|exact Hp|exact IH].
    rewrite upd_other; [exact Hz|exact Hyl|]. intros ->. congruence.
Qed.

Lemma connected_cons E x y a b :
  connected ((x, y) :: E) a b <->
  connected E a b \/ (connected E a x /\ connected E y b) \/ (connected E a y /\ connected E x b).
Proof.
  unfold connected. split.
  - induction 1 as [a b H|a|a b _ IH|a b c _ IH1 _ IH2].
    + destruct H as [H|H].
      * injection H as -> ->. right; left. split; apply rst_refl.
      * left. now apply rst_step.
    + left. apply rst_refl.
    + destruct IH as [H|[[H1 H2]|[H1 H2]]].
      * left. now apply rst_sym.
      * right; right. split; now apply rst_sym.
      * right; left. split; now apply rst_sym.
    + destruct IH1 as [H|[[H1 H2]|[H1 H2]]]; destruct IH2 as [K|[[K1 K2]|[K1 K2]]].
      * left. eapply rst_trans; eauto.
      * right; left. split; [eapply rst_trans; eauto|exact K2].
      * right; right. split; [eapply rst_trans; eauto|exact K2].
      * right; left. split; [exact H1|eapply rst_trans; eauto].
      * right; left. split; [exact H1|exact K2].
      * left. eapply rst_trans; eauto.
      * right; right. split; [exact H1|eapply rst_trans; eauto].
      * left. eapply rst_trans; eauto.
      * right; right. split; [exact H1|exact K2].
  - assert (forall u v, clos_refl_sym_trans nat (fun a b => In (a, b) E) u v ->
       clos_refl_sym_trans nat (fun a b => In (a, b) ((x, y) :: E)) u v) as M.
    { induction 1; [apply rst_step; right; assumption|apply rst_refl|now apply rst_sym|eapply rst_trans; eauto]. }
    assert (clos_refl_sym_trans nat (fun a b => In (a, b) ((x, y) :: E)) x y) as Hxy by (apply rst_step; now left).
    intros [H|[[H1 H2]|[H1 H2]]].
    + now apply M.
    + eapply rst_trans; [apply M; exact H1|]. eapply rst_trans; [exact Hxy|now apply M].
    + eapply rst_trans; [apply M; exact H1|]. eapply rst_trans; [apply rst_sym; exact Hxy|now apply M].
Qed.
Lemma connected_redundant E x y a b : connected E x y -> (connected ((x, y) :: E) a b <-> connected E a b).
Proof.
  intros H. rewrite connected_cons. unfold connected in *. split; [|tauto]. intros [K|[[K1 K2]|[K1 K2]]]; [exact K| |].
  - eapply rst_trans; [exact K1|]. eapply rst_trans; [exact H|exact K2].
  - eapply rst_trans; [exact K1|]. eapply rst_trans; [apply rst_sym; exact H|exact K2].
Qed.
Lemma connected_sym E a b : connected E a b -> connected E b a.
Proof. apply rst_sym. Qed.
Lemma connected_trans E a b c : connected E a b -> connected E b c -> connected E a c.
Proof. apply rst_trans. Qed.
(* connecting other members of the same classes *)
Lemma connected_shift E x y rx ry a b : connected E x rx -> connected E y ry ->
  (connected ((x, y) :: E) a b <-> connected ((rx, ry) :: E) a b).
Proof.
  intros Hx Hy. rewrite !connected_cons.
  assert (forall u, connected E u x <-> connected E u rx) as A1.
  { intros u; split; intros H; eapply connected_trans; eauto using connected_sym. }
  assert (forall u, connected E x u <-> connected E rx u) as A2.
  { intros u; split; intros H; eapply connected_trans; eauto using connected_sym. }
  assert (forall u, connected E u y <-> connected E u ry) as B1.
  { intros u; split; intros H; eapply connected_trans; eauto using connected_sym. }
  assert (forall u, connected E y u <-> connected E ry u) as B2.
  { intros u; split; intros H; eapply connected_trans; eauto using connected_sym. }
  rewrite (A1 a), (A2 b), (B1 a), (B2 b). tauto.
Qed.
Lemma connected_swap E x y a b : connected ((x, y) :: E) a b <-> connected ((y, x) :: E) a b.
Proof. rewrite !connected_cons. tauto. Qed.

Lemma union_inv E d x y rk : ds_inv E d -> nth_error (parents d) x = Some x -> nth_error (parents d) y = Some y -> x <> y ->
  length rk = ds_size d ->
  ds_inv ((x, y) :: E) {| parents := upd (parents d) y x; ranks := rk; n_sets := n_sets d - 1 |}.
Proof.
  intros [F [Hrk [Hn [HE Hc]]]] Hx Hy Hxy Hlrk.
  destruct (union_roots (parents d) x y F Hx Hy Hxy) as [L U].
  assert (y < length (parents d)) as Hyl by (apply nth_error_Some; congruence).
  assert (x < length (parents d)) as Hxl by (apply nth_error_Some; congruence).
  unfold ds_inv, ds_size in *. cbn [parents ranks n_sets] in *. rewrite L in *.
  split; [|split; [congruence|split; [|split]]].
  - intros z Hz. rewrite L in Hz. destruct (F z Hz) as [r [k Hr]]. destruct (U _ _ _ Hr) as [k' Hk']. eauto.
  - pose proof (n_roots_upd (parents d) y x Hyl) as Hu.
    assert (is_root (parents d) y = true) as Hry by (now apply is_root_true).
    rewrite Hry in Hu. destruct (Nat.eqb_spec x y); [contradiction|]. rewrite Hn. lia.
  - intros a b [Hab|Hab]; [injection Hab as <- <-; auto|]. now apply HE.
  - intros a b Ha Hb. rewrite connected_cons.
    rewrite <- (Hc a b Ha Hb), <- (Hc a x Ha Hxl), <- (Hc y b Hyl Hb), <- (Hc a y Ha Hyl), <- (Hc x b Hxl Hb).
    destruct (F a Ha) as [ra [ka Hra]]. destruct (F b Hb) as [rb [kb Hrb]].
    assert (root_at (parents d) x x 0) as Hxx by (now constructor).
    assert (root_at (parents d) y y 0) as Hyy by (now constructor).
    assert (forall u v ru rv ku kv, root_at (parents d) u ru ku -> root_at (parents d) v rv kv -> (same_set (parents d) u v <-> ru = rv)) as SS.
    { intros u v ru rv ku kv Hu Hv. split.
      - intros [r [e [e' [H1 H2]]]]. destruct (root_at_det _ _ _ _ Hu _ _ H1), (root_at_det _ _ _ _ Hv _ _ H2). congruence.
      - intros ->. exists rv; eauto. }
    rewrite (SS a b _ _ _ _ Hra Hrb), (SS a x _ _ _ _ Hra Hxx), (SS y b _ _ _ _ Hyy Hrb), (SS a y _ _ _ _ Hra Hyy), (SS x b _ _ _ _ Hxx Hrb).
    destruct (U _ _ _ Hra) as [ka' Hka']. destruct (U _ _ _ Hrb) as [kb' Hkb'].
    assert (same_set (upd (parents d) y x) a b <-> (if ra =? y then x else ra) = (if rb =? y then x else rb)) as ->.
    { split.
      - intros [r [e [e' [H1 H2]]]]. destruct (root_at_det _ _ _ _ Hka' _ _ H1), (root_at_det _ _ _ _ Hkb' _ _ H2). congruence.
      - intros Heq. rewrite Heq in Hka'. eexists; eauto. }
    destruct (Nat.eqb_spec ra y), (Nat.eqb_spec rb y); subst; intuition congruence.
Qed.

Lemma ds_inv_ext E E' d : (forall a b, connected E a b <-> connected E' a b) ->
  (forall a b, In (a, b) E' -> a < ds_size d /\ b < ds_size d) -> ds_inv E d -> ds_inv E' d.
Proof.
  intros HE Hb [F [Hrk [Hn [_ Hc]]]]. split; [exact F|]. split; [exact Hrk|]. split; [exact Hn|]. split; [exact Hb|].
  intros a b Ha Hb'. rewrite <- HE. now apply Hc.
Qed.

Lemma root_union_spec E d x y : ds_inv E d -> nth_error (parents d) x = Some x -> nth_error (parents d) y = Some y -> x <> y ->
  exists d' r, root_union d x y = Some (d', r) /\ ds_inv ((x, y) :: E) d' /\ ds_size d' = ds_size d /\ (r = x \/ r = y).
Proof.
  intros I Hx Hy Hxy. pose proof I as [F [Hrk [Hn [HE Hc]]]].
  assert (y < length (parents d)) as Hyl by (apply nth_error_Some; congruence).
  assert (x < length (parents d)) as Hxl by (apply nth_error_Some; congruence).
  unfold root_union. rewrite Hx, Hy. cbn [dbind]. rewrite !Nat.eqb_refl. cbn [andb negb].
  destruct (nth_error (ranks d) x) as [xr|] eqn:Exr; [|apply nth_error_None in Exr; lia].
  destruct (nth_error (ranks d) y) as [yr|] eqn:Eyr; [|apply nth_error_None in Eyr; lia].
  cbn [dbind]. set (rk := if xr =? yr then upd (ranks d) x (xr + 1) else ranks d).
  assert (length rk = ds_size d) as Hlrk by (unfold rk; destruct (xr =? yr); rewrite ?upd_length; exact Hrk).
  destruct (xr <? yr).
  - eexists _, y. split; [reflexivity|]. split; [|split; [apply upd_length|auto]].
    apply (ds_inv_ext ((y, x) :: E)).
    + intros a b. apply connected_swap.
    + unfold ds_size. cbn [parents]. rewrite upd_length. intros a b [H|H]; [injection H as <- <-; auto|]. now apply HE.
    + apply union_inv; auto.
  - eexists _, x. split; [reflexivity|]. split; [|split; [apply upd_length|auto]]. apply union_inv; auto.
Qed.

Lemma set_union_spec E d x y : ds_inv E d -> x < ds_size d -> y < ds_size d ->
  exists d' r, set_union d x y = Some (d', r) /\ ds_inv ((x, y) :: E) d' /\ ds_size d' = ds_size d.
Proof.
  intros I Hx Hy. destruct (find_root_spec E d x I Hx) as [d1 [r1 [k1 [Hf1 [Hr1 [I1 [S1 [Z1 _]]]]]]]].
  destruct (find_root_spec E d1 y I1 ltac:(congruence)) as [d2 [r2 [k2 [Hf2 [Hr2 [I2 [S2 [Z2 _]]]]]]]].
  unfold set_union. rewrite Hf1. cbn [dbind fst snd]. rewrite Hf2. cbn [dbind fst snd].
  pose proof I as [F [_ [_ [HE Hc]]]].
  destruct (same_roots_back _ _ _ _ _ S1 F Hr2) as [k3 Hr3].
  assert (forall a b, In (a, b) ((x, y) :: E) -> a < ds_size d /\ b < ds_size d) as HE'.
  { intros a b [H|H]; [injection H as <- <-; auto|now apply HE]. }
  destruct (Nat.eqb_spec r1 r2) as [->|Hne].
  - exists d2, r2. split; [reflexivity|]. split; [|congruence].
    apply (ds_inv_ext E).
    + intros a b. symmetry. apply connected_redundant. apply Hc; auto. exists r2; eauto.
    + intros a b H. rewrite Z2, Z1. now apply HE'.
    + exact I2.
  - assert (root_at (parents d2) r1 r1 0) as Hr1' .
    { destruct S1 as [_ S1]. destruct (S1 _ _ _ (root_at_self _ _ _ _ Hr1)) as [a A].
      destruct S2 as [_ S2]. destruct (S2 _ _ _ A) as [b B]. exact (root_at_self _ _ _ _ B). }
    assert (root_at (parents d2) r2 r2 0) as Hr2'.
    { destruct S2 as [_ S2]. destruct (S2 _ _ _ Hr2) as [b B]. exact (root_at_self _ _ _ _ B). }
    pose proof (root_at_root _ _ _ _ Hr1') as P1. pose proof (root_at_root _ _ _ _ Hr2') as P2.
    destruct (root_union_spec E d2 r1 r2 I2 P1 P2 Hne) as [d' [r [Hu [Iu [Zu _]]]]].
    exists d', r. split; [exact Hu|]. split; [|congruence].
    apply (ds_inv_ext ((r1, r2) :: E)).
    + intros a b. symmetry.
      pose proof (root_at_lt _ _ _ _ (root_at_self _ _ _ _ Hr1)).
      pose proof (root_at_lt _ _ _ _ (root_at_self _ _ _ _ Hr3)).
      apply connected_shift; apply Hc; auto.
      * exists r1, k1, 0. split; [exact Hr1|exact (root_at_self _ _ _ _ Hr1)].
      * exists r2, k3, 0. split; [exact Hr3|exact (root_at_self _ _ _ _ Hr3)].
    + intros a b H. rewrite Zu, Z2, Z1. now apply HE'.
    + exact Iu.
Qed.

(** ** compress *)
Lemma compress_loop_spec E cnt : forall i d, ds_inv E d -> i + cnt <= ds_size d ->
  exists d', compress_loop cnt i d = Some d' /\ ds_inv E d' /\ ds_size d' = ds_size d /\ same_roots (parents d) (parents d').
Proof.
  induction cnt as [|c IH]; intros i d I Hi.
  - exists d. split; [reflexivity|]. split; [exact I|]. split; [reflexivity|apply same_roots_refl].
  - cbn [compress_loop]. destruct (nth_error (parents d) i) as [p|] eqn:Ep; [|apply nth_error_None in Ep; unfold ds_size in Hi; lia].
    cbn [dbind]. pose proof I as [F _]. pose proof (forest_parent _ _ _ F Ep) as Hp.
    destruct (find_root_spec E d p I Hp) as [d1 [r1 [k1 [Hf1 [Hr1 [I1 [S1 [Z1 _]]]]]]]].
    rewrite Hf1. cbn [dbind fst].
    destruct (IH (S i) d1 I1 ltac:(lia)) as [d' [Hc [I' [Z' S']]]].
    exists d'. split; [exact Hc|]. split; [exact I'|]. split; [congruence|]. eapply same_roots_trans; eauto.
Qed.

(** ** normalize *)
(** a re-rooting is a permutation of representatives: partitions agree *)
Definition same_part (ps ps' : list nat) : Prop :=
  length ps' = length ps /\ forest ps' /\ n_roots ps' = n_roots ps /\
  (forall a b, a < length ps -> b < length ps -> (same_set ps a b <-> same_set ps' a b)).
Lemma same_part_trans a b c : same_part a b -> same_part b c -> same_part a c.
Proof.
  intros [L1 [F1 [N1 H1]]] [L2 [F2 [N2 H2]]]. split; [congruence|]. split; [exact F2|]. split; [congruence|].
  intros x y Hx Hy. rewrite H1 by assumption. apply H2; congruence.
Qed.
Lemma same_set_iff ps u v ru rv ku kv : root_at ps u ru ku -> root_at ps v rv kv -> (same_set ps u v <-> ru = rv).
Proof.
  intros Hu Hv. split.
  - intros [r [e [e' [H1 H2]]]]. destruct (root_at_det _ _ _ _ Hu _ _ H1), (root_at_det _ _ _ _ Hv _ _ H2). congruence.
  - intros ->. exists rv; eauto.
Qed.
Lemma halve_same_part ps x p pp : forest ps -> nth_error ps x = Some p -> nth_error ps p = Some pp ->
  (p = x \/ p < x \/ pp <> p) -> same_part ps (upd ps x pp).
Proof.
  intros F Hx Hp _. assert (x < length ps) as Hxl by (apply nth_error_Some; congruence).
  destruct (F x Hxl) as [r [k Hr]].
  assert (same_roots ps (upd ps x pp) /\ (pp = x <-> p = x)) as [S Hiff].
  { inversion Hr as [y Hy|y q r' k' Hy Hq H']; subst.
    - assert (p = r) by congruence. subst p. assert (pp = r) by congruence. subst pp.
      split; [|tauto].
      split; [apply upd_length|]. intros y q d H. exists d.
      assert (forall j, nth_error (upd ps r r) j = nth_error ps j) as E.
      { intros j. rewrite upd_get by exact Hxl. destruct (Nat.eqb_spec j r); congruence. }
      clear - H E. induction H as [z Hz|z p0 r0 d0 Hz Hne H IH]; [apply root_here; rewrite E; exact Hz|eapply root_up; [rewrite E; exact Hz|exact Hne|exact IH]].
    - assert (q = p) by congruence. subst q.
      inversion H' as [z Hz|z q r2 k2 Hz Hq2 H2]; subst.
      + assert (pp = r) by congruence. subst pp. split; [|tauto].
        apply (upd_preserve ps x r 1 r 0); [exact Hr|exact H'|lia].
      + assert (q = pp) by congruence. subst q. split.
        * apply (upd_preserve ps x r (Datatypes.S (Datatypes.S k2)) pp k2); [exact Hr|exact H2|lia].
        * split; intros ->; [|contradiction].
          destruct (root_at_det _ _ _ _ Hr _ _ H2). lia. }
  pose proof S as [L _]. split; [exact L|]. split; [now apply (same_roots_forest ps)|]. split.
  - pose proof (n_roots_upd ps x pp Hxl) as Hu.
    assert (is_root ps x = (p =? x)) as E1 by (unfold is_root; rewrite Hx; reflexivity).
    rewrite E1 in Hu. destruct (Nat.eqb_spec p x), (Nat.eqb_spec pp x); lia || (exfalso; tauto).
  - intros a b _ _. now apply same_set_roots.
Qed.
Lemma reroot_same_part ps x p : forest ps -> nth_error ps x = Some p -> nth_error ps p = Some p ->
  same_part ps (upd (upd ps p x) x x).
Proof.
  intros F Hx Hp. assert (x < length ps) as Hxl by (apply nth_error_Some; congruence).
  assert (p < length ps) as Hpl by (apply nth_error_Some; congruence).
  set (ps' := upd (upd ps p x) x x).
  assert (length ps' = length ps) as L by (unfold ps'; now rewrite !upd_length).
  assert (nth_error ps' x = Some x) as Gx by (unfold ps'; apply upd_same; now rewrite upd_length).
  assert (forall j, j <> x -> j <> p -> nth_error ps' j = nth_error ps j) as Go.
  { intros j H1 H2. unfold ps'. rewrite upd_other by (rewrite ?upd_length; assumption). now apply upd_other. }
  assert (p <> x -> nth_error ps' p = Some x) as Gp.
  { intros H. unfold ps'. rewrite upd_other by (rewrite ?upd_length; assumption). now apply upd_same. }
  assert (forall z q d, root_at ps z q d -> exists d', root_at ps' z (if q =? p then x else q) d') as U.
  { intros z q d H. induction H as [z Hz|z q r d Hz Hq H IH].
    - destruct (Nat.eqb_spec z p) as [->|Hn].
      + destruct (Nat.eq_dec p x) as [->|Hpx]; [exists 0; now constructor|].
        exists 1. econstructor; [apply Gp; exact Hpx|auto|now constructor].
      + exists 0. constructor. rewrite Go; auto. intros ->. congruence.
    - destruct (Nat.eq_dec z x) as [->|Hzx].
      + assert (q = p) by congruence. subst q.
        assert (r = p) as ->.
        { assert (root_at ps p p 0) as Hpp by (now constructor). destruct (root_at_det _ _ _ _ H _ _ Hpp). assumption. }
        rewrite Nat.eqb_refl. exists 0. now constructor.
      + destruct IH as [d' IH]. exists (S d'). econstructor; [|exact Hq|exact IH].
        rewrite Go; auto. intros ->. congruence. }
  assert (root_at ps p p 0) as Hpp by (now constructor).
  split; [exact L|]. split.
  { intros z Hz. rewrite L in Hz. destruct (F z Hz) as [r [k Hr]]. destruct (U _ _ _ Hr). eauto. }
  split.
  - unfold ps'. assert (x < length (upd ps p x)) as Hxl' by (now rewrite upd_length).
    pose proof (n_roots_upd (upd ps p x) x x Hxl') as H1. pose proof (n_roots_upd ps p x Hpl) as H2.
    assert (is_root ps p = true) as E by (now apply is_root_true). rewrite E in H2. rewrite Nat.eqb_refl in H1.
    destruct (Nat.eqb_spec x p) as [->|Hxp].
    + assert (is_root (upd ps p p) p = true) as E2 by (apply is_root_true; now apply upd_same). rewrite E2 in H1. lia.
    + assert (is_root (upd ps p x) x = false) as E2.
      { unfold is_root. rewrite upd_other, Hx by auto. now apply Nat.eqb_neq; auto. }
      rewrite E2 in H1. lia.
  - intros a b Ha Hb. destruct (F a Ha) as [ra [ka Hra]]. destruct (F b Hb) as [rb [kb Hrb]].
    destruct (U _ _ _ Hra) as [ka' Hka]. destruct (U _ _ _ Hrb) as [kb' Hkb].
    rewrite (same_set_iff _ _ _ _ _ _ _ Hra Hrb), (same_set_iff _ _ _ _ _ _ _ Hka Hkb).
    destruct (Nat.eq_dec x p) as [->|Hxp].
    + destruct (Nat.eqb_spec ra p), (Nat.eqb_spec rb p); subst; split; congruence.
    + (* x is not a root *)
      assert (ra <> x) by (intros ->; apply root_at_root in Hra; congruence).
      assert (rb <> x) by (intros ->; apply root_at_root in Hrb; congruence).
      destruct (Nat.eqb_spec ra p), (Nat.eqb_spec rb p); subst; split; congruence.
Qed.
Lemma normalize_loop_spec cnt : forall x ps, forest ps -> x + cnt <= length ps ->
  exists ps', normalize_loop cnt x ps = Some ps' /\ same_part ps ps'.
Proof.
  induction cnt as [|c IH]; intros x ps F Hx.
  - exists ps. split; [reflexivity|]. split; [reflexivity|]. split; [exact F|]. split; [reflexivity|]. tauto.
  - cbn [normalize_loop]. destruct (nth_error ps x) as [p|] eqn:Ep; [|apply nth_error_None in Ep; lia].
    cbn [dbind]. destruct (nth_error ps p) as [pp|] eqn:Epp.
    2:{ apply nth_error_None in Epp. pose proof (forest_parent _ _ _ F Ep). lia. }
    cbn [dbind].
    assert (same_part ps (if (p <? x) || negb (pp =? p) then upd ps x pp else upd (upd ps p x) x x)) as S.
    { destruct ((p <? x) || negb (pp =? p)) eqn:C.
      - apply halve_same_part with p; auto. apply orb_true_iff in C. rewrite Nat.ltb_lt, negb_true_iff, Nat.eqb_neq in C. tauto.
      - apply orb_false_iff in C. destruct C as [_ C]. apply negb_false_iff, Nat.eqb_eq in C. subst pp.
        now apply reroot_same_part. }
    pose proof S as [L [F' _]].
    destruct (IH (Datatypes.S x) _ F' ltac:(rewrite L; lia)) as [ps' [Hn S']].
    exists ps'. split; [exact Hn|]. eapply same_part_trans; eauto.
Qed.
Lemma normalize_sets_spec E d : ds_inv E d -> exists d', normalize_sets d = Some d' /\ ds_inv E d' /\ ds_size d' = ds_size d.
Proof.
  intros [F [Hrk [Hn [HE Hc]]]].
  destruct (normalize_loop_spec (ds_size d) 0 (parents d) F ltac:(unfold ds_size; lia)) as [ps' [Hl [L [F' [Nr Hs]]]]].
  unfold normalize_sets. rewrite Hl. cbn [dbind]. eexists. split; [reflexivity|]. split; [|exact L].
  unfold ds_inv, ds_size in *. cbn [parents ranks n_sets]. split; [exact F'|]. split; [congruence|]. split; [congruence|].
  split; [intros a b H; rewrite L; now apply HE|]. intros a b Ha Hb. rewrite L in Ha, Hb. rewrite <- Hs by assumption. now apply Hc.
Qed.

(** ** growing *)
Lemma root_at_app ps x r d l : root_at ps x r d -> root_at (ps ++ l) x r d.
Proof.
  induction 1 as [x Hx|x p r d Hx Hp H IH].
  - constructor. rewrite nth_error_app1; [exact Hx|apply nth_error_Some; congruence].
  - econstructor; [|exact Hp|exact IH]. rewrite nth_error_app1; [exact Hx|apply nth_error_Some; congruence].
Qed.
Lemma connected_bounded E n a b : (forall u v, In (u, v) E -> u < n /\ v < n) -> connected E a b -> a = b \/ (a < n /\ b < n).
Proof.
  intros HE H. induction H as [a b H|a|a b _ IH|a b c _ IH1 _ IH2].
  - right. now apply HE.
  - now left.
  - destruct IH as [->|[? ?]]; auto.
  - destruct IH1 as [->|[? ?]]; destruct IH2 as [->|[? ?]]; auto.
Qed.
Lemma push_inv E ps rk k rk' : ds_inv E {| parents := ps; ranks := rk; n_sets := k |} -> length rk' = S (length ps) ->
  ds_inv E {| parents := ps ++ [length ps]; ranks := rk'; n_sets := k + 1 |}.
Proof.
  intros [F [Hrk [Hn [HE Hc]]]] Hl. unfold ds_inv, ds_size in *. cbn [parents ranks n_sets] in *.
  assert (nth_error (ps ++ [length ps]) (length ps) = Some (length ps)) as Hnew
      by (rewrite nth_error_app2, Nat.sub_diag by lia; reflexivity).
  rewrite app_length. cbn [length]. split; [|split; [|split; [|split]]].
  - intros x Hx. rewrite app_length in Hx. cbn [length] in Hx.
    destruct (Nat.eq_dec x (length ps)) as [->|Hne].
    + exists (length ps), 0. now constructor.
    + destruct (F x ltac:(lia)) as [r [d H]]. exists r, d. now apply root_at_app.
  - lia.
  - unfold n_roots in *. rewrite app_length. cbn [length]. rewrite seq_app, filter_app, app_length. cbn [seq filter].
    assert (is_root (ps ++ [length ps]) (0 + length ps) = true) as -> by (apply is_root_true; exact Hnew).
    cbn [length]. rewrite (filter_ext_in (is_root (ps ++ [length ps])) (is_root ps)); [lia|].
    intros y Hy. apply in_seq in Hy. unfold is_root. rewrite nth_error_app1 by lia. reflexivity.
  - intros a b H. destruct (HE a b H). lia.
  - assert (forall a, a < length ps -> ~ same_set (ps ++ [length ps]) a (length ps) /\ ~ same_set (ps ++ [length ps]) (length ps) a) as Hno.
    { intros a Ha. destruct (F a Ha) as [r [d H]]. pose proof (root_at_lt _ _ _ _ (root_at_self _ _ _ _ H)) as Hr.
      apply (root_at_app _ _ _ _ [length ps]) in H.
      assert (root_at (ps ++ [length ps]) (length ps) (length ps) 0) as Hl' by (now constructor).
      split; rewrite same_set_iff by eassumption; lia. }
    assert (forall a, a < length ps -> ~ connected E a (length ps)) as Hnc.
    { intros a Ha Hco. destruct (connected_bounded _ _ _ _ HE Hco); lia. }
    intros a b Ha Hb. destruct (Nat.eq_dec a (length ps)) as [->|Ha']; destruct (Nat.eq_dec b (length ps)) as [->|Hb'].
    + split; intros _; [apply rst_refl|]. exists (length ps), 0, 0. split; now constructor.
    + split; intros H; exfalso.
      * destruct (Hno b ltac:(lia)) as [_ K]; exact (K H).
      * apply connected_sym in H. exact (Hnc b ltac:(lia) H).
    + split; intros H; exfalso.
      * destruct (Hno a ltac:(lia)) as [K _]; exact (K H).
      * exact (Hnc a ltac:(lia) H).
    + rewrite <- Hc by lia. destruct (F a ltac:(lia)) as [ra [ka Hra]]. destruct (F b ltac:(lia)) as [rb [kb Hrb]].
      rewrite (same_set_iff _ _ _ _ _ _ _ Hra Hrb).
      apply (root_at_app _ _ _ _ [length ps]) in Hra. apply (root_at_app _ _ _ _ [length ps]) in Hrb.
      now rewrite (same_set_iff _ _ _ _ _ _ _ Hra Hrb).
Qed.
Lemma make_sets_inv E n : forall d, ds_inv E d -> ds_inv E (make_sets d n).
Proof.
  induction n as [|n IH]; intros [ps rk k] I.
  - unfold make_sets. cbn. rewrite app_nil_r, Nat.add_0_r. exact I.
  - pose proof I as [_ [Hrk _]]. cbn in Hrk.
    specialize (IH {| parents := ps ++ [length ps]; ranks := rk ++ [0]; n_sets := k + 1 |}
                  ltac:(apply push_inv with rk; [exact I|rewrite app_length; cbn; lia])).
    unfold make_sets in *. cbn [parents ranks n_sets push_singletons repeat] in *.
    rewrite <- app_assoc in IH. cbn [app] in IH. replace (k + S n) with (k + 1 + n) by lia. exact IH.
Qed.
Lemma push_length n : forall ps, length (push_singletons n ps) = length ps + n.
Proof. induction n as [|n IH]; intros ps; cbn; [lia|]. rewrite IH, app_length. cbn. lia. Qed.
Lemma make_sets_size d n : ds_size (make_sets d n) = ds_size d + n.
Proof. apply push_length. Qed.
Lemma make_set_inv E d : ds_inv E d -> ds_inv E (fst (make_set d)).
Proof.
  intros I. destruct d as [ps rk k]. unfold make_set. cbn. apply push_inv with rk; [exact I|].
  pose proof I as [_ [Hrk _]]. cbn in Hrk. rewrite app_length. cbn. lia.
Qed.

Lemma ds_init_inv n : ds_inv [] (ds_init n).
Proof.
  unfold ds_init, ds_inv, ds_size. cbn [parents ranks n_sets]. rewrite repeat_length, seq_length.
  assert (forall x, x < n -> nth_error (seq 0 n) x = Some x) as G.
  { intros x Hx. rewrite nth_error_nth' with (d := 0) by (now rewrite seq_length). rewrite seq_nth by exact Hx. reflexivity. }
  split; [|split; [reflexivity|split; [|split]]].
  - intros x Hx. rewrite seq_length in Hx. exists x, 0. constructor. auto.
  - unfold n_roots. rewrite seq_length.
    assert (filter (is_root (seq 0 n)) (seq 0 n) = seq 0 n) as ->; [|now rewrite seq_length].
    assert (forall l, (forall x, In x l -> is_root (seq 0 n) x = true) -> filter (is_root (seq 0 n)) l = l) as HH.
    { induction l as [|a l IH]; intros H; [reflexivity|]. cbn. rewrite (H a (or_introl eq_refl)). f_equal. apply IH. intros x Hx. apply H. now right. }
    apply HH. intros x Hx. apply in_seq in Hx. apply is_root_true. apply G. lia.
  - intros a b [].
  - intros a b Ha Hb. assert (root_at (seq 0 n) a a 0) as H1 by (constructor; auto). assert (root_at (seq 0 n) b b 0) as H2 by (constructor; auto).
    rewrite (same_set_iff _ _ _ _ _ _ _ H1 H2). split; [intros ->; apply rst_refl|].
    intros H. unfold connected in H. clear -H. induction H; try congruence. contradiction.
Qed.

(** ** histories *)
(** edges added by a history *)
Fixpoint op_edges (l : list ds_op) : list (nat * nat) :=
  match l with
  | [] => []
  | DRootUnion x y :: l' | DUnion x y :: l' => (x, y) :: op_edges l'
  | _ :: l' => op_edges l'
  end.
(** [DRootUnion x x] is excluded: it is a misuse that the code does not detect. *)
Definition op_ok (o : ds_op) : bool := match o with DRootUnion x y => negb (x =? y) | _ => true end.

Lemma connected_perm E E' a b : (forall e, In e E <-> In e E') -> connected E a b -> connected E' a b.
Proof.
  intros H. induction 1 as [a b K|a|a b _ IH|a b c _ IH1 _ IH2];
    [apply rst_step; now apply H|apply rst_refl|now apply rst_sym|eapply rst_trans; eauto].
Qed.

Lemma ds_step_inv E d o d' : ds_inv E d -> op_ok o = true -> ds_step d o = Some d' ->
  ds_inv (op_edges [o] ++ E) d' /\ ds_size d <= ds_size d'.
Proof.
  intros I Hok H. destruct o as [|n|x|x y|x y|x y| |]; cbn [ds_step op_edges app] in *.
  - injection H as <-. split; [now apply make_set_inv|]. unfold make_set, ds_size. cbn. rewrite app_length. lia.
  - injection H as <-. split; [now apply make_sets_inv|]. rewrite make_sets_size. lia.
  - destruct (Nat.lt_ge_cases x (ds_size d)) as [L|L].
    + destruct (find_root_spec E d x I L) as [d1 [r1 [k1 [Hf [_ [I1 [_ [Z _]]]]]]]]. rewrite Hf in H. cbn in H. injection H as <-.
      split; [exact I1|lia].
    + exfalso. unfold find_root in H. destruct (ds_size d) eqn:?; cbn [find_root_fuel] in H;
      (destruct (nth_error (parents d) x) eqn:E1; [assert (x < length (parents d)) by (apply nth_error_Some; congruence); unfold ds_size in *; lia|discriminate]).
  - destruct (Nat.lt_ge_cases x (ds_size d)) as [L|L].
    2:{ exfalso. unfold in_same_set, find_root in H. destruct (ds_size d) eqn:?; cbn [find_root_fuel] in H;
      (destruct (nth_error (parents d) x) eqn:E1; [assert (x < length (parents d)) by (apply nth_error_Some; congruence); unfold ds_size in *; lia|discriminate]). }
    destruct (Nat.lt_ge_cases y (ds_size d)) as [L2|L2].
    + destruct (in_same_set_spec E d x y I L L2) as [d1 [b [Hf [I1 [Z _]]]]]. rewrite Hf in H. cbn in H. injection H as <-. split; [exact I1|lia].
    + exfalso. destruct (find_root_spec E d x I L) as [d1 [r1 [k1 [Hf [_ [I1 [_ [Z _]]]]]]]].
      unfold in_same_set in H. rewrite Hf in H. cbn [dbind fst snd] in H.
      unfold find_root in H. destruct (ds_size d1) eqn:?; cbn [find_root_fuel] in H;
      (destruct (nth_error (parents d1) y) eqn:E1; [assert (y < length (parents d1)) by (apply nth_error_Some; congruence); unfold ds_size in *; lia|discriminate]).
  - cbn in Hok. apply negb_true_iff, Nat.eqb_neq in Hok.
    destruct (nth_error (parents d) x) as [px|] eqn:E1; [|unfold root_union in H; rewrite E1 in H; discriminate].
    destruct (nth_error (parents d) y) as [py|] eqn:E2; [|unfold root_union in H; rewrite E1, E2 in H; discriminate].
    destruct ((px =? x) && (py =? y)) eqn:E3; [|unfold root_union in H; rewrite E1, E2 in H; cbn [dbind] in H; rewrite E3 in H; discriminate].
    apply andb_true_iff in E3. destruct E3 as [E3 E4]. apply Nat.eqb_eq in E3, E4. subst px py.
    destruct (root_union_spec E d x y I E1 E2 Hok) as [d1 [r [Hf [I1 [Z _]]]]]. rewrite Hf in H. cbn in H. injection H as <-.
    split; [exact I1|lia].
  - destruct (Nat.lt_ge_cases x (ds_size d)) as [L|L].
    2:{ exfalso. unfold set_union, find_root in H. destruct (ds_size d) eqn:?; cbn [find_root_fuel] in H;
      (destruct (nth_error (parents d) x) eqn:E1; [assert (x < length (parents d)) by (apply nth_error_Some; congruence); unfold ds_size in *; lia|discriminate]). }
    destruct (Nat.lt_ge_cases y (ds_size d)) as [L2|L2].
    + destruct (set_union_spec E d x y I L L2) as [d1 [b [Hf [I1 Z]]]]. rewrite Hf in H. cbn in H. injection H as <-. split; [exact I1|lia].
    + exfalso. destruct (find_root_spec E d x I L) as [d1 [r1 [k1 [Hf [_ [I1 [_ [Z _]]]]]]]].
      unfold set_union in H. rewrite Hf in H. cbn [dbind fst snd] in H.
      unfold find_root in H. destruct (ds_size d1) eqn:?; cbn [find_root_fuel] in H;
      (destruct (nth_error (parents d1) y) eqn:E1; [assert (y < length (parents d1)) by (apply nth_error_Some; congruence); unfold ds_size in *; lia|discriminate]).
  - unfold compress_sets in H. destruct (compress_loop_spec E (ds_size d) 0 d I ltac:(lia)) as [d1 [Hf [I1 [Z _]]]].
    rewrite Hf in H. injection H as <-. split; [exact I1|lia].
  - destruct (normalize_sets_spec E d I) as [d1 [Hf [I1 Z]]]. rewrite Hf in H. injection H as <-. split; [exact I1|lia].
Qed.

Lemma ds_run_inv l : forall E d d', ds_inv E d -> forallb op_ok l = true -> ds_run d l = Some d' ->
  exists E', ds_inv E' d' /\ (forall e, In e E' <-> In e E \/ In e (op_edges l)).
Proof.
  induction l as [|o l IH]; intros E d d' I Hok H.
  - injection H as <-. exists E. split; [exact I|]. cbn. tauto.
  - cbn [forallb] in Hok. apply andb_true_iff in Hok. destruct Hok as [Hok Hokl].
    cbn [ds_run] in H. destruct (ds_step d o) as [d1|] eqn:Es; [|discriminate]. cbn [dbind] in H.
    destruct (ds_step_inv E d o d1 I Hok Es) as [I1 _].
    destruct (IH _ _ _ I1 Hokl H) as [E' [I' HE']]. exists E'. split; [exact I'|].
    intros e. rewrite HE', in_app_iff.
    assert (In e (op_edges (o :: l)) <-> In e (op_edges [o]) \/ In e (op_edges l)) as ->.
    { destruct o; cbn; tauto. }
    tauto.
Qed.

Lemma ds_inv_perm E E' d : (forall e, In e E <-> In e E') -> ds_inv E d -> ds_inv E' d.
Proof.
  intros H I. apply (ds_inv_ext E); [|intros a b Hab; apply H in Hab; now apply I|exact I].
  intros a b; split; apply connected_perm; firstorder.
Qed.
Lemma ds_history_inv n l d : forallb op_ok l = true -> ds_run (ds_init n) l = Some d -> ds_inv (op_edges l) d.
Proof.
  intros Hok H. destruct (ds_run_inv l [] _ _ (ds_init_inv n) Hok H) as [E' [I HE]].
  apply (ds_inv_perm E'); [|exact I]. intros e. rewrite HE. cbn. tauto.
Qed.

(** consequences *)
Lemma ds_history_same n l d x y : forallb op_ok l = true -> ds_run (ds_init n) l = Some d ->
  x < ds_size d -> y < ds_size d ->
  exists d' b, in_same_set d x y = Some (d', b) /\ (b = true <-> connected (op_edges l) x y).
Proof.
  intros Hok H Hx Hy. pose proof (ds_history_inv n l d Hok H) as I.
  destruct (in_same_set_spec _ _ _ _ I Hx Hy) as [d' [b [Hf [_ [_ Hb]]]]]. eauto.
Qed.
Lemma ds_history_root n l d x : forallb op_ok l = true -> ds_run (ds_init n) l = Some d -> x < ds_size d ->
  exists d' r, find_root d x = Some (d', r) /\ r < ds_size d /\ connected (op_edges l) x r /\
    (forall y, y < ds_size d -> connected (op_edges l) x y -> exists d'', find_root d y = Some (d'', r)).
Proof.
  intros Hok H Hx. pose proof (ds_history_inv n l d Hok H) as I.
  destruct (find_root_spec _ _ _ I Hx) as [d1 [r [k [Hf [Hr _]]]]].
  pose proof I as [F [_ [_ [_ Hc]]]].
  pose proof (root_at_lt _ _ _ _ (root_at_self _ _ _ _ Hr)) as Hrl.
  exists d1, r. split; [exact Hf|]. split; [exact Hrl|]. split.
  - apply Hc; auto. exists r, k, 0. split; [exact Hr|exact (root_at_self _ _ _ _ Hr)].
  - intros y Hy Hxy. apply Hc in Hxy; auto.
    destruct (find_root_spec _ _ _ I Hy) as [d2 [r2 [k2 [Hf2 [Hr2 _]]]]].
    rewrite (same_set_iff _ _ _ _ _ _ _ Hr Hr2) in Hxy. subst. eauto.
Qed.
Lemma ds_history_nsets n l d : forallb op_ok l = true -> ds_run (ds_init n) l = Some d ->
  n_classes (ds_size d) (op_edges l) (n_sets d).
Proof.
  intros Hok H. pose proof (ds_history_inv n l d Hok H) as [F [_ [Hn [_ Hc]]]].
  exists (filter (is_root (parents d)) (seq 0 (ds_size d))). split; [now symmetry|].
  split; [apply NoDup_filter, seq_NoDup|]. split.
  - intros r Hr. apply filter_In in Hr. destruct Hr as [Hr _]. apply in_seq in Hr. lia.
  - split.
    + intros x Hx. destruct (F x Hx) as [r [k Hr]].
      pose proof (root_at_lt _ _ _ _ (root_at_self _ _ _ _ Hr)) as Hrl.
      exists r. split; [apply filter_In; split; [apply in_seq; unfold ds_size in *; lia|apply is_root_true; exact (root_at_root _ _ _ _ Hr)]|].
      apply Hc; auto. exists r, k, 0. split; [exact Hr|exact (root_at_self _ _ _ _ Hr)].
    + intros r r' Hr Hr' Hco. apply filter_In in Hr, Hr'. destruct Hr as [Hr1 Hr2], Hr' as [Hr1' Hr2'].
      apply in_seq in Hr1, Hr1'. apply is_root_true in Hr2, Hr2'.
      apply Hc in Hco; try (unfold ds_size in *; lia).
      assert (root_at (parents d) r r 0) as A by (now constructor). assert (root_at (parents d) r' r' 0) as B by (now constructor).
      now rewrite (same_set_iff _ _ _ _ _ _ _ A B) in Hco.
Qed.

(** bounds: a history is defined as soon as its arguments are in range (and roots where required) *)
Lemma ds_step_defined E d o : ds_inv E d ->
  (match o with
   | DFind x => x < ds_size d
   | DSame x y | DUnion x y => x < ds_size d /\ y < ds_size d
   | DRootUnion x y => nth_error (parents d) x = Some x /\ nth_error (parents d) y = Some y /\ x <> y
   | _ => True end) -> exists d', ds_step d o = Some d'.
Proof.
  intros I H. destruct o as [|n|x|x y|x y|x y| |]; cbn [ds_step].
  - eauto.
  - eauto.
  - destruct (find_root_spec E d x I H) as [d1 [r1 [k1 [Hf _]]]]. rewrite Hf. cbn. eauto.
  - destruct H as [H1 H2]. destruct (in_same_set_spec E d x y I H1 H2) as [d1 [b [Hf _]]]. rewrite Hf. cbn. eauto.
  - destruct H as [H1 [H2 H3]]. destruct (root_union_spec E d x y I H1 H2 H3) as [d1 [r [Hf _]]]. rewrite Hf. cbn. eauto.
  - destruct H as [H1 H2]. destruct (set_union_spec E d x y I H1 H2) as [d1 [b [Hf _]]]. rewrite Hf. cbn. eauto.
  - destruct (compress_loop_spec E (ds_size d) 0 d I ltac:(lia)) as [d1 [Hf _]]. unfold compress_sets. rewrite Hf. eauto.
  - destruct (normalize_sets_spec E d I) as [d1 [Hf _]]. rewrite Hf. eauto.
Qed.
