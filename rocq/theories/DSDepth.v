(** * How deep the trees of disjoint_sets get *)
From Coq Require Import List Bool Arith Lia.
From Verif Require Import DSModel DSSpec DSProofs.
Import ListNotations.

(** heights: strictly increasing towards the root *)
Definition hfun (ps : list nat) (h : nat -> nat) : Prop :=
  forall x p, nth_error ps x = Some p -> p <> x -> h x < h p.
Lemma hfun_depth ps h x r d : hfun ps h -> root_at ps x r d -> h x + d <= h r.
Proof. intros Hh. induction 1 as [x Hx|x p r d Hx Hp H IH]; [lia|]. specialize (Hh x p Hx Hp). lia. Qed.
Lemma hfun_upd ps h x a : x < length ps -> hfun ps h -> (a = x \/ h x < h a) -> hfun (upd ps x a) h.
Proof.
  intros Hx Hh Ha y p Hy Hp. rewrite upd_get in Hy by exact Hx. destruct (Nat.eqb_spec y x) as [->|Hn].
  - injection Hy as ->. destruct Ha; [contradiction|assumption].
  - apply Hh; assumption.
Qed.
(** what find_root does to the parents *)
Lemma find_root_fuel_shape fuel : forall ps h x ps' r, hfun ps h -> find_root_fuel fuel ps x = Some (ps', r) ->
  hfun ps' h /\ h x <= h r /\ nth_error ps' x = Some r /\ nth_error ps r = Some r /\ length ps' = length ps /\
  (forall y, nth_error ps' y = nth_error ps y \/ (nth_error ps y <> Some y /\ nth_error ps' y = Some r)) /\
  (forall y, nth_error ps' y = Some y <-> nth_error ps y = Some y).
Proof.
  induction fuel as [|f IH]; intros ps h x ps' r Hh H; cbn [find_root_fuel] in H;
    destruct (nth_error ps x) as [p|] eqn:Ep; cbn [dbind] in H; try discriminate;
    destruct (nth_error ps p) as [pp|] eqn:Epp; cbn [dbind] in H; try discriminate;
    destruct (Nat.eqb_spec pp p) as [->|Hne].
  - injection H as <- <-.
    assert (h x <= h p). { destruct (Nat.eq_dec p x) as [->|Hn]; [lia|]. specialize (Hh x p Ep Hn). lia. }
    repeat (split; [solve [auto]|]). tauto.
  - discriminate.
  - injection H as <- <-.
    assert (h x <= h p). { destruct (Nat.eq_dec p x) as [->|Hn]; [lia|]. specialize (Hh x p Ep Hn). lia. }
    repeat (split; [solve [auto]|]). tauto.
  - destruct (find_root_fuel f ps p) as [[ps1 r1]|] eqn:Ef; cbn [dbind fst snd] in H; [|discriminate].
    injection H as <- <-.
    destruct (IH ps h p ps1 r1 Hh Ef) as (H1 & H2 & H3 & H4 & H5 & H6 & H7).
    assert (Hpx : p <> x) by (intros ->; congruence).
    assert (Hlt : h x < h r1) by (specialize (Hh x p Ep Hpx); lia).
    assert (Hxl : x < length ps1) by (rewrite H5; apply nth_error_Some; congruence).
    assert (Hxr : x <> r1) by (intros ->; lia).
    split; [apply hfun_upd; auto|]. split; [lia|]. split; [apply upd_same; exact Hxl|]. split; [exact H4|].
    split; [rewrite upd_length; exact H5|]. split; intros y; rewrite upd_get by exact Hxl; destruct (Nat.eqb_spec y x) as [->|Hn].
    + right. split; [congruence|reflexivity].
    + apply H6.
    + split; intros HH; [injection HH as HH; lia|congruence].
    + apply H7.
Qed.
(** one recursive call per level *)
Lemma find_root_fuel_enough fuel : forall ps x r d, root_at ps x r d -> d <= S fuel ->
  exists ps', find_root_fuel fuel ps x = Some (ps', r).
Proof.
  induction fuel as [|f IH]; intros ps x r d Hr Hd.
  - inversion Hr as [y Hy|y p r' d' Hy Hp H']; subst; cbn [find_root_fuel]; rewrite Hy; cbn [dbind].
    + rewrite Hy. cbn [dbind]. rewrite Nat.eqb_refl. eauto.
    + inversion H' as [z Hz|]; subst; [|lia]. rewrite Hz. cbn [dbind]. rewrite Nat.eqb_refl. eauto.
  - inversion Hr as [y Hy|y p r' d' Hy Hp H']; subst; cbn [find_root_fuel]; rewrite Hy; cbn [dbind].
    + rewrite Hy. cbn [dbind]. rewrite Nat.eqb_refl. eauto.
    + destruct (IH ps p r d' H' ltac:(lia)) as [ps' E].
      inversion H' as [z Hz|z q r2 d2 Hz Hq H2]; subst; rewrite Hz; cbn [dbind].
      * rewrite Nat.eqb_refl. eauto.
      * destruct (Nat.eqb_spec q p); [contradiction|]. rewrite E. cbn [dbind fst snd]. eauto.
Qed.

(** ** the invariants *)
Definition hbound (c : nat) (d : dsets) : Prop :=
  exists h, hfun (parents d) h /\
    forall r k, nth_error (parents d) r = Some r -> nth_error (ranks d) r = Some k -> h r <= k + c.
Definition big (d : dsets) : Prop :=
  forall x k, nth_error (ranks d) x = Some k ->
    exists l, NoDup l /\ 2 ^ k <= length l /\ forall y, In y l -> same_set (parents d) x y.
Lemma hbound_mono c c' d : c <= c' -> hbound c d -> hbound c' d.
Proof. intros Hc (h & H1 & H2). exists h. split; [exact H1|]. intros r k Hr Hk. specialize (H2 r k Hr Hk). lia. Qed.
Lemma same_set_lt ps a b : same_set ps a b -> b < length ps.
Proof. intros (r & k & k' & _ & H). exact (root_at_lt _ _ _ _ H). Qed.
Lemma big_rank d x k : big d -> nth_error (ranks d) x = Some k -> 2 ^ k <= ds_size d.
Proof.
  intros B Hk. destruct (B x k Hk) as (l & Hn & Hl & Hs).
  assert (length l <= length (seq 0 (ds_size d))).
  { apply NoDup_incl_length; [exact Hn|]. intros y Hy. apply in_seq. specialize (same_set_lt _ _ _ (Hs y Hy)). unfold ds_size. lia. }
  rewrite seq_length in H. lia.
Qed.
Lemma pow_log n k : 2 ^ k <= n -> k <= Nat.log2 n.
Proof. intros H. pose proof (Nat.pow_nonzero 2 k). rewrite <- (Nat.log2_pow2 k) by lia. apply Nat.log2_le_mono. exact H. Qed.
Lemma depth_bound c d x r k : hbound c d -> big d -> length (ranks d) = ds_size d -> root_at (parents d) x r k ->
  k <= Nat.log2 (ds_size d) + c.
Proof.
  intros (h & H1 & H2) B HL Hr. pose proof (hfun_depth _ _ _ _ _ H1 Hr) as Hd.
  pose proof (root_at_root _ _ _ _ Hr) as Hrt.
  assert (r < length (ranks d)) as Hlt by (rewrite HL; apply nth_error_Some; congruence).
  destruct (nth_error (ranks d) r) as [rk|] eqn:Ek; [|apply nth_error_None in Ek; lia].
  specialize (H2 r rk Hrt Ek). pose proof (pow_log _ _ (big_rank d r rk B Ek)). lia.
Qed.

(** find_root *)
Lemma find_keeps d x d' r : find_root d x = Some (d', r) -> forall h, hfun (parents d) h ->
  hfun (parents d') h /\ ranks d' = ranks d /\ ds_size d' = ds_size d /\ nth_error (parents d') x = Some r /\
  (forall y, nth_error (parents d') y = nth_error (parents d) y \/ nth_error (parents d') y = Some r) /\
  (forall y, nth_error (parents d') y = Some y <-> nth_error (parents d) y = Some y) /\ nth_error (parents d') r = Some r.
Proof.
  intros H h Hh. unfold find_root in H. destruct (find_root_fuel (ds_size d) (parents d) x) as [[ps' r']|] eqn:E; [|discriminate].
  cbn in H. injection H as <- <-. cbn [parents ranks].
  destruct (find_root_fuel_shape _ _ h _ _ _ Hh E) as (H1 & H2 & H3 & H4 & H5 & H6 & H7).
  split; [exact H1|]. split; [reflexivity|]. split; [exact H5|]. split; [exact H3|].
  split; [intros y; destruct (H6 y); tauto|]. split; [exact H7|]. apply H7. exact H4.
Qed.
Lemma hbound_find c d x d' r : hbound c d -> find_root d x = Some (d', r) -> hbound c d'.
Proof.
  intros (h & H1 & H2) H. destruct (find_keeps _ _ _ _ H h H1) as (K1 & K2 & _ & _ & _ & K3 & _).
  exists h. split; [exact K1|]. intros q k Hq Hk. rewrite K2 in Hk. apply H2; [apply K3; exact Hq|exact Hk].
Qed.
Lemma big_same d d' : ranks d' = ranks d ->
  (forall a b, same_set (parents d) a b -> same_set (parents d') a b) -> big d -> big d'.
Proof. intros E HS B x k Hk. rewrite E in Hk. destruct (B x k Hk) as (l & Hn & Hl & Hs). exists l. auto. Qed.
Lemma big_find E d x d' r : ds_inv E d -> x < ds_size d -> big d -> find_root d x = Some (d', r) -> big d'.
Proof.
  intros I Hx B H. destruct (find_root_spec E d x I Hx) as (d1 & r1 & dd & Hf & _ & _ & S & _ & _ & Hrk).
  rewrite H in Hf. injection Hf as <- <-. apply (big_same d); [exact Hrk| |exact B].
  intros a b Hab. apply (same_set_roots (parents d)); [apply I|exact S|exact Hab].
Qed.

(** root_union *)
Lemma NoDup_two (l1 l2 : list nat) : NoDup l1 -> NoDup l2 -> (forall y, In y l1 -> ~ In y l2) -> NoDup (l1 ++ l2).
Proof.
  intros H1 H2 Hd. induction H1 as [|a l Ha Hl IH]; simpl; [exact H2|]. constructor.
  - rewrite in_app_iff. intros [C|C]; [contradiction|]. apply (Hd a (or_introl eq_refl) C).
  - apply IH. intros y Hy. apply Hd. right. exact Hy.
Qed.
Lemma union_keep d x y rx ry c rk nn : (* y is attached to x *)
  forest (parents d) -> nth_error (parents d) x = Some x -> nth_error (parents d) y = Some y -> x <> y ->
  nth_error (ranks d) x = Some rx -> nth_error (ranks d) y = Some ry ->
  (ry < rx /\ rk = ranks d) \/ (rx = ry /\ rk = upd (ranks d) x (rx + 1)) ->
  hbound c d -> big d ->
  hbound c {| parents := upd (parents d) y x; ranks := rk; n_sets := nn |} /\
  big {| parents := upd (parents d) y x; ranks := rk; n_sets := nn |}.
Proof.
  intros F Hx Hy Hxy Erx Ery Hrk (h & H1 & H2) B.
  destruct (union_roots (parents d) x y F Hx Hy Hxy) as [L U].
  assert (Hyl : y < length (parents d)) by (apply nth_error_Some; congruence).
  assert (Hxr : x < length (ranks d)) by (apply nth_error_Some; congruence).
  split.
  - exists (fun z => if z =? x then max (h x) (h y + 1) else h z). cbn [parents ranks]. split.
    + intros z p Hz Hp. rewrite upd_get in Hz by exact Hyl.
      destruct (Nat.eqb_spec z y) as [->|Hzy].
      * injection Hz as <-. destruct (Nat.eqb_spec y x); [congruence|]. rewrite Nat.eqb_refl. lia.
      * destruct (Nat.eqb_spec z x) as [->|Hzx]; [congruence|].
        specialize (H1 z p Hz Hp). destruct (Nat.eqb_spec p x) as [->|]; lia.
    + intros r k Hr Hk. rewrite upd_get in Hr by exact Hyl.
      destruct (Nat.eqb_spec r y) as [->|Hry]; [congruence|].
      pose proof (H2 x rx Hx Erx) as Bx. pose proof (H2 y ry Hy Ery) as By.
      destruct Hrk as [[Hlt ->]|[-> ->]].
      * destruct (Nat.eqb_spec r x) as [->|Hrx].
        -- rewrite Erx in Hk. injection Hk as <-. lia.
        -- apply H2; assumption.
      * rewrite upd_get in Hk by exact Hxr. destruct (Nat.eqb_spec r x) as [->|Hrx].
        -- injection Hk as <-. lia.
        -- apply H2; assumption.
  - assert (SS : forall a b, same_set (parents d) a b -> same_set (upd (parents d) y x) a b).
    { intros a b (q & k1 & k2 & A & A'). destruct (U _ _ _ A) as [k3 A3]. destruct (U _ _ _ A') as [k4 A4]. eexists; eauto. }
    assert (Sxy : same_set (upd (parents d) y x) x y).
    { destruct (U _ _ _ (root_here _ x Hx)) as [k3 A3]. destruct (U _ _ _ (root_here _ y Hy)) as [k4 A4].
      rewrite Nat.eqb_refl in A4. destruct (Nat.eqb_spec x y); [contradiction|]. exists x; eauto. }
    assert (Old : forall z k, nth_error (ranks d) z = Some k ->
      exists l, NoDup l /\ 2 ^ k <= length l /\ (forall q, In q l -> same_set (upd (parents d) y x) z q)).
    { intros z k Hk. destruct (B z k Hk) as (l & Hn & Hl & Hs). exists l. auto. }
    intros z k Hk. cbn [parents ranks] in *. destruct Hrk as [[_ ->]|[E ->]]; [apply Old; exact Hk|].
    rewrite upd_get in Hk by exact Hxr. destruct (Nat.eqb_spec z x) as [->|]; [|apply Old; exact Hk].
    injection Hk as <-. destruct (B x rx Erx) as (l1 & N1 & L1 & S1). destruct (B y ry Ery) as (l2 & N2 & L2 & S2).
    exists (l1 ++ l2). split; [|split].
    + apply NoDup_two; auto. intros q Q1 Q2. apply S1 in Q1. apply S2 in Q2.
      destruct Q1 as (r1 & a1 & b1 & R1 & T1). destruct Q2 as (r2 & a2 & b2 & R2 & T2).
      destruct (root_at_det _ _ _ _ R1 _ _ (root_here _ x Hx)). destruct (root_at_det _ _ _ _ R2 _ _ (root_here _ y Hy)).
      destruct (root_at_det _ _ _ _ T1 _ _ T2). congruence.
    + rewrite app_length, Nat.add_1_r. simpl. subst ry. lia.
    + intros q Hq. apply in_app_or in Hq. destruct Hq as [Hq|Hq]; [apply SS, S1, Hq|].
      destruct Sxy as (r1 & a1 & b1 & R1 & T1). destruct (SS y q (S2 q Hq)) as (r2 & a2 & b2 & R2 & T2).
      destruct (root_at_det _ _ _ _ T1 _ _ R2). subst r2. exists r1; eauto.
Qed.
Lemma root_union_keep d x y d' r c : forest (parents d) -> x <> y -> root_union d x y = Some (d', r) ->
  hbound c d -> big d -> hbound c d' /\ big d'.
Proof.
  intros F Hxy H HB B. unfold root_union in H.
  destruct (nth_error (parents d) x) as [px|] eqn:Epx; [|discriminate].
  destruct (nth_error (parents d) y) as [py|] eqn:Epy; [|discriminate]. cbn [dbind] in H.
  destruct (Nat.eqb_spec px x) as [->|]; [|discriminate]. destruct (Nat.eqb_spec py y) as [->|]; [|discriminate]. cbn [andb negb] in H.
  destruct (nth_error (ranks d) x) as [xr|] eqn:Ex; [|discriminate].
  destruct (nth_error (ranks d) y) as [yr|] eqn:Ey; [|discriminate]. cbn [dbind] in H.
  destruct (Nat.ltb_spec xr yr) as [Hlt|Hge].
  - injection H as <- <-. destruct (Nat.eqb_spec xr yr); [lia|].
    apply (union_keep d y x yr xr); auto.
  - injection H as <- <-. apply (union_keep d x y xr yr); auto.
    destruct (Nat.eqb_spec xr yr) as [->|]; [right; auto|left; split; [lia|reflexivity]].
Qed.

(** new sets *)
Lemma push_seq n : forall ps, push_singletons n ps = ps ++ seq (length ps) n.
Proof.
  induction n as [|n IH]; intros ps; simpl; [now rewrite app_nil_r|].
  rewrite IH, app_length, <- app_assoc. simpl. rewrite Nat.add_1_r. reflexivity.
Qed.
Lemma nth_seq_app (ps : list nat) n x : length ps <= x -> x < length ps + n -> nth_error (ps ++ seq (length ps) n) x = Some x.
Proof.
  intros H1 H2. rewrite nth_error_app2 by exact H1.
  rewrite (nth_error_nth' _ 0) by (rewrite seq_length; lia). rewrite seq_nth by lia. f_equal. lia.
Qed.
Lemma grow_keep d n c nn : forest (parents d) -> length (ranks d) = ds_size d -> hbound c d -> big d ->
  let d' := {| parents := parents d ++ seq (ds_size d) n; ranks := ranks d ++ repeat 0 n; n_sets := nn |} in
  hbound c d' /\ big d'.
Proof.
  intros F HL (h & H1 & H2) B d'. unfold ds_size in *. split.
  - exists (fun z => if z <? length (parents d) then h z else 0). unfold d'; cbn [parents ranks]. split.
    + intros x p Hx Hp. destruct (Nat.ltb_spec x (length (parents d))) as [Hlt|Hge].
      * rewrite nth_error_app1 in Hx by exact Hlt. pose proof (forest_parent _ _ _ F Hx) as Hpl.
        apply Nat.ltb_lt in Hpl. rewrite Hpl. apply H1; assumption.
      * assert (x < length (parents d) + n).
        { assert (Hxl : nth_error (parents d ++ seq (length (parents d)) n) x <> None) by congruence.
          apply nth_error_Some in Hxl. rewrite app_length, seq_length in Hxl. exact Hxl. }
        rewrite nth_seq_app in Hx by assumption. congruence.
    + intros r k Hr Hk. destruct (Nat.ltb_spec r (length (parents d))) as [Hlt|Hge]; [|lia].
      rewrite nth_error_app1 in Hr by exact Hlt. rewrite nth_error_app1 in Hk by lia. apply H2; assumption.
  - intros x k Hk. unfold d' in *; cbn [parents ranks] in *.
    destruct (Nat.lt_ge_cases x (length (parents d))) as [Hlt|Hge].
    + rewrite nth_error_app1 in Hk by lia. destruct (B x k Hk) as (l & Hn & Hl & Hs). exists l.
      split; [exact Hn|]. split; [exact Hl|]. intros y Hy. destruct (Hs y Hy) as (r & k1 & k2 & A1 & A2).
      exists r, k1, k2. split; apply root_at_app; assumption.
    + assert (Hxn : x < length (parents d) + n).
      { assert (Hxl : nth_error (ranks d ++ repeat 0 n) x <> None) by congruence.
        apply nth_error_Some in Hxl. rewrite app_length, repeat_length in Hxl. lia. }
      rewrite nth_error_app2 in Hk by lia. apply nth_error_In in Hk. apply repeat_spec in Hk. subst k.
      exists [x]. split; [constructor; [intros []|constructor]|]. split; [simpl; lia|].
      intros y [<-|[]]. exists x, 0, 0. split; apply root_here; apply nth_seq_app; assumption.
Qed.

(** normalize_sets: at most one re-rooting per tree *)
Lemma upd_id (l : list nat) i v : nth_error l i = Some v -> upd l i v = l.
Proof. revert i. induction l as [|a l IH]; intros [|i] H; simpl in *; try congruence. f_equal. auto. Qed.
Lemma normalize_height H cnt : forall x ps h ps', hfun ps h ->
  (forall r, nth_error ps r = Some r -> h r <= if r <? x then H + 1 else H) ->
  normalize_loop cnt x ps = Some ps' ->
  exists h', hfun ps' h' /\ forall r, nth_error ps' r = Some r -> h' r <= H + 1.
Proof.
  induction cnt as [|cnt IH]; intros x ps h ps' Hh Hb Hn; cbn [normalize_loop] in Hn.
  - injection Hn as <-. exists h. split; [exact Hh|]. intros r Hr. specialize (Hb r Hr). destruct (r <? x); lia.
  - destruct (nth_error ps x) as [p|] eqn:Ep; cbn [dbind] in Hn; [|discriminate].
    destruct (nth_error ps p) as [pp|] eqn:Epp; cbn [dbind] in Hn; [|discriminate].
    assert (Hxl : x < length ps) by (apply nth_error_Some; congruence).
    assert (Hpl : p < length ps) by (apply nth_error_Some; congruence).
    assert (Hb' : forall r, nth_error ps r = Some r -> h r <= if r <? S x then H + 1 else H).
    { intros r Hr. specialize (Hb r Hr). destruct (Nat.ltb_spec r x), (Nat.ltb_spec r (S x)); lia. }
    destruct (Nat.eq_dec p x) as [->|Hpx].
    { assert (pp = x) by congruence. subst pp. rewrite Nat.ltb_irrefl, Nat.eqb_refl in Hn. cbn [orb negb] in Hn.
      rewrite (upd_id ps x x Ep), (upd_id ps x x Ep) in Hn. exact (IH (S x) ps h ps' Hh Hb' Hn). }
    pose proof (Hh x p Ep Hpx) as Hlt.
    destruct ((p <? x) || negb (pp =? p)) eqn:C.
    + assert (Hle : h p <= h pp). { destruct (Nat.eq_dec pp p) as [->|Hne]; [lia|]. specialize (Hh p pp Epp Hne). lia. }
      apply (IH (S x) (upd ps x pp) h ps'); [apply hfun_upd; auto; right; lia| |exact Hn].
      intros r Hr. rewrite upd_get in Hr by exact Hxl. destruct (Nat.eqb_spec r x) as [Er|]; [subst r; injection Hr as Hr; subst pp; lia|].
      apply Hb'. exact Hr.
    + apply orb_false_iff in C. destruct C as [C1 C2]. apply Nat.ltb_ge in C1. apply negb_false_iff, Nat.eqb_eq in C2. subst pp.
      assert (Hp2 : h p <= H). { specialize (Hb p Epp). destruct (Nat.ltb_spec p x); lia. }
      apply (IH (S x) (upd (upd ps p x) x x) (fun z => if z =? x then h p + 1 else h z) ps'); [| |exact Hn].
      * intros z q Hz Hq. rewrite upd_get in Hz by (rewrite upd_length; exact Hxl).
        destruct (Nat.eqb_spec z x) as [->|Hzx]; [congruence|].
        rewrite upd_get in Hz by exact Hpl. destruct (Nat.eqb_spec z p) as [->|Hzp].
        -- injection Hz as <-. rewrite Nat.eqb_refl. lia.
        -- specialize (Hh z q Hz Hq). destruct (Nat.eqb_spec q x) as [->|]; lia.
      * intros r Hr. rewrite upd_get in Hr by (rewrite upd_length; exact Hxl).
        destruct (Nat.eqb_spec r x) as [Er|Hrx].
        -- subst r. destruct (Nat.ltb_spec x (S x)); lia.
        -- rewrite upd_get in Hr by exact Hpl. destruct (Nat.eqb_spec r p) as [Er|]; [subst r; congruence|]. apply Hb'. exact Hr.
Qed.
Lemma normalize_keep H d d' : (exists h, hfun (parents d) h /\ forall r, nth_error (parents d) r = Some r -> h r <= H) ->
  normalize_sets d = Some d' -> hbound (H + 1) d'.
Proof.
  intros (h & H1 & H2) Hn. unfold normalize_sets in Hn.
  destruct (normalize_loop (ds_size d) 0 (parents d)) as [ps'|] eqn:E; [|discriminate]. cbn in Hn. injection Hn as <-.
  destruct (normalize_height H (ds_size d) 0 (parents d) h ps' H1) as (h' & K1 & K2); [|exact E|].
  - intros r Hr. specialize (H2 r Hr). simpl. exact H2.
  - exists h'. split; [exact K1|]. intros r k Hr _. specialize (K2 r Hr). cbn [parents] in Hr. lia.
Qed.
Lemma normalize_big E d d' : ds_inv E d -> big d -> normalize_sets d = Some d' -> big d'.
Proof.
  intros I B Hn. pose proof I as [F _].
  destruct (normalize_loop_spec (ds_size d) 0 (parents d) F ltac:(unfold ds_size; lia)) as (ps' & Hl & L & F' & Nr & Hs).
  unfold normalize_sets in Hn. rewrite Hl in Hn. cbn in Hn. injection Hn as <-.
  apply (big_same d); [reflexivity| |exact B]. cbn [parents]. intros a b Hab. apply Hs; [| |exact Hab].
  - destruct Hab as (r & k & k' & A & _). exact (root_at_lt _ _ _ _ A).
  - exact (same_set_lt _ _ _ Hab).
Qed.

(** compress_sets: every element is at most two steps away from its root *)
Definition two_steps (ps : list nat) (x : nat) : Prop :=
  forall p q, nth_error ps x = Some p -> nth_error ps p = Some q -> nth_error ps q = Some q.
Lemma compress_two E h cnt : forall i d d', ds_inv E d -> i + cnt = ds_size d -> hfun (parents d) h ->
  (forall x, x < i -> two_steps (parents d) x) -> compress_loop cnt i d = Some d' ->
  hfun (parents d') h /\ ranks d' = ranks d /\ (forall y, nth_error (parents d') y = Some y <-> nth_error (parents d) y = Some y) /\
  (forall x, x < ds_size d -> two_steps (parents d') x).
Proof.
  induction cnt as [|c IH]; intros i d d' I Hi Hh Ht H; cbn [compress_loop] in H.
  - injection H as <-. split; [exact Hh|]. split; [reflexivity|]. split; [tauto|]. intros x Hx. apply Ht. lia.
  - destruct (nth_error (parents d) i) as [p|] eqn:Ep; cbn [dbind] in H; [|discriminate].
    pose proof I as [F _]. pose proof (forest_parent _ _ _ F Ep) as Hp.
    destruct (find_root_spec E d p I Hp) as (d1 & r1 & k1 & Hf1 & _ & I1 & _ & Z1 & _ & _).
    rewrite Hf1 in H. cbn [dbind fst] in H.
    destruct (find_keeps _ _ _ _ Hf1 h Hh) as (K1 & K2 & K3 & K4 & K5 & K6 & K7).
    assert (Pre : forall x, two_steps (parents d) x -> two_steps (parents d1) x).
    { intros x Hx a b Ha Hb. destruct (K5 x) as [Ex|Ex].
      - rewrite Ex in Ha. destruct (K5 a) as [Ea|Ea].
        + rewrite Ea in Hb. apply K6. exact (Hx a b Ha Hb).
        + rewrite Ea in Hb. injection Hb as <-. exact K7.
      - rewrite Ex in Ha. injection Ha as <-. rewrite K7 in Hb. injection Hb as <-. exact K7. }
    destruct (IH (S i) d1 d' I1 ltac:(lia) K1) as (J1 & J2 & J3 & J4); [|exact H|].
    + intros x Hx. destruct (Nat.eq_dec x i) as [->|Hn]; [|apply Pre, Ht; lia].
      intros a b Ha Hb. destruct (K5 i) as [Ei|Ei].
      * rewrite Ei, Ep in Ha. injection Ha as <-. rewrite K4 in Hb. injection Hb as <-. exact K7.
      * rewrite Ei in Ha. injection Ha as <-. rewrite K7 in Hb. injection Hb as <-. exact K7.
    + split; [exact J1|]. split; [congruence|]. split; [intros y; rewrite J3; apply K6|].
      intros x Hx. apply J4. lia.
Qed.
Lemma two_steps_height ps : forest ps -> (forall x, x < length ps -> two_steps ps x) ->
  exists h, hfun ps h /\ forall r, nth_error ps r = Some r -> h r <= 2.
Proof.
  intros F T. exists (fun z => if is_root ps z then 2 else match nth_error ps z with Some p => if is_root ps p then 1 else 0 | None => 0 end).
  split.
  - intros x p Hx Hp. assert (Ex : is_root ps x = false).
    { destruct (is_root ps x) eqn:E; [|reflexivity]. apply is_root_true in E. congruence. }
    rewrite Ex, Hx. destruct (is_root ps p) eqn:Er; [lia|].
    assert (Hpl := forest_parent _ _ _ F Hx). destruct (nth_error ps p) as [q|] eqn:Eq; [|apply nth_error_None in Eq; lia].
    assert (Hxl : x < length ps) by (apply nth_error_Some; congruence).
    pose proof (T x Hxl p q Hx Eq) as Hq. apply is_root_true in Hq. rewrite Hq. lia.
  - intros r Hr. destruct (is_root ps r); [lia|]. destruct (nth_error ps r); [|lia]. destruct (is_root ps n); lia.
Qed.
Lemma two_steps_depth ps x r d : (forall x, x < length ps -> two_steps ps x) -> root_at ps x r d -> d <= 2.
Proof.
  intros T H. pose proof (root_at_lt _ _ _ _ H) as Hl. inversion H as [|y p r' d' Hy Hp H']; subst; [lia|].
  inversion H' as [|z q r'' d'' Hz Hq H'']; subst; [lia|].
  pose proof (T x Hl p q Hy Hz) as Hqq. inversion H'' as [|w s r3 d3 Hw Hs _]; subst; [lia|]. congruence.
Qed.

(** ** histories *)
Lemma compress_keep E d d' c : ds_inv E d -> hbound c d -> big d -> compress_sets d = Some d' ->
  hbound c d' /\ big d' /\ (forall x, x < ds_size d' -> two_steps (parents d') x).
Proof.
  intros I (h & H1 & H2) B Hc. unfold compress_sets in Hc.
  destruct (compress_loop_spec E (ds_size d) 0 d I ltac:(lia)) as (d1 & Hd & _ & Z & S). rewrite Hc in Hd. injection Hd as <-.
  destruct (compress_two E h (ds_size d) 0 d d' I ltac:(lia) H1 ltac:(intros; lia) Hc) as (K1 & K2 & K3 & K4).
  split; [|split].
  - exists h. split; [exact K1|]. intros r k Hr Hk. rewrite K2 in Hk. apply H2; [apply K3; exact Hr|exact Hk].
  - apply (big_same d); [exact K2| |exact B]. intros a b Hab. apply (same_set_roots (parents d)); [apply I|exact S|exact Hab].
  - rewrite Z. exact K4.
Qed.
Lemma step_keep E d o d' c : ds_inv E d -> op_ok o = true -> o <> DNormalize -> ds_step d o = Some d' ->
  hbound c d -> big d -> hbound c d' /\ big d'.
Proof.
  intros I Ho Hno H HB B. pose proof I as (F & HL & _).
  assert (FK : forall E d x d1 r, ds_inv E d -> hbound c d -> big d -> find_root d x = Some (d1, r) ->
               ds_inv E d1 /\ hbound c d1 /\ big d1).
  { clear. intros E d x d1 r I HB B H.
    assert (Hx : x < ds_size d).
    { unfold find_root in H. destruct (ds_size d) eqn:En; simpl in H; destruct (nth_error (parents d) x) eqn:Ex; try discriminate;
        assert (Hl : x < length (parents d)) by (apply nth_error_Some; congruence); unfold ds_size in En; lia. }
    destruct (find_root_spec E d x I Hx) as (d2 & r2 & k & Hf & _ & I2 & _). rewrite H in Hf. injection Hf as <- <-.
    split; [exact I2|]. split; [exact (hbound_find _ _ _ _ _ HB H)|exact (big_find _ _ _ _ _ I Hx B H)]. }
  destruct o as [|n|x|x y|x y|x y| |]; cbn [ds_step] in H.
  - injection H as <-. exact (grow_keep d 1 c (n_sets d + 1) F HL HB B).
  - injection H as <-. unfold make_sets. rewrite push_seq. exact (grow_keep d n c (n_sets d + n) F HL HB B).
  - destruct (find_root d x) as [[d1 r]|] eqn:E1; [|discriminate]. injection H as <-. apply (FK E d x d1 r I HB B E1).
  - unfold in_same_set in H. destruct (find_root d x) as [[d1 r]|] eqn:E1; [|discriminate]. cbn [dbind fst] in H.
    destruct (find_root d1 y) as [[d2 r2]|] eqn:E2; [|discriminate]. injection H as <-.
    destruct (FK E d x d1 r I HB B E1) as (I1 & HB1 & B1). apply (FK E d1 y d2 r2 I1 HB1 B1 E2).
  - destruct (root_union d x y) as [[d1 r]|] eqn:E1; [|discriminate]. injection H as <-.
    cbn in Ho. apply negb_true_iff, Nat.eqb_neq in Ho. exact (root_union_keep d x y d1 r c F Ho E1 HB B).
  - unfold set_union in H. destruct (find_root d x) as [[d1 r]|] eqn:E1; [|discriminate]. cbn [dbind fst snd] in H.
    destruct (find_root d1 y) as [[d2 r2]|] eqn:E2; [|discriminate]. cbn [dbind fst snd] in H.
    destruct (FK E d x d1 r I HB B E1) as (I1 & HB1 & B1). destruct (FK E d1 y d2 r2 I1 HB1 B1 E2) as (I2 & HB2 & B2).
    destruct (Nat.eqb_spec r r2) as [->|Hne].
    + injection H as <-. auto.
    + destruct (root_union d2 r r2) as [[d3 r3]|] eqn:E3; [|discriminate]. injection H as <-.
      exact (root_union_keep d2 r r2 d3 r3 c (proj1 I2) Hne E3 HB2 B2).
  - destruct (compress_keep E d d' c I HB B H) as (K1 & K2 & _). auto.
  - contradiction.
Qed.
