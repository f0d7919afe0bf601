(** * What normalize_sets() achieves on fully compressed structures *)
From Coq Require Import List Bool Arith Lia Relations.
From Verif Require Import DSModel DSSpec DSProofs.
Import ListNotations.

(** every parent is a root *)
Definition flat (ps : list nat) : Prop := forall x p, nth_error ps x = Some p -> nth_error ps p = Some p.

Lemma flat_root ps x p : flat ps -> nth_error ps x = Some p -> exists d, root_at ps x p d.
Proof.
  intros F H. pose proof (F _ _ H) as Hp. destruct (Nat.eq_dec p x) as [->|Hn].
  - exists 0. now constructor.
  - exists 1. econstructor; [exact H|exact Hn|now constructor].
Qed.
Lemma flat_root_inv ps x r d : flat ps -> root_at ps x r d -> nth_error ps x = Some r.
Proof.
  intros F H. inversion H as [y Hy|y p r' d' Hy Hp H']; subst; [assumption|].
  pose proof (F _ _ Hy) as Hp'. assert (root_at ps p p 0) as K by (now constructor).
  destruct (root_at_det _ _ _ _ H' _ _ K). now subst.
Qed.

Lemma find_root_fuel_flat fuel : forall ps x r d ps' r', root_at ps x r d ->
  find_root_fuel fuel ps x = Some (ps', r') ->
  r' = r /\ nth_error ps' x = Some r /\ forall y, nth_error ps' y = nth_error ps y \/ nth_error ps' y = Some r.
Proof.
  induction fuel as [|f IH]; intros ps x r d ps' r' Hr H; cbn [find_root_fuel] in H.
  - inversion Hr as [y Hy|y p r2 d2 Hy Hp H']; subst; rewrite Hy in H; cbn [dbind] in H.
    + rewrite Hy in H. cbn [dbind] in H. rewrite Nat.eqb_refl in H. injection H as <- <-. auto.
    + destruct (nth_error ps p) as [pp|] eqn:Ep; [|discriminate]. cbn [dbind] in H.
      destruct (Nat.eqb_spec pp p) as [->|]; [|discriminate]. injection H as <- <-.
      assert (root_at ps p p 0) as K by (now constructor). destruct (root_at_det _ _ _ _ H' _ _ K). subst. auto.
  - inversion Hr as [y Hy|y p r2 d2 Hy Hp H']; subst; rewrite Hy in H; cbn [dbind] in H.
    + rewrite Hy in H. cbn [dbind] in H. rewrite Nat.eqb_refl in H. injection H as <- <-. auto.
    + destruct (nth_error ps p) as [pp|] eqn:Ep; [|discriminate]. cbn [dbind] in H.
      destruct (Nat.eqb_spec pp p) as [->|Hpp].
      * injection H as <- <-.
        assert (root_at ps p p 0) as K by (now constructor). destruct (root_at_det _ _ _ _ H' _ _ K). subst. auto.
      * destruct (find_root_fuel f ps p) as [[ps1 r1]|] eqn:E1; [|discriminate]. cbn [dbind fst snd] in H. injection H as <- <-.
        destruct (IH _ _ _ _ _ _ H' E1) as [-> [H1 H2]].
        assert (length ps1 = length ps) as L.
        { destruct (Nat.le_gt_cases d2 f) as [Hf|Hf].
          - destruct (find_root_fuel_spec f ps p r d2 H' Hf) as [psx [Ex [[Lx _] _]]]. congruence.
          - (* length is preserved in any case *)
            clear -E1. revert ps p ps1 r E1. induction f as [|f IH]; intros ps p ps1 r E1; cbn [find_root_fuel] in E1;
            (destruct (nth_error ps p) as [q|]; [|discriminate]); cbn [dbind] in E1;
            (destruct (nth_error ps q) as [qq|]; [|discriminate]); cbn [dbind] in E1;
            (destruct (qq =? q); [injection E1 as <- <-; reflexivity|]); [discriminate|].
            destruct (find_root_fuel f ps q) as [[ps2 r2]|] eqn:E2; [|discriminate]. cbn [dbind fst snd] in E1.
            injection E1 as <- <-. rewrite upd_length. eapply IH; eassumption. }
        assert (x < length ps1) as Hx by (rewrite L; apply nth_error_Some; congruence).
        split; [reflexivity|]. split; [now apply upd_same|].
        intros z. rewrite upd_get by exact Hx. destruct (Nat.eqb_spec z x); [now right|apply H2].
Qed.

(** after find_root(x) has been called for all x, the structure is flat *)
Lemma find_all_flat E cnt : forall i d d', ds_inv E d -> i + cnt = ds_size d ->
  (forall x p, x < i -> nth_error (parents d) x = Some p -> nth_error (parents d) p = Some p) ->
  ds_run d (map DFind (seq i cnt)) = Some d' ->
  ds_inv E d' /\ ds_size d' = ds_size d /\ flat (parents d').
Proof.
  induction cnt as [|c IH]; intros i d d' I Hi Hf H.
  - injection H as <-. split; [exact I|]. split; [reflexivity|].
    intros x p Hp. apply Hf with x; [|exact Hp].
    assert (x < length (parents d)) by (apply nth_error_Some; congruence). unfold ds_size in Hi. lia.
  - cbn [seq map ds_run ds_step] in H.
    destruct (find_root_spec E d i I ltac:(lia)) as [d1 [r [k [Hfr [Hr [I1 [S1 [Z1 _]]]]]]]].
    rewrite Hfr in H. cbn [option_map fst dbind] in H.
    assert (nth_error (parents d1) i = Some r /\ forall y, nth_error (parents d1) y = nth_error (parents d) y \/ nth_error (parents d1) y = Some r) as [G1 G2].
    { unfold find_root in Hfr. destruct (find_root_fuel (ds_size d) (parents d) i) as [[ps1 r1]|] eqn:E1; [|discriminate].
      cbn [dbind fst snd] in Hfr. injection Hfr as <- <-. cbn [parents].
      destruct (find_root_fuel_flat _ _ _ _ _ _ _ Hr E1) as [_ [A B]]. auto. }
    assert (nth_error (parents d1) r = Some r) as Gr.
    { destruct S1 as [_ S1]. destruct (S1 _ _ _ Hr) as [k' Hk]. now apply root_at_root in Hk. }
    assert (forall y, nth_error (parents d) y = Some y -> nth_error (parents d1) y = Some y) as Gk.
    { intros y Hy. assert (root_at (parents d) y y 0) as K by (now constructor). destruct S1 as [_ S1]. destruct (S1 _ _ _ K) as [k' Hk].
      now apply root_at_root in Hk. }
    rewrite <- Z1. apply (IH (S i) d1 d' I1 ltac:(lia)); [|exact H].
    intros x p Hx Hp. destruct (Nat.eq_dec x i) as [->|Hxi].
    + assert (p = r) by congruence. now subst.
    + destruct (G2 x) as [G|G].
      * rewrite G in Hp. apply Gk. apply (Hf x p); [lia|exact Hp].
      * assert (p = r) by congruence. now subst.
Qed.

(** normalize on a flat structure: the representative of each class becomes its minimum *)
Section Norm.
  Variable ps0 : list nat.
  Hypothesis F0 : flat ps0.
  Variable m : nat -> nat.   (* minimum of the class *)
  Hypothesis m_lt : forall y, y < length ps0 -> m y < length ps0.
  Hypothesis m_le : forall y, y < length ps0 -> m y <= y.
  Hypothesis m_root : forall y, y < length ps0 -> nth_error ps0 (m y) = nth_error ps0 y.
  Hypothesis m_same : forall y z, y < length ps0 -> z < length ps0 -> nth_error ps0 y = nth_error ps0 z -> m y = m z.
  Definition ninv (x : nat) (ps : list nat) : Prop :=
    length ps = length ps0 /\
    forall y r, nth_error ps0 y = Some r ->
      (y < x -> nth_error ps y = Some (m y)) /\
      (m y < x -> nth_error ps r = Some (m y)) /\
      (m y < x -> x <= y -> nth_error ps y = Some (m y) \/ nth_error ps y = Some r) /\
      (x <= m y -> nth_error ps y = Some r).
  Lemma normalize_loop_flat cnt : forall x ps ps', ninv x ps -> x + cnt = length ps0 ->
    normalize_loop cnt x ps = Some ps' -> ninv (x + cnt) ps'.
  Proof.
    induction cnt as [|c IH]; intros x ps ps' I Hx H.
    - injection H as <-. now rewrite Nat.add_0_r.
    - cbn [normalize_loop] in H.
      destruct (nth_error ps0 x) as [r|] eqn:Er; [|apply nth_error_None in Er; lia].
      assert (x < length ps0) as Hxl by lia.
      pose proof I as [L J]. destruct (J x r Er) as [_ [Jb [Jc Jd]]].
      assert (r < length ps0) as Hrl by (apply nth_error_Some; rewrite (F0 _ _ Er); discriminate).
      assert (m r = m x) as Hmr by (apply m_same; auto; now rewrite (F0 _ _ Er)).
      replace (x + S c) with (S x + c) by lia.
      pose proof (m_le x Hxl) as Hmx. pose proof (m_le r Hrl) as Hmr'.
      destruct (Nat.eq_dec (m x) x) as [Hm|Hm].
      + (* first of its class *)
        assert (nth_error ps x = Some r) as Px by (apply Jd; lia).
        assert (nth_error ps r = Some r) as Pr by (destruct (J r r (F0 _ _ Er)) as [_ [_ [_ K]]]; apply K; lia).
        rewrite Px in H. cbn [dbind] in H. rewrite Pr in H. cbn [dbind] in H. rewrite Nat.eqb_refl in H. cbn [negb] in H.
        destruct (Nat.ltb_spec r x) as [Hlt|Hge]; [lia|]. cbn [orb] in H.
        refine (IH (S x) _ ps' _ _ H); [|lia].
        split; [now rewrite !upd_length|].
        intros y q Ey. assert (y < length ps0) as Hyl by (apply nth_error_Some; congruence).
        destruct (J y q Ey) as [Ja' [Jb' [Jc' Jd']]].
        assert (forall z, nth_error (upd (upd ps r x) x x) z = if z =? x then Some x else if z =? r then Some x else nth_error ps z) as G.
        { intros z. rewrite upd_get by (rewrite upd_length, L; exact Hxl). destruct (z =? x); [reflexivity|]. apply upd_get. rewrite L; exact Hrl. }
        rewrite !G.
        destruct (Nat.eq_dec q r) as [->|Hq].
        * (* same class *)
          assert (m y = x) as Hy by (rewrite <- Hm; apply m_same; auto; congruence).
          rewrite Hy. rewrite Nat.eqb_refl. pose proof (m_le y Hyl).
          split; [|split; [|split]].
          -- intros K. assert (y = x) as -> by lia. now rewrite Nat.eqb_refl.
          -- intros _. destruct (r =? x); reflexivity.
          -- intros _ _. destruct (y =? x); [now left|]. destruct (y =? r); [now left|]. right. apply Jd'. lia.
          -- intros K. lia.
        * assert (y <> x) by congruence. assert (y <> r) by (intros ->; rewrite (F0 _ _ Er) in Ey; congruence).
          assert (q <> x).
          { intros ->. pose proof (F0 _ _ Ey) as K. congruence. }
          assert (m y <> x).
          { intros K. pose proof (m_root y Hyl) as K1. rewrite K in K1. congruence. }
          destruct (Nat.eqb_spec y x); [contradiction|]. destruct (Nat.eqb_spec y r); [contradiction|].
          destruct (Nat.eqb_spec q x); [contradiction|]. destruct (Nat.eqb_spec q r); [contradiction|].
          split; [intros; apply Ja'; lia|]. split; [intros; apply Jb'; lia|]. split; [intros; apply Jc'; lia|intros; apply Jd'; lia].
      + assert (m x < x) as Hlt by lia.
        assert (exists p, nth_error ps x = Some p /\ (p = m x \/ p = r)) as [p [Px Hp]].
        { destruct (Jc Hlt (le_n x)); eauto. }
        assert (nth_error ps p = Some (m x)) as Pp.
        { destruct Hp as [Hp|Hp]; rewrite Hp; [|now apply Jb].
          assert (nth_error ps0 (m x) = Some r) as K by (rewrite m_root; auto).
          destruct (J (m x) r K) as [Ka _]. rewrite (Ka Hlt).
          f_equal. apply m_same; auto. }
        rewrite Px in H. cbn [dbind] in H. rewrite Pp in H. cbn [dbind] in H.
        assert ((p <? x) || negb (m x =? p) = true) as C.
        { destruct (Nat.eqb_spec (m x) p) as [Emp|]; [|apply orb_true_r]. rewrite <- Emp. apply Nat.ltb_lt in Hlt. now rewrite Hlt. }
        rewrite C in H. refine (IH (S x) _ ps' _ _ H); [|lia].
        split; [now rewrite upd_length|].
        intros y q Ey. destruct (J y q Ey) as [Ja' [Jb' [Jc' Jd']]].
        assert (y < length ps0) as Hyl by (apply nth_error_Some; congruence).
        assert (q < length ps0) as Hql by (apply nth_error_Some; rewrite (F0 _ _ Ey); discriminate).
        assert (m q = m y) as Hmq by (apply m_same; auto; now rewrite (F0 _ _ Ey)).
        rewrite !upd_get by (rewrite L; exact Hxl).
        assert (m y <> x).
        { intros K. assert (m x = m y) as K2; [|lia]. rewrite <- K at 1.
          apply m_same; auto; rewrite ?m_root by auto; reflexivity. }
        split; [|split; [|split]].
        * intros K. destruct (Nat.eqb_spec y x) as [->|]; [reflexivity|apply Ja'; lia].
        * intros K. destruct (Nat.eqb_spec q x) as [->|]; [now f_equal|apply Jb'; lia].
        * intros K1 K2. destruct (Nat.eqb_spec y x) as [->|]; [lia|apply Jc'; lia].
        * intros K. destruct (Nat.eqb_spec y x) as [->|]; [lia|apply Jd'; lia].
  Qed.
End Norm.

(** least element of a decidable non-empty set of naturals *)
Fixpoint first_such (f : nat -> bool) (n i : nat) : nat :=
  match n with O => i | S n' => if f i then i else first_such f n' (S i) end.
Lemma first_such_spec f n : forall i, (exists j, i <= j < i + n /\ f j = true) ->
  let k := first_such f n i in f k = true /\ i <= k /\ forall j, i <= j -> f j = true -> k <= j.
Proof.
  induction n as [|n IH]; intros i [j [Hj Fj]]; cbn [first_such]; [lia|].
  destruct (f i) eqn:E; [split; [exact E|split; [lia|auto]]|].
  assert (j <> i) by congruence.
  destruct (IH (S i) ltac:(exists j; split; [lia|exact Fj])) as [A [B C]]. split; [exact A|]. split; [lia|].
  intros q Hq Fq. apply C; [|exact Fq]. assert (q <> i) by congruence. lia.
Qed.
Definition oeqb (a b : option nat) : bool :=
  match a, b with Some x, Some y => x =? y | None, None => true | _, _ => false end.
Lemma oeqb_true a b : oeqb a b = true <-> a = b.
Proof. destruct a, b; cbn; try rewrite Nat.eqb_eq; split; congruence. Qed.
Definition class_min (ps : list nat) (y : nat) : nat :=
  first_such (fun j => oeqb (nth_error ps j) (nth_error ps y)) (S y) 0.
Lemma class_min_spec ps y : nth_error ps (class_min ps y) = nth_error ps y /\ class_min ps y <= y /\
  (forall j, nth_error ps j = nth_error ps y -> class_min ps y <= j).
Proof.
  destruct (first_such_spec (fun j => oeqb (nth_error ps j) (nth_error ps y)) (S y) 0) as [A [B C]].
  { exists y. split; [lia|]. now apply oeqb_true. }
  fold (class_min ps y) in *. apply oeqb_true in A. split; [exact A|]. split.
  - apply C; [lia|]. now apply oeqb_true.
  - intros j Hj. apply C; [lia|]. now apply oeqb_true.
Qed.

Lemma normalize_flat_min E d d' : ds_inv E d -> flat (parents d) -> normalize_sets d = Some d' ->
  ds_inv E d' /\ ds_size d' = ds_size d /\
  forall x, x < ds_size d -> nth_error (parents d') x = Some (class_min (parents d) x).
Proof.
  intros I F H. destruct (normalize_sets_spec E d I) as [d1 [H1 [I1 Z1]]].
  assert (d1 = d') by congruence. subst d1. split; [exact I1|]. split; [exact Z1|].
  unfold normalize_sets in H. destruct (normalize_loop (ds_size d) 0 (parents d)) as [ps'|] eqn:En; [|discriminate].
  injection H as <-. cbn [parents]. intros x Hx.
  pose proof (normalize_loop_flat (parents d) F (class_min (parents d))) as N.
  assert (ninv (parents d) (class_min (parents d)) (0 + ds_size d) ps') as J.
  { apply (N) with (ps := parents d); [| | | | |reflexivity|exact En].
    - intros y Hy. apply nth_error_Some. destruct (class_min_spec (parents d) y) as [A _]. rewrite A. now apply nth_error_Some.
    - intros y Hy. destruct (class_min_spec (parents d) y) as [? [? ?]]; assumption.
    - intros y Hy. destruct (class_min_spec (parents d) y) as [? [? ?]]; assumption.
    - intros y z Hy Hz K. destruct (class_min_spec (parents d) y) as [A [_ B]]. destruct (class_min_spec (parents d) z) as [A' [_ B']].
      apply Nat.le_antisymm; [apply B; congruence|apply B'; congruence].
    - split; [reflexivity|]. intros y r Ey. split; [lia|]. split; [lia|]. split; [lia|auto]. }
  destruct J as [_ J]. destruct (nth_error (parents d) x) as [r|] eqn:Er; [|apply nth_error_None in Er; unfold ds_size in Hx; lia].
  destruct (J x r Er) as [A _]. apply A. lia.
Qed.

Lemma ds_run_app l1 : forall l2 d, ds_run d (l1 ++ l2) = dbind (ds_run d l1) (fun d' => ds_run d' l2).
Proof.
  induction l1 as [|o l1 IH]; intros l2 d; [reflexivity|]. cbn [app ds_run]. destruct (ds_step d o); [apply IH|reflexivity].
Qed.

Lemma find_all_defined E cnt : forall i d, ds_inv E d -> i + cnt <= ds_size d ->
  exists d', ds_run d (map DFind (seq i cnt)) = Some d'.
Proof.
  induction cnt as [|c IH]; intros i d I Hi; [exists d; reflexivity|].
  cbn [seq map ds_run ds_step].
  destruct (find_root_spec E d i I ltac:(lia)) as [d1 [r [k [Hfr [Hr [I1 [S1 [Z1 _]]]]]]]].
  rewrite Hfr. cbn [option_map fst dbind]. apply IH; [exact I1|lia].
Qed.

(** find_root for every element, then normalize_sets: the representative is the minimum *)
Lemma normalize_min n l d : forallb op_ok l = true -> ds_run (ds_init n) l = Some d ->
  exists d', ds_run d (map DFind (seq 0 (ds_size d)) ++ [DNormalize]) = Some d' /\
    forall x, x < ds_size d -> exists d'' r, find_root d' x = Some (d'', r) /\
      connected (op_edges l) x r /\ (forall y, y < ds_size d -> connected (op_edges l) x y -> r <= y).
Proof.
  intros Hok H. pose proof (ds_history_inv n l d Hok H) as I.
  destruct (find_all_defined _ (ds_size d) 0 d I ltac:(lia)) as [d1 H1].
  destruct (find_all_flat (op_edges l) (ds_size d) 0 d d1 I eq_refl ltac:(intros; lia) H1) as [I1 [Z1 F1]].
  destruct (normalize_sets_spec _ d1 I1) as [d2 [H2 _]].
  destruct (normalize_flat_min _ d1 d2 I1 F1 H2) as [I2 [Z2 G2]].
  exists d2. split.
  - rewrite ds_run_app, H1. cbn [dbind ds_run ds_step]. rewrite H2. reflexivity.
  - intros x Hx. destruct (find_root_spec _ d2 x I2 ltac:(lia)) as [d3 [r [k [Hf [Hr _]]]]].
    pose proof (G2 x ltac:(lia)) as Gx. destruct (class_min_spec (parents d1) x) as [A [B C]].
    set (c := class_min (parents d1) x) in *.
    assert (c < ds_size d1) as Hc.
    { unfold ds_size. apply nth_error_Some. rewrite A. apply nth_error_Some. unfold ds_size in *. lia. }
    assert (nth_error (parents d2) c = Some c) as Gc.
    { rewrite (G2 c Hc). f_equal. destruct (class_min_spec (parents d1) c) as [A' [B' C']].
      apply Nat.le_antisymm; [exact B'|]. apply C. congruence. }
    assert (r = c) as ->.
    { destruct (Nat.eq_dec c x) as [Ec|Ec].
      - assert (root_at (parents d2) x c 0) as K by (rewrite <- Ec; now constructor). now destruct (root_at_det _ _ _ _ Hr _ _ K).
      - assert (root_at (parents d2) x c 1) as K by (econstructor; [exact Gx|exact Ec|now constructor]). now destruct (root_at_det _ _ _ _ Hr _ _ K). }
    exists d3, c. split; [exact Hf|].
    pose proof I1 as [FF [_ [_ [_ Hcon]]]].
    assert (forall y, y < ds_size d1 -> (connected (op_edges l) x y <-> nth_error (parents d1) y = nth_error (parents d1) x)) as Q.
    { intros y Hy. rewrite <- Hcon by lia. destruct (nth_error (parents d1) x) as [rx|] eqn:Ex; [|apply nth_error_None in Ex; unfold ds_size in *; lia].
      destruct (nth_error (parents d1) y) as [ry|] eqn:Ey; [|apply nth_error_None in Ey; unfold ds_size in *; lia].
      destruct (flat_root _ _ _ F1 Ex) as [kx Kx]. destruct (flat_root _ _ _ F1 Ey) as [ky Ky].
      rewrite (same_set_iff _ _ _ _ _ _ _ Kx Ky). split; congruence. }
    split; [apply Q; [exact Hc|exact A]|].
    intros y Hy Hco. apply C. apply Q; [lia|exact Hco].
Qed.
