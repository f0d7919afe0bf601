(** * Proofs about concurrent find_root() *)
From Coq Require Import List Bool Arith Lia Relations.
From Verif Require Import DSModel DSSpec DSProofs DSNormalize ConcModel.
Import ListNotations.

Section Conc.
Context (ps0 : list nat) (F0 : forest ps0).
Notation n := (length ps0).

(** every parent is an ancestor in the initial forest *)
Definition cinv (ps : list nat) : Prop :=
  length ps = n /\
  forall x r d, root_at ps0 x r d ->
    exists p d', nth_error ps x = Some p /\ root_at ps0 p r d' /\ (d = 0 /\ p = x \/ d' < d).

Lemma cinv_init : cinv ps0.
Proof.
  split; [reflexivity|]. intros x r d H. inversion H as [y Hy|y p r' d' Hy Hp H']; subst.
  - exists r, 0. split; [exact Hy|]. split; [exact H|]. auto.
  - exists p, d'. split; [exact Hy|]. split; [exact H'|]. right. lia.
Qed.

Lemma cinv_roots ps : cinv ps -> same_roots ps0 ps.
Proof.
  intros [L H]. split; [exact L|]. intros y q d. revert y. induction d as [d IH] using lt_wf_ind. intros y Hy.
  destruct (H y q d Hy) as [p [d' [Hp [Hr [[-> ->]|Hlt]]]]].
  - exists 0. inversion Hy; subst. now constructor.
  - destruct (IH d' Hlt p Hr) as [e He]. destruct (Nat.eq_dec p y) as [->|Hn].
    + destruct (root_at_det _ _ _ _ Hy _ _ Hr). lia.
    + exists (S e). econstructor; eauto.
Qed.

Definition stok (r : nat) (st : list nat) : Prop := Forall (fun y => exists d, root_at ps0 y r (S d)) st.

(** the running call will return r within m steps *)
Definition finv (s : fstate) (r m : nat) : Prop :=
  match s with
  | FCall x st => exists d, root_at ps0 x r d /\ stok r st /\ 3 * d + 3 + length st <= m
  | FTest x p st => exists d d', root_at ps0 x r d /\ root_at ps0 p r d' /\ (d = 0 /\ p = x \/ d' < d) /\ stok r st /\
      (match d' with 0 => 2 | S _ => 3 * d' + 5 end) + length st <= m
  | FRet v st => v = r /\ root_at ps0 r r 0 /\ stok r st /\ 1 + length st <= m
  end.

Lemma finv_pos s r m : finv s r m -> 0 < m.
Proof.
  destruct s; cbn [finv]; [intros [d [_ [_ H]]]|intros [d [d' [_ [_ [_ [_ H]]]]]]|intros [_ [_ [_ H]]]]; try lia.
  destruct d'; lia.
Qed.

Lemma fstep_ok ps s r m : cinv ps -> finv s r m ->
  exists ps' res, fstep ps s = Some (ps', res) /\ cinv ps' /\
    match res with inl s' => finv s' r (m - 1) | inr v => v = r end.
Proof.
  intros C H. destruct s as [x st|x p st|v st]; cbn [finv] in H.
  - destruct H as [d [Hx [Hst Hm]]]. pose proof C as [_ C']. destruct (C' x r d Hx) as [p [d' [Ep [Hp Hd]]]].
    exists ps, (inl (FTest x p st)). cbn [fstep]. rewrite Ep. cbn [dbind]. split; [reflexivity|]. split; [exact C|].
    cbn [finv]. exists d, d'. repeat (split; [assumption|]). destruct d'; [lia|]. destruct Hd as [[-> ->]|Hd]; [|lia].
    destruct (root_at_det _ _ _ _ Hx _ _ Hp). lia.
  - destruct H as [d [d' [Hx [Hp [Hd [Hst Hm]]]]]]. pose proof C as [_ C']. destruct (C' p r d' Hp) as [q [d2 [Eq [Hq Hd2]]]].
    exists ps, (inl (if q =? p then FRet p st else FCall p (x :: st))). cbn [fstep]. rewrite Eq. cbn [dbind]. split; [reflexivity|]. split; [exact C|].
    destruct (Nat.eqb_spec q p) as [->|Hn].
    + destruct Hd2 as [[-> _]|Hlt].
      * cbn [finv]. inversion Hp; subst. split; [reflexivity|]. split; [exact Hp|]. split; [exact Hst|lia].
      * destruct (root_at_det _ _ _ _ Hp _ _ Hq). lia.
    + destruct d' as [|d']. { inversion Hp; subst. destruct Hd2 as [[_ ->]|Hlt]; [contradiction|lia]. }
      cbn [finv]. exists (S d'). split; [exact Hp|]. split; [|cbn [length]; lia]. constructor; [|exact Hst].
      destruct Hd as [[-> ->]|Hd]; [destruct (root_at_det _ _ _ _ Hx _ _ Hp); lia|]. destruct d as [|d]; [lia|]. exists d. exact Hx.
  - destruct H as [-> [Hr [Hst Hm]]]. destruct st as [|x st].
    + exists ps, (inr r). cbn. auto.
    + inversion Hst as [|? ? [d Hx] Hst']; subst. pose proof (root_at_lt _ _ _ _ Hx) as Lx. pose proof C as [L C'].
      exists (upd ps x r), (inl (FRet r st)). cbn [fstep]. rewrite L. destruct (Nat.ltb_spec x n) as [_|Hge]; [|lia]. split; [reflexivity|]. split.
      * split; [now rewrite upd_length|]. intros y q e Hy. destruct (C' y q e Hy) as [p [d' [Ep [Hp Hd]]]].
        rewrite upd_get by (rewrite L; exact Lx). destruct (Nat.eqb_spec y x) as [->|Hne]; [|eauto 6].
        destruct (root_at_det _ _ _ _ Hx _ _ Hy) as [<- <-]. exists r, 0. split; [reflexivity|]. split; [exact Hr|]. right. lia.
      * cbn [finv]. cbn [length] in Hm. split; [reflexivity|]. split; [exact Hr|]. split; [exact Hst'|lia].
Qed.

(** right answers in terms of the initial structure *)
Definition ansr (q : query) (a : answer) : Prop :=
  match q, a with
  | QFind x, ARoot r => exists d, root_at ps0 x r d
  | QSame x y, ASame b => exists r r' d d', root_at ps0 x r d /\ root_at ps0 y r' d' /\ b = (r =? r')
  | _, _ => False
  end.
Definition q_in (q : query) : Prop := match q with QFind x => x < n | QSame x y => x < n /\ y < n end.
Definition qcost (q : query) : nat := match q with QFind _ => 3 * n + 1 | QSame _ _ => 6 * n + 1 end.
Fixpoint qcosts (qs : list query) : nat := match qs with [] => 0 | q :: r => qcost q + qcosts r end.

Definition tinv (qs : list query) (t : thread) (m : nat) : Prop :=
  exists done, Forall2 ansr done (out t) /\ Forall q_in (todo t) /\
    match cur t with
    | None => qs = done ++ todo t /\ qcosts (todo t) <= m
    | Some (s, KFind) => exists x r d k, qs = done ++ QFind x :: todo t /\ root_at ps0 x r d /\ finv s r k /\ k + qcosts (todo t) <= m
    | Some (s, KSame1 y) => exists x r d k, qs = done ++ QSame x y :: todo t /\ root_at ps0 x r d /\ finv s r k /\ y < n /\ k + 3 * n + qcosts (todo t) <= m
    | Some (s, KSame2 v) => exists x y r dx dy k, qs = done ++ QSame x y :: todo t /\ root_at ps0 x v dx /\ root_at ps0 y r dy /\ finv s r k /\ k + qcosts (todo t) <= m
    end.

Lemma tinv_start qs : Forall q_in qs -> tinv qs (start qs) (qcosts qs).
Proof. intros H. exists []. cbn. auto. Qed.

Lemma call_inv x : x < n -> exists r d, root_at ps0 x r d /\ finv (FCall x []) r (3 * n).
Proof.
  intros Hx. destruct (F0 x Hx) as [r [d Hr]]. exists r, d. split; [exact Hr|]. exists d. split; [exact Hr|]. split; [constructor|].
  pose proof (root_at_depth _ _ _ _ Hr). cbn [length]. lia.
Qed.

Lemma F2_snoc {A B} (R : A -> B -> Prop) l1 l2 a b : Forall2 R l1 l2 -> R a b -> Forall2 R (l1 ++ [a]) (l2 ++ [b]).
Proof. intros H1 H2. apply Forall2_app; auto. Qed.

Lemma tstep_ok ps qs t m : cinv ps -> tinv qs t m ->
  exists ps' t', tstep ps t = Some (ps', t') /\ cinv ps' /\ tinv qs t' (m - 1).
Proof.
  intros C [done [Ho [Hin Hc]]]. unfold tstep. destruct t as [cu td ou]; cbn [cur todo out] in *.
  destruct cu as [[s k]|].
  - assert (exists r m', finv s r m' /\
        match k with
        | KFind => exists x d, qs = done ++ QFind x :: td /\ root_at ps0 x r d /\ m' + qcosts td <= m
        | KSame1 y => exists x d, qs = done ++ QSame x y :: td /\ root_at ps0 x r d /\ y < n /\ m' + 3 * n + qcosts td <= m
        | KSame2 v => exists x y dx dy, qs = done ++ QSame x y :: td /\ root_at ps0 x v dx /\ root_at ps0 y r dy /\ m' + qcosts td <= m
        end) as [r [m' [Hf Hk]]].
    { destruct k.
      - destruct Hc as [x [r [d [k [A [B [D E]]]]]]]. exists r, k. split; [exact D|]. eauto 8.
      - destruct Hc as [x [r [d [k [A [B [D [E G]]]]]]]]. exists r, k. split; [exact D|]. eauto 8.
      - destruct Hc as [x [y [q [dx [dy [k [A [B [D [E G]]]]]]]]]]. exists q, k. split; [exact E|]. eauto 9. }
    clear Hc. pose proof (finv_pos _ _ _ Hf) as Hpos. destruct (fstep_ok ps s r m' C Hf) as [ps' [res [E [C' Hres]]]].
    rewrite E. cbn [dbind fst snd]. eexists _, _. split; [reflexivity|]. split; [exact C'|].
    destruct res as [s'|v].
    + exists done. cbn [cur todo out]. split; [exact Ho|]. split; [exact Hin|]. destruct k.
      * destruct Hk as [x [d [A [B D]]]]. exists x, r, d, (m' - 1). repeat (split; [assumption|]). lia.
      * destruct Hk as [x [d [A [B [D G]]]]]. exists x, r, d, (m' - 1). repeat (split; [assumption|]). lia.
      * destruct Hk as [x [y [dx [dy [A [B [D G]]]]]]]. exists x, y, r, dx, dy, (m' - 1). repeat (split; [assumption|]). lia.
    + subst v. destruct k.
      * destruct Hk as [x [d [A [B D]]]]. exists (done ++ [QFind x]). cbn [cur todo out]. split; [apply F2_snoc; cbn; eauto|].
        split; [exact Hin|]. rewrite <- app_assoc. cbn. split; [exact A|lia].
      * destruct Hk as [x [d [A [B [D G]]]]]. destruct (call_inv y D) as [r2 [d2 [H1 H2]]]. exists done. cbn [cur todo out].
        split; [exact Ho|]. split; [exact Hin|]. exists x, y, r2, d, d2, (3 * n). repeat (split; [assumption|]). lia.
      * destruct Hk as [x [y [dx [dy [A [B [D G]]]]]]]. exists (done ++ [QSame x y]). cbn [cur todo out].
        split; [apply F2_snoc; auto; cbn; exists r0, r, dx, dy; auto|]. split; [exact Hin|]. rewrite <- app_assoc. cbn. split; [exact A|lia].
  - destruct Hc as [A B]. destruct td as [|q td].
    + eexists _, _. split; [reflexivity|]. split; [exact C|]. exists done. cbn. cbn in B. split; [exact Ho|]. split; [exact Hin|]. split; [exact A|lia].
    + cbn [qcosts] in B. inversion Hin as [|? ? Hq Hin']; subst. destruct q as [x|x y]; eexists _, _; (split; [reflexivity|]); (split; [exact C|]); exists done; cbn [cur todo out qcost q_in] in *; (split; [exact Ho|]); (split; [exact Hin'|]).
      * destruct (call_inv x Hq) as [r [d [H1 H2]]]. exists x, r, d, (3 * n). repeat (split; [auto|]). lia.
      * destruct Hq as [Hx Hy]. destruct (call_inv x Hx) as [r [d [H1 H2]]]. exists x, r, d, (3 * n). repeat (split; [auto|]). lia.
Qed.

Lemma upd_get' {A} (l : list A) i j v : nth_error (upd l i v) j = if j =? i then (if i <? length l then Some v else None) else nth_error l j.
Proof.
  destruct (Nat.ltb_spec i (length l)).
  - rewrite upd_get by assumption. reflexivity.
  - assert (upd l i v = l) as ->.
    { revert i H. induction l as [|a l IH]; intros i H; [reflexivity|]. destruct i; cbn in *; [lia|]. f_equal. apply IH. lia. }
    destruct (Nat.eqb_spec j i) as [->|]; [|reflexivity]. now apply nth_error_None.
Qed.

Lemma conc_ok (qss : list (list query)) sch : forall ps ts (m : nat -> nat),
  cinv ps -> length ts = length qss ->
  (forall i qs t, nth_error qss i = Some qs -> nth_error ts i = Some t -> tinv qs t (m i)) ->
  exists ps' ts', conc_run ps ts sch = Some (ps', ts') /\ cinv ps' /\ length ts' = length qss /\
    forall i qs t, nth_error qss i = Some qs -> nth_error ts' i = Some t -> tinv qs t (m i - count_occ Nat.eq_dec sch i).
Proof.
  induction sch as [|i sch IH]; intros ps ts m C L H.
  - exists ps, ts. split; [reflexivity|]. split; [exact C|]. split; [exact L|]. intros j qs t H1 H2. cbn. rewrite Nat.sub_0_r. eauto.
  - cbn [conc_run]. destruct (nth_error ts i) as [t|] eqn:Et.
    + assert (exists qs, nth_error qss i = Some qs) as [qs Eq].
      { destruct (nth_error qss i) eqn:E; [eauto|]. apply nth_error_None in E. assert (i < length ts) by (apply nth_error_Some; congruence). lia. }
      destruct (tstep_ok ps qs t (m i) C (H i qs t Eq Et)) as [ps1 [t1 [E1 [C1 T1]]]]. rewrite E1. cbn [dbind fst snd].
      destruct (IH ps1 (upd ts i t1) (fun j => if j =? i then m j - 1 else m j) C1 ltac:(now rewrite upd_length)) as [ps' [ts' [E2 [C2 [L2 H2]]]]].
      { intros j qs' t' H1 H3. rewrite upd_get' in H3. destruct (Nat.eqb_spec j i) as [->|Hn]; [|eauto].
        destruct (i <? length ts); [|discriminate]. injection H3 as <-. rewrite Eq in H1. injection H1 as <-. exact T1. }
      exists ps', ts'. split; [exact E2|]. split; [exact C2|]. split; [exact L2|]. intros j qs' t' H1 H3. specialize (H2 j qs' t' H1 H3).
      cbn beta in H2. cbn [count_occ]. destruct (Nat.eqb_spec j i) as [->|Hn].
      * destruct (Nat.eq_dec i i); [|contradiction]. replace (m i - S (count_occ Nat.eq_dec sch i)) with (m i - 1 - count_occ Nat.eq_dec sch i) by lia. exact H2.
      * destruct (Nat.eq_dec i j); [congruence|]. exact H2.
    + destruct (IH ps ts m C L H) as [ps' [ts' [E2 [C2 [L2 H2]]]]]. exists ps', ts'. split; [exact E2|]. split; [exact C2|]. split; [exact L2|].
      intros j qs' t' H1 H3. specialize (H2 j qs' t' H1 H3). cbn [count_occ]. destruct (Nat.eq_dec i j) as [<-|]; [|exact H2].
      assert (i < length qss) by (apply nth_error_Some; congruence). apply nth_error_None in Et. lia.
Qed.

Lemma tinv_out qs t m : tinv qs t m -> exists k, Forall2 ansr (firstn k qs) (out t).
Proof.
  intros [done [Ho [_ Hc]]]. exists (length done).
  assert (exists rest, qs = done ++ rest) as [rest ->].
  { destruct (cur t) as [[s [|y|v]]|]; [destruct Hc as [x [r [d [k [A _]]]]]|destruct Hc as [x [r [d [k [A _]]]]]|destruct Hc as [x [y [q [dx [dy [k [A _]]]]]]]|destruct Hc as [A _]]; eauto. }
  rewrite firstn_app, Nat.sub_diag, firstn_all. cbn. now rewrite app_nil_r.
Qed.
Lemma tinv_finished qs t : tinv qs t 0 -> finished t = true /\ Forall2 ansr qs (out t).
Proof.
  intros [done [Ho [_ Hc]]]. unfold finished. destruct (cur t) as [[s [|y|v]]|].
  - destruct Hc as [x [r [d [k [_ [_ [Hf Hk]]]]]]]. apply finv_pos in Hf. lia.
  - destruct Hc as [x [r [d [k [_ [_ [Hf [_ Hk]]]]]]]]. apply finv_pos in Hf. lia.
  - destruct Hc as [x [y [q [dx [dy [k [_ [_ [_ [Hf Hk]]]]]]]]]]. apply finv_pos in Hf. lia.
  - destruct Hc as [A B]. destruct (todo t) as [|q td]; [|cbn [qcosts] in B; destruct q; cbn [qcost] in B; lia].
    rewrite app_nil_r in A. subst. auto.
Qed.
End Conc.

(** on a flat structure nothing is ever written *)
Section Flat.
Context (ps : list nat) (FL : flat ps).
Definition fflat (s : fstate) : Prop :=
  match s with
  | FCall _ st => st = []
  | FTest x p st => st = [] /\ nth_error ps x = Some p
  | FRet _ st => st = []
  end.
Definition tflat (t : thread) : Prop := match cur t with Some (s, _) => fflat s | None => True end.
Lemma tstep_flat t ps' t' : tflat t -> tstep ps t = Some (ps', t') -> ps' = ps /\ tflat t'.
Proof.
  unfold tflat, tstep. destruct t as [[[s k]|] td ou]; cbn [cur todo out]; intros H E.
  - destruct s as [x st|x p st|r st]; cbn [fflat fstep] in *.
    + subst st. destruct (nth_error ps x) as [p|] eqn:Ep; [|discriminate]. cbn [dbind fst snd] in E. injection E as <- <-. cbn [fflat cur]. auto.
    + destruct H as [-> H]. destruct (nth_error ps p) as [q|] eqn:Ep; [|discriminate]. cbn [dbind fst snd] in E. injection E as <- <-. split; [reflexivity|].
      pose proof (FL _ _ H). assert (q = p) by congruence. subst q. rewrite Nat.eqb_refl. cbn. reflexivity.
    + subst st. cbn [dbind fst snd] in E. injection E as <- <-. split; [reflexivity|]. destruct k; cbn; auto.
  - destruct td as [|[x|x y] td]; injection E as <- <-; cbn; auto.
Qed.
Lemma conc_flat sch : forall ts ps' ts', Forall tflat ts -> conc_run ps ts sch = Some (ps', ts') ->
  ps' = ps /\ Forall tflat ts'.
Proof.
  induction sch as [|i sch IH]; intros ts ps' ts' H E.
  - injection E as <- <-. auto.
  - cbn [conc_run] in E. destruct (nth_error ts i) as [t|] eqn:Et; [|eauto].
    destruct (tstep ps t) as [[ps1 t1]|] eqn:E1; [|discriminate]. cbn [dbind fst snd] in E.
    pose proof (proj1 (Forall_forall _ _) H t (nth_error_In _ _ Et)) as Ht. destruct (tstep_flat t ps1 t1 Ht E1) as [-> Ht1].
    apply (IH (upd ts i t1)); [|exact E]. clear - H Ht1. revert i. induction H as [|a l Ha Hl IHl]; intros i; cbn; [constructor|].
    destruct i; constructor; auto.
Qed.
Lemma tflat_access t x : tflat t -> t_access t <> Some (true, x).
Proof.
  unfold tflat, t_access. destruct (cur t) as [[[y st|y p st|r st] k]|]; cbn; intros H; try discriminate. subst st. discriminate.
Qed.
End Flat.
