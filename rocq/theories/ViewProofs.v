(** Views of state vectors: index maps, and the action of a linear operator on a
    vector that stores only some of the amplitudes. *)
From Coq Require Import NArith ZArith List Bool Sorted Permutation Lia.
From Verif Require Import BitsModel BitsSpec BitsProofs ExprModel ExprSpec ExprOrder ExprEval
  HSModel HSSpec HSEnum HSProofs HSMain LOpModel LOpSpec LOpFermion LOpSite LOpActF LOpActB LOpActS LOpComm LOpApply ViewModel.
Import ListNotations.
Open Scope N_scope.
Open Scope list_scope.

(** ** Index maps *)
Definition im_ok (m : imap) : Prop :=
  NoDup (map fst m) /\ map snd m = map N.of_nat (seq 0 (length m)).
Lemma im_at_In (m : imap) n k : NoDup (map fst m) -> (im_at m n = Some k <-> In (n, k) m).
Proof. apply sp_find_In. Qed.
Lemma im_at_None (m : imap) n : im_at m n = None <-> ~ In n (map fst m).
Proof. apply sp_find_None. Qed.
Lemma im_number_ok m n : im_ok m -> im_ok (im_number m n).
Proof.
  intros [A B]. unfold im_number. destruct (im_at m n) eqn:E; [split; auto|]. apply im_at_None in E.
  split.
  - rewrite map_app. cbn [map fst]. apply NoDup_app'; auto.
    + constructor; [intros []|constructor].
    + intros x i [->|[]]. auto.
  - rewrite map_app, app_length, B. cbn [map snd length]. rewrite seq_app, map_app. reflexivity.
Qed.
Lemma im_number_keys m n x : In x (map fst (im_number m n)) <-> x = n \/ In x (map fst m).
Proof.
  unfold im_number. destruct (im_at m n) eqn:E.
  - split; auto. intros [->|i]; auto. destruct (in_dec N.eq_dec n (map fst m)) as [i|i]; auto.
    exfalso. apply im_at_None in i. congruence.
  - rewrite map_app, in_app_iff. cbn. intuition.
Qed.
Lemma im_numbers_ok l : forall m, im_ok m -> im_ok (fold_left im_number l m).
Proof. induction l as [|n l IH]; intros m H; cbn; auto. apply IH. now apply im_number_ok. Qed.
Lemma im_numbers_keys l : forall m x, In x (map fst (fold_left im_number l m)) <-> In x l \/ In x (map fst m).
Proof.
  induction l as [|n l IH]; intros m x; cbn [fold_left In]; [intuition|]. rewrite IH, im_number_keys. intuition.
Qed.
Lemma im_ok_nil : im_ok []. Proof. split; [constructor|reflexivity]. Qed.
Lemma im_numbers_new l : forall m, NoDup (map fst m ++ l) ->
  fold_left im_number l m = m ++ combine l (map N.of_nat (seq (length m) (length l))).
Proof.
  induction l as [|n l IH]; intros m H; cbn [fold_left length seq map combine]; [now rewrite app_nil_r|].
  assert (E : im_number m n = m ++ [(n, N.of_nat (length m))]).
  { unfold im_number. apply NoDup_remove_2 in H. rewrite (proj2 (im_at_None m n)); auto. intros i. apply H. apply in_or_app. auto. }
  rewrite E, IH.
  - rewrite app_length. cbn [length]. rewrite Nat.add_1_r, <- app_assoc. reflexivity.
  - rewrite map_app, <- app_assoc. exact H.
Qed.
Lemma im_ok_values m : im_ok m -> NoDup (map snd m).
Proof.
  intros [_ B]. rewrite B. apply FinFun.Injective_map_NoDup; [|apply seq_NoDup]. intros x y E. lia.
Qed.
Lemma im_ok_lt m n k : im_ok m -> im_at m n = Some k -> k < N.of_nat (length m).
Proof.
  intros [A B] E. apply im_at_In in E; auto. apply (in_map snd) in E. cbn in E. rewrite B in E.
  apply in_map_iff in E. destruct E as [j [<- i]]. apply in_seq in i. lia.
Qed.
Lemma im_ok_onto m k : im_ok m -> k < N.of_nat (length m) -> exists n, im_at m n = Some k.
Proof.
  intros [A B] h. assert (i : In k (map snd m)).
  { rewrite B. apply in_map_iff. exists (N.to_nat k). split; [lia|]. apply in_seq. lia. }
  apply in_map_iff in i. destruct i as [[n k'] [<- i]]. exists n. now apply im_at_In.
Qed.
Lemma im_inj (m : imap) x y k : NoDup (map fst m) -> NoDup (map snd m) -> im_at m x = Some k -> im_at m y = Some k -> x = y.
Proof.
  intros A B E F. apply im_at_In in E, F; auto. clear A. induction m as [|[n j] m IH]; [destruct E|]. cbn in B. inversion B; subst.
  destruct E as [E|E], F as [F|F].
  - congruence.
  - inversion E; subst. exfalso. apply H1. now apply (in_map snd) in F.
  - inversion F; subst. exfalso. apply H1. now apply (in_map snd) in E.
  - auto.
Qed.

(** inverse_map *)
Lemma im_insert_new l : forall m, NoDup (map fst m ++ map fst l) -> fold_left im_insert l m = m ++ l.
Proof.
  induction l as [|p l IH]; intros m H; cbn [fold_left]; [now rewrite app_nil_r|]. cbn [map] in H.
  assert (E : im_insert m p = m ++ [p]).
  { unfold im_insert. apply NoDup_remove_2 in H. rewrite (proj2 (im_at_None m (fst p))); auto. intros i. apply H. apply in_or_app. auto. }
  rewrite E, IH, <- app_assoc; auto. rewrite map_app, <- app_assoc. exact H.
Qed.
Lemma inverse_map_spec m ps : im_ok m -> Permutation ps m ->
  inverse_map ps = map (fun p => (snd p, fst p)) ps.
Proof.
  intros Hm P. unfold inverse_map. rewrite im_insert_new; auto. cbn [map app]. rewrite map_map. cbn [fst].
  apply (Permutation_NoDup (Permutation_map snd (Permutation_sym P))). now apply im_ok_values.
Qed.
Lemma inverse_map_at m ps n k : im_ok m -> Permutation ps m ->
  (im_at (inverse_map ps) k = Some n <-> im_at m n = Some k).
Proof.
  intros Hm P. rewrite (inverse_map_spec m ps Hm P).
  rewrite im_at_In.
  - rewrite (im_at_In m n k (proj1 Hm)), in_map_iff. split.
    + intros [[a b] [E i]]. inversion E; subst. eapply Permutation_in; eauto.
    + intros i. exists (n, k). split; auto. eapply Permutation_in; [symmetry; exact P|auto].
  - rewrite map_map. cbn [fst]. apply (Permutation_NoDup (Permutation_map snd (Permutation_sym P))). now apply im_ok_values.
Qed.

(** ** Acting on a vector that has amplitudes for the states in [D] only *)
Section Restrict.
Context {I S V : Type} (io : index_ops I) (Hio : index_order io).
Context (so : scalar_ops S) (L : scalar_laws so) (sq : N -> S) (half : Z -> S).
Context (sv : sv_ops V S) (ok : V -> Prop) (amp : V -> N -> S) (D : N -> Prop) (frame : V -> V -> Prop).
Context (Fr : forall v, frame v v) (Ft : forall u v w, frame u v -> frame v w -> frame u w).
Context (Hadd : forall v n x, ok v -> D n -> exists v', sv_add sv v n x = Some v' /\ ok v' /\ frame v v' /\
  forall y, D y -> amp v' y = if N.eqb n y then s_add so (amp v y) x else amp v y).
Notation mel := (mel io so sq half).
Notation mono_act := (mono_act io so sq half).

(** every monomial of e takes |x> to a state in D (or to zero) *)
Definition into (l : list (espace I)) (e : list (list (gen I) * S)) (x : N) : Prop :=
  forall m c k y, In (m, c) e -> mono_act l m x = Some (k, y) -> D y.

Lemma act_monos_on l e Lp : lop_impl io so sq half l e Lp ->
  forall x a dst, valid_state l x -> into l e x -> ok dst ->
  exists dst', act_monos so sq half sv Lp x a dst = Some dst' /\ ok dst' /\ frame dst dst' /\
    forall y, D y -> amp dst' y = s_add so (amp dst y) (s_mul so (mel l e y x) a).
Proof.
  induction 1 as [|[m c] [acts c'] e Lp [Hm Hc] F IH]; intros x a dst V0 T O; cbn [act_monos].
  - exists dst. repeat split; auto. intros y _. cbn. now rewrite (mul_0_l so L), (sadd_0_r so L).
  - cbn [fst snd] in *. subst c'. assert (T' : into l e x) by (intros m' c' k y i E; eapply T; cbn; eauto).
    destruct (Hm x (s_one so) V0) as [[k [z [E1 E2]]]|[E1 E2]].
    + rewrite E2. rewrite (sl_mul_1_l so L). assert (Dz : D z) by (eapply T; [left; reflexivity|exact E1]).
      destruct (Hadd dst z (s_mul so (s_mul so c k) a) O Dz) as [d1 [-> [O1 [Z1 A1]]]].
      destruct (IH x a d1 V0 T' O1) as [d2 [-> [O2 [Z2 A2]]]].
      exists d2. repeat split; auto; [eapply Ft; eauto|]. intros y Dy. rewrite A2, A1 by auto. cbn [LOpSpec.mel]. rewrite E1. cbn [amp1].
      rewrite (sl_dist_r so L), (sl_add_assoc so L). f_equal.
      destruct (N.eqb_spec z y); auto. rewrite (mul_0_r so L), (mul_0_l so L), (sadd_0_r so L). reflexivity.
    + rewrite E1. destruct (IH x a dst V0 T' O) as [d2 [-> [O2 [Z2 A2]]]].
      exists d2. repeat split; auto. intros y Dy. rewrite A2 by auto. cbn [LOpSpec.mel]. rewrite (E2 y).
      now rewrite (mul_0_r so L), (sl_add_0 so L).
Qed.
Lemma act_entries_on l e Lp : lop_impl io so sq half l e Lp ->
  forall ent dst, Forall (fun p => valid_state l (fst p) /\ into l e (fst p)) ent -> ok dst ->
  exists dst', act_entries so sq half sv Lp ent dst = Some dst' /\ ok dst' /\ frame dst dst' /\
    forall y, D y -> amp dst' y = s_add so (amp dst y) (esum so (mel l e y) ent).
Proof.
  intros HL. induction ent as [|[x a] ent IH]; intros dst F O; cbn [act_entries].
  - exists dst. repeat split; auto. intros y _. cbn. now rewrite (sadd_0_r so L).
  - inversion F as [|? ? [Vx Tx] F']; subst. cbn [fst] in Vx, Tx.
    destruct (act_monos_on l e Lp HL x a dst Vx Tx O) as [d1 [-> [O1 [Z1 A1]]]].
    destruct (IH d1 F' O1) as [d2 [-> [O2 [Z2 A2]]]].
    exists d2. repeat split; auto; [eapply Ft; eauto|]. intros y Dy. rewrite A2, A1 by auto. cbn [esum]. now rewrite (sl_add_assoc so L).
Qed.
End Restrict.

(** ** Mapped views *)
Section MappedSource.
Context {S V : Type} (so : scalar_ops S) (L : scalar_laws so).
Context (sv : sv_ops V S) (ok : V -> Prop) (amp : V -> N -> S) (size : V -> N) (SV : sv_laws so sv ok amp size).

(** amplitude of |x> in a vector seen through the map m *)
Definition view_amp (m : imap) (v : V) (x : N) : S :=
  match im_at m x with Some k => amp v k | None => s_zero so end.
Definition map_fits (m : imap) (v : V) : Prop := forall x k, In (x, k) m -> k < size v.

Lemma mv_calls_spec v : ok v -> forall ps, NoDup (map fst ps) -> (forall x k, In (x, k) ps -> k < size v) ->
  exists l, mv_calls so sv v ps = Some l /\ NoDup (map fst l) /\
    (forall x a, In (x, a) l <-> exists k, In (x, k) ps /\ a = amp v k /\ a <> s_zero so).
Proof.
  intros O. induction ps as [|[n k] ps IH]; intros ND B; cbn [mv_calls].
  - exists []. split; auto. split; [constructor|]. intros x a. split; [intros []|intros [k [[] _]]].
  - cbn in ND. inversion ND as [|? ? nn ND']; subst. rewrite (svl_get _ _ _ _ _ SV v k O) by (apply (B n k); cbn; auto).
    destruct (IH ND') as [l [-> [N1 N2]]]; [intros x j i; apply (B x j); cbn; auto|]. cbn [option_map].
    eexists. split; [reflexivity|].
    assert (K : forall x, In x (map fst l) -> In x (map fst ps)).
    { intros x i. apply in_map_iff in i. destruct i as [[x' a] [<- i]]. apply N2 in i. destruct i as [j [i _]]. now apply (in_map fst) in i. }
    destruct (s_is_zero so (amp v k)) eqn:Z.
    + split; auto. intros x a. rewrite N2. split; intros [j [i [E F]]].
      * exists j. cbn; auto.
      * destruct i as [i|i]; [|exists j; auto]. inversion i; subst. apply (sl_is_zero so L) in Z. contradiction.
    + split.
      * cbn. constructor; auto.
      * intros x a. cbn [In]. rewrite N2. split.
        -- intros [i|[j [i F]]]; [|exists j; auto]. inversion i; subst. exists k. split; auto. split; auto. intros C.
           apply (sl_is_zero so L) in C. congruence.
        -- intros [j [[i|i] [E F]]]; [|right; exists j; auto]. inversion i; subst. auto.
Qed.
Lemma mv_foreach_spec m v : ok v -> NoDup (map fst m) -> map_fits m v ->
  (exists l, mv_foreach so sv m v l) /\
  forall l, mv_foreach so sv m v l -> NoDup (map fst l) /\
    (forall x a, In (x, a) l -> a = view_amp m v x /\ a <> s_zero so /\ In x (map fst m)) /\
    (forall x, view_amp m v x <> s_zero so -> In x (map fst l)).
Proof.
  intros O ND B. split.
  - destruct (mv_calls_spec v O m ND B) as [l [E _]]. exists l, m. auto.
  - intros l [ps [P E]].
    assert (ND' : NoDup (map fst ps)) by (apply (Permutation_NoDup (Permutation_map fst (Permutation_sym P))); auto).
    destruct (mv_calls_spec v O ps ND') as [l' [E' [N1 N2]]].
    { intros x k i. apply (B x k). eapply Permutation_in; eauto. }
    rewrite E in E'. inversion E'; subst l'. split; auto. split.
    + intros x a i. apply N2 in i. destruct i as [k [i [F G]]]. apply (Permutation_in _ P) in i. unfold view_amp.
      rewrite (proj2 (im_at_In m x k ND) i). split; auto. split; auto. now apply (in_map fst) in i.
    + intros x. unfold view_amp. destruct (im_at m x) as [k|] eqn:Ek; [|congruence]. intros G. apply im_at_In in Ek; auto.
      apply in_map_iff. exists (x, amp v k). split; auto. apply N2. exists k. split; auto. eapply Permutation_in; [symmetry; exact P|auto].
Qed.
End MappedSource.

Section MappedDest.
Context {I S V : Type} (io : index_ops I).
Context (so : scalar_ops S) (L : scalar_laws so) (sq : N -> S) (half : Z -> S).
Context (sv : sv_ops V S) (ok : V -> Prop) (amp : V -> N -> S) (size : V -> N) (SV : sv_laws so sv ok amp size).
Context (m : imap) (ND : NoDup (map fst m)) (NV : NoDup (map snd m)).
Notation msv := (mapped_sv so sv m).

Definition live_ok (s : vstate V) : Prop := exists v, s = Live v /\ ok v /\ map_fits size m v.
Definition any_ok (s : vstate V) : Prop := ok (vs_vec s) /\ map_fits size m (vs_vec s).
Definition mframe (s s' : vstate V) : Prop := size (vs_vec s') = size (vs_vec s) /\
  forall k, ~ In k (map snd m) -> amp (vs_vec s') k = amp (vs_vec s) k.

Lemma mv_add_live v n x : ok v -> map_fits size m v -> In n (map fst m) ->
  exists v', sv_add msv (Live v) n x = Some (Live v') /\ ok v' /\ map_fits size m v' /\ mframe (Live v) (Live v') /\
  forall y, In y (map fst m) -> view_amp so amp m v' y = if N.eqb n y then s_add so (view_amp so amp m v y) x else view_amp so amp m v y.
Proof.
  intros O B i. cbn. unfold im_at. destruct (sp_find n m) as [k|] eqn:E; [|now apply sp_find_None in E].
  assert (ik : In (n, k) m) by (apply sp_find_In in E; auto).
  destruct (svl_add _ _ _ _ _ SV v k x O (B n k ik)) as [v' [-> [O' [Z A]]]]. cbn [option_map]. exists v'. split; auto. split; auto.
  split; [intros y j q; rewrite Z; eauto|]. split; [split; auto|].
  - cbn [vs_vec]. intros j nj. rewrite A. destruct (N.eqb_spec k j); auto. subst. exfalso. apply nj. now apply (in_map snd) in ik.
  - intros y iy. unfold view_amp, im_at. destruct (sp_find y m) as [j|] eqn:Ej; [|now apply sp_find_None in Ej].
    rewrite A. destruct (N.eqb_spec n y) as [<-|ne].
    + rewrite E in Ej. inversion Ej; subst. now rewrite N.eqb_refl.
    + destruct (N.eqb_spec k j); auto. subst j. exfalso. apply ne. eapply (im_inj m); eauto.
Qed.

Lemma mapped_entries_live (Hio : index_order io) l e Lp ent v : lop_impl io so sq half l e Lp -> ok v -> map_fits size m v ->
  Forall (fun p => valid_state l (fst p) /\ into io so sq half (fun y => In y (map fst m)) l e (fst p)) ent ->
  exists w, act_entries so sq half msv Lp ent (Live v) = Some (Live w) /\ ok w /\ size w = size v /\
    (forall k, ~ In k (map snd m) -> amp w k = amp v k) /\
    forall y, In y (map fst m) -> view_amp so amp m w y = s_add so (view_amp so amp m v y) (esum so (mel io so sq half l e y) ent).
Proof.
  intros LI O B F.
  destruct (act_entries_on io so L sq half msv live_ok (fun s => view_amp so amp m (vs_vec s)) (fun y => In y (map fst m)) mframe) with (l := l) (e := e) (Lp := Lp) (ent := ent) (dst := Live v)
    as [w [E [[w' [-> [Ow _]]] [[F1 F2] A]]]]; auto.
  - intros s. split; auto.
  - intros s1 s2 s3 [A1 A2] [B1 B2]. split; [congruence|]. intros k nk. rewrite B2, A2; auto.
  - intros s n x [v0 [-> [O0 B0]]] i. destruct (mv_add_live v0 n x O0 B0 i) as [v' [E [O' [B' [Fm A]]]]].
    exists (Live v'). split; auto. split; [exists v'; auto|]. split; auto.
  - exists v. auto.
  - exists w'. cbn [vs_vec] in *. repeat split; auto.
Qed.

(** after the exception nothing changes *)
Lemma monos_thrown l e Lp x a v : lop_impl io so sq half l e Lp -> valid_state l x ->
  act_monos so sq half msv Lp x a (Thrown v) = Some (Thrown v).
Proof.
  intros LI V0. induction LI as [|[mm c] [acts c'] e Lp [Hm Hc] F IH]; cbn [act_monos]; auto.
  cbn [fst snd] in *. destruct (Hm x (s_one so) V0) as [[k [z [E1 E2]]]|[E1 E2]].
  - rewrite E2. cbn. exact IH.
  - rewrite E1. exact IH.
Qed.
Lemma monos_any l e Lp x a : lop_impl io so sq half l e Lp -> valid_state l x -> forall v, ok v -> map_fits size m v ->
  (exists w, act_monos so sq half msv Lp x a (Live v) = Some (Thrown w)) \/
  (exists w, act_monos so sq half msv Lp x a (Live v) = Some (Live w) /\ ok w /\ map_fits size m w /\
     forall mm c y, In (mm, c) e -> amp1 so (mono_act io so sq half l mm x) y <> s_zero so -> In y (map fst m)).
Proof.
  intros LI V0. induction LI as [|[mm c] [acts c'] e Lp [Hm Hc] F IH]; intros v O B; cbn [act_monos].
  - right. exists v. repeat split; auto. intros ? ? ? [].
  - cbn [fst snd] in *. destruct (Hm x (s_one so) V0) as [[k [z [E1 E2]]]|[E1 E2]].
    + rewrite E2. destruct (in_dec N.eq_dec z (map fst m)) as [i|i].
      * destruct (mv_add_live v z (s_mul so (s_mul so c' (s_mul so (s_one so) k)) a) O B i) as [v' [-> [O' [B' _]]]].
        destruct (IH v' O' B') as [[w ->]|[w [-> [Ow [Bw H]]]]]; [left; eauto|right]. exists w. repeat split; auto.
        intros m' c2 y [E|j] nz; [|eapply H; eauto]. inversion E; subst. rewrite E1 in nz. cbn in nz. destruct (N.eqb_spec z y); [now subst|congruence].
      * left. exists v. cbn. apply im_at_None in i. rewrite i. eapply monos_thrown; eauto.
    + rewrite E1. destruct (IH v O B) as [[w ->]|[w [-> [Ow [Bw H]]]]]; [left; eauto|right]. exists w. repeat split; auto.
      intros m' c2 y [E|j] nz; [|eapply H; eauto]. inversion E; subst. now rewrite E2 in nz.
Qed.
Lemma entries_thrown l e Lp ent v : lop_impl io so sq half l e Lp -> Forall (fun p => valid_state l (fst p)) ent ->
  act_entries so sq half msv Lp ent (Thrown v) = Some (Thrown v).
Proof.
  intros LI F. induction F as [|[x a] ent Vx F IH]; cbn [act_entries]; auto. now rewrite (monos_thrown l e Lp x a v LI Vx).
Qed.
Lemma entries_any l e Lp ent : lop_impl io so sq half l e Lp -> Forall (fun p => valid_state l (fst p)) ent -> forall v, ok v -> map_fits size m v ->
  (exists w, act_entries so sq half msv Lp ent (Live v) = Some (Thrown w)) \/
  (exists w, act_entries so sq half msv Lp ent (Live v) = Some (Live w) /\
     forall x a mm c y, In (x, a) ent -> In (mm, c) e -> amp1 so (mono_act io so sq half l mm x) y <> s_zero so -> In y (map fst m)).
Proof.
  intros LI F. induction F as [|[x a] ent Vx F IH]; intros v O B; cbn [act_entries].
  - right. exists v. split; auto. intros ? ? ? ? ? [].
  - destruct (monos_any l e Lp x a LI Vx v O B) as [[w ->]|[w [-> [Ow [Bw H]]]]].
    + left. exists w. now apply (entries_thrown l e).
    + destruct (IH w Ow Bw) as [[w' ->]|[w' [-> H']]]; [left; eauto|right]. exists w'. split; auto.
      intros x' a' mm c y [E|i] j nz; [inversion E; subst; eapply H; eauto|eapply H'; eauto].
Qed.
End MappedDest.
