(** Linear operators: C27 - C37 *)
From Coq Require Import NArith ZArith List Bool Sorted Permutation Lia Reals.
From Verif Require Import BitsModel BitsSpec BitsProofs ExprModel ExprSpec ExprOrder ExprEval ExprStd ExprCanon ExprMain ExprThrow ExprInst PropExpr
  HSModel HSSpec HSEnum HSProofs HSMain PropHS LOpModel LOpSpec LOpFermion LOpSite LOpActF LOpActB LOpActS LOpComm LOpApply
  LOpMatrix LOpThrow LOpMain LOpReal.
Import ListNotations.
Close Scope R_scope.
Open Scope N_scope.
Open Scope list_scope.

(** ** C27: fermionic monomials.  The bit masks computed by the constructor
    reproduce the successive action of the operators (LOpSpec.mono_act): same
    final state and sign, or no state at all. *)
Theorem C27_fermion_action : forall I (io : index_ops I) S (so : scalar_ops S) sq half (h : hspace I) m a x c,
  index_order io -> scalar_laws so -> s_one so <> s_zero so -> hs_fresh io h ->
  canonical_mono io m -> Forall (fun g => algebra_id g = (-3)%Z) m ->
  fermion_make io h m = LOk a -> valid_state (spaces h) x ->
  fermion_act so a x c =
  match mono_act io so sq half (spaces h) m x with
  | None => AZero
  | Some (sgn, y) => AVal (s_mul so c sgn) y
  end.
Proof.
  intros I io S so sq half h m a x c Hio L nz Fr C FA E V.
  pose proof (reachable_inv io Hio h (fresh_reachable io h Fr)) as Hi. pose proof (fresh_algs io Hio h Fr) as HA.
  destruct (canonical_split io Hio m C) as [mf [mb [ms [Em [F1 [F2 [F3 Sf]]]]]]].
  assert (m = mf) as ->.
  { subst m. rewrite !Forall_app in FA. destruct FA as [_ [G2 G3]]. unfold alg_all in *.
    destruct mb as [|g mb]; [|inversion F2; inversion G2; subst; congruence].
    destruct ms as [|g ms]; [|inversion F3; inversion G3; subst; congruence]. cbn. now rewrite app_nil_r. }
  pose proof (fermion_correct io Hio so L sq half h mf a Hi HA Sf E x c V) as Q.
  destruct Q as [[k [y [E1 E2]]]|[E1 E2]]; [now rewrite E1|].
  rewrite E1. destruct (mono_act io so sq half (spaces h) mf x) as [[k y]|] eqn:Em1; auto. exfalso.
  (* the coefficient is a sign *)
  assert (SG : forall mm z k' y', Forall (fun g => algebra_id g = (-3)%Z) mm -> mono_act io so sq half (spaces h) mm z = Some (k', y') ->
     exists b, k' = sign so b).
  { clear -L. induction mm as [|g mm IH]; intros z k' y' F Q; cbn [mono_act] in Q.
    - inversion Q; subst. now exists false.
    - inversion F as [|? ? Fg Fm]; subst. destruct (mono_act io so sq half (spaces h) mm z) as [[k1 y1]|] eqn:E1; [|discriminate].
      destruct (IH _ _ _ Fm E1) as [b1 ->]. cbn [obind] in Q.
      destruct (gen_act io so sq half (spaces h) g y1) as [[k2 y2]|] eqn:E2; [|discriminate]. inversion Q; subst.
      assert (exists b2, k2 = sign so b2) as [b2 ->].
      { unfold gen_act in E2. destruct (find_site io (spaces h) 0 g) as [[o e]|]; [|discriminate].
        destruct g as [[|] i| |]; try discriminate.
        - destruct (_ =? 0); inversion E2; eauto.
        - destruct (_ =? 1); inversion E2; eauto. }
      exists (xorb b1 b2). apply (sign_mul so L). }
  destruct (SG mf x k y FA Em1) as [b ->].
  specialize (E2 y). cbn [amp1] in E2. rewrite N.eqb_refl in E2.
  destruct b; cbn in E2; [|auto].
  apply nz. pose proof (sl_neg so L (s_one so)) as Z. rewrite E2 in Z. now rewrite (sl_add_comm so L), (sl_add_0 so L) in Z.
Qed.
Print Assumptions C27_fermion_action.

(** ** C29, C30: bosonic and spin monomials.  The implementation returns the
    final state and coefficient of the successive actions; it reports "zero"
    only when that vector vanishes, and never leaves its table of square roots
    (ABad). *)
Definition acts_as {I S} (io : index_ops I) (so : scalar_ops S) sq half (l : list (espace I)) (m : list (gen I))
  (f : N -> S -> ares S) : Prop :=
  forall x c, valid_state l x ->
  match f x c with
  | AVal c' y => exists k, mono_act io so sq half l m x = Some (k, y) /\ c' = s_mul so c k
  | AZero => forall y, amp1 so (mono_act io so sq half l m x) y = s_zero so
  | ABad => False
  end.
Lemma implements_acts {I S} io (so : scalar_ops S) sq half (l : list (espace I)) f m : implements io so sq half l f m -> acts_as io so sq half l m f.
Proof.
  intros H x c V. destruct (H x c V) as [[k [y [E1 E2]]]|[E1 E2]]; [rewrite E2|rewrite E1]; eauto.
Qed.

Theorem C29_boson_action : forall I (io : index_ops I) S (so : scalar_ops S) sq half (h : hspace I) m a,
  index_order io -> scalar_laws so -> hs_reachable io h -> boson_make io h m = LOk a ->
  acts_as io so sq half (spaces h) m (boson_act so sq a).
Proof.
  intros I io S so sq half h m a Hio L Re E. apply implements_acts.
  eapply (boson_correct io Hio so L sq half h m a); eauto. now apply reachable_inv.
Qed.
Print Assumptions C29_boson_action.

(** one mode: power p of a (a+) lowers (raises) the occupation n by p unless it
    leaves [0, dim-1] *)
Theorem C29_powers : forall I (io : index_ops I) S (so : scalar_ops S) sq half (h : hspace I) i p x e k,
  index_order io -> scalar_laws so -> hs_reachable io h -> valid_state (spaces h) x ->
  nth_error (spaces h) k = Some e -> carries io (GBoson true i) e = true ->
  let n := bit_field x (offset (spaces h) k) (es_nbits e) in
  let put v := set_field x (offset (spaces h) k) (es_nbits e) v in
  mono_act io so sq half (spaces h) (repeat (GBoson true i) p) x =
    (if n + N.of_nat p <? es_dim e
     then Some (fold_left (fun c j => s_mul so c (sq (n + N.of_nat j + 1))) (seq 0 p) (s_one so), put (n + N.of_nat p)) else None) /\
  mono_act io so sq half (spaces h) (repeat (GBoson false i) p) x =
    (if N.of_nat p <=? n
     then Some (fold_left (fun c j => s_mul so c (sq (n - N.of_nat j))) (seq 0 p) (s_one so), put (n - N.of_nat p)) else None).
Proof.
  intros I io S so sq half h i p x e k Hio L Re V E C n put.
  pose proof (reachable_inv io Hio h Re) as [S0 [W _]].
  assert (FL : forall (f : N -> N) ls c, fold_left (fun c n => s_mul so c (sq n)) (map f (map N.of_nat ls)) c =
     fold_left (fun c j => s_mul so c (sq (f (N.of_nat j)))) ls c).
  { intros f ls. induction ls as [|a ls IH]; intros c; cbn; auto. }
  split.
  - rewrite (ladder_up io Hio so L sq half (spaces h) S0 W (GBoson true i) k e (conj E C) eq_refl (fun n => n + 1)); auto.
    fold n. destruct (_ <? _); auto. f_equal. f_equal. unfold prods, zrange. rewrite FL. reflexivity.
  - assert (C' : carries io (GBoson false i) e = true) by (destruct e; auto).
    rewrite (ladder_down io Hio so L sq half (spaces h) S0 W (GBoson false i) k e (conj E C') eq_refl (fun n => n)); auto.
    fold n. destruct (_ <=? _); auto. f_equal. f_equal. unfold prods, zrange. rewrite FL. reflexivity.
Qed.
Print Assumptions C29_powers.

Theorem C30_spin_action : forall I (io : index_ops I) S (so : scalar_ops S) sq half (h : hspace I) m a,
  index_order io -> scalar_laws so -> half 0%Z = s_zero so -> hs_reachable io h -> Forall int_mult (spaces h) ->
  spin_make io h m = LOk a ->
  acts_as io so sq half (spaces h) m (spin_act so sq half a).
Proof.
  intros I io S so sq half h m a Hio L H0 Re IM E. apply implements_acts.
  eapply (spin_correct io Hio so L sq half H0 h m a); eauto. now apply reachable_inv.
Qed.
Print Assumptions C30_spin_action.

(** ** C31: monomials with generators of several algebras *)
Theorem C31_mixed_action : forall I (io : index_ops I) S (so : scalar_ops S) sq half (h : hspace I) m a,
  index_order io -> scalar_laws so -> (forall x y, s_mul so x y = s_mul so y x) -> half 0%Z = s_zero so ->
  hs_fresh io h -> Forall int_mult (spaces h) -> canonical_mono io m ->
  mono_make io h [-3; -2; -1]%Z m = LOk a ->
  acts_as io so sq half (spaces h) m (mono_run so sq half a).
Proof.
  intros I io S so sq half h m a Hio L MC H0 Fr IM C E. apply implements_acts.
  eapply (mono_correct io Hio so L sq half MC H0); eauto.
  - now apply (reachable_inv io Hio), fresh_reachable.
  - now apply (fresh_algs io Hio).
Qed.
Print Assumptions C31_mixed_action.

(** the parts of different algebras commute and change disjoint bits *)
Theorem C31_parts_commute : forall I (io : index_ops I) S (so : scalar_ops S) sq half (h : hspace I) m m' x,
  index_order io -> scalar_laws so -> (forall x y, s_mul so x y = s_mul so y x) -> hs_reachable io h ->
  (forall g g', In g m -> In g' m' -> algebra_id g <> algebra_id g') -> valid_state (spaces h) x ->
  mono_act io so sq half (spaces h) (m ++ m') x = mono_act io so sq half (spaces h) (m' ++ m) x.
Proof.
  intros I io S so sq half h m m' x Hio L MC Re H V.
  pose proof (reachable_inv io Hio h Re) as [S0 [W _]].
  apply (mono_commute io Hio so L sq half MC (spaces h) S0 W m m' x V). now apply indep_lists.
Qed.
Print Assumptions C31_parts_commute.

Theorem C31_local : forall I (io : index_ops I) S (so : scalar_ops S) sq half (h : hspace I) g x k y i,
  index_order io -> scalar_laws so -> hs_reachable io h -> valid_state (spaces h) x ->
  gen_act io so sq half (spaces h) g x = Some (k, y) ->
  valid_state (spaces h) y /\
  ((forall n e, nth_error (spaces h) n = Some e -> carries io g e = true ->
     ~ (offset (spaces h) n <= i < offset (spaces h) n + es_nbits e)%nat) -> N.testbit y (N.of_nat i) = N.testbit x (N.of_nat i)).
Proof.
  intros I io S so sq half h g x k y i Hio L Re V E.
  pose proof (reachable_inv io Hio h Re) as [S0 [W _]].
  split; [eapply (gen_act_valid io Hio so sq half L); eauto|].
  intros H. destruct (site_or io (spaces h) g) as [[n [e St]]|U].
  2: { rewrite (gen_act_unknown io so sq half (spaces h) g x U) in E. discriminate. }
  rewrite (gen_act_loc io Hio so sq half L (spaces h) g n e x S0 St) in E.
  destruct (loc so sq half g e (bit_field x (offset (spaces h) n) (es_nbits e))) as [[c v]|] eqn:E1; [|discriminate].
  inversion E; subst. specialize (H n e (proj1 St) (proj2 St)).
  assert (hv : v <N es_nbits e) by (eapply (loc_bits io Hio so sq half (spaces h) W); eauto).
  rewrite set_field_bits by exact hv.
  destruct (Nat.ltb_spec i (offset (spaces h) n)); auto. destruct (Nat.ltb_spec i (offset (spaces h) n + es_nbits e)); auto.
  exfalso. apply H. lia.
Qed.
Print Assumptions C31_local.
