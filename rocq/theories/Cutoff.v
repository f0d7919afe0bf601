(** Spaces that differ in the truncation of the bosons only (for C85). *)
From Coq Require Import NArith ZArith List Bool Sorted Lia.
From Verif Require Import BitsModel BitsSpec BitsProofs ExprModel ExprSpec ExprOrder ExprMap ExprEval ExprStd ExprCanon ExprMain
  HSModel HSSpec HSEnum HSProofs HSMain PropHS LOpModel LOpSpec LOpFermion LOpSite LOpActF LOpActB LOpActS LOpComm LOpApply
  LOpMatrix LOpMain LOpFaithful MonModel MonProofs UFock UFock2 UFock3.
Import ListNotations.
Close Scope nat_scope.
Open Scope N_scope.
Open Scope list_scope.

(** the second space is the first one with a possibly larger truncation *)
Definition grown {I} (e e' : espace I) : Prop :=
  match e with ESBoson d i => exists d', e' = ESBoson d' i /\ d <= d' | _ => e' = e end.

Lemma grown_nth {I} (l l' : list (espace I)) : Forall2 grown l l' -> forall k,
  (forall e, nth_error l k = Some e -> exists e', nth_error l' k = Some e' /\ grown e e') /\
  (forall e', nth_error l' k = Some e' -> exists e, nth_error l k = Some e /\ grown e e').
Proof.
  induction 1 as [|a b t t' h F IH]; intros [|k]; cbn; try (split; intros ? E; discriminate); [|apply IH].
  split; intros ? E; injection E as <-; eauto.
Qed.

Section Cut.
Context {I S : Type} (io : index_ops I) (Hio : index_order io).
Context (so : scalar_ops S) (sq : N -> S) (half : Z -> S) (LL : lop_laws so sq half).
Let L : scalar_laws so := ll_ring _ _ _ LL.
Notation es := (espace I).
Notation gact := (gen_act io so sq half).
Notation mact := (mono_act io so sq half).
Context (l l' : list es) (S0 : StronglySorted (es_before io) l) (W : Forall es_wf l).
Context (S1 : StronglySorted (es_before io) l') (W1 : Forall es_wf l').
Context (GR : Forall2 grown l l').

Lemma grown_carries g (e e' : es) : grown e e' -> carries io g e' = carries io g e.
Proof. destruct e; cbn; intros H; subst; auto. destruct H as [d' [-> _]]. destruct g; reflexivity. Qed.
Lemma F2_l k e : nth_error l k = Some e -> exists e', nth_error l' k = Some e' /\ grown e e'.
Proof. apply (grown_nth _ _ GR). Qed.
Lemma F2_r k e' : nth_error l' k = Some e' -> exists e, nth_error l k = Some e /\ grown e e'.
Proof. apply (grown_nth _ _ GR). Qed.

(** the same occupation numbers *)
Definition same_numbers (x x' : N) : Prop :=
  forall k e e', nth_error l k = Some e -> nth_error l' k = Some e' -> fld l x k e = fld l' x' k e'.

(** fermions come first: their bits are at the same places *)
Lemma before_fermion (e : es) i : es_before io e (ESFermion i) -> exists j, e = ESFermion j.
Proof. inversion 1; eauto. Qed.
Lemma offset_fermion k : (k <= length l)%nat ->
  (forall k' e, (k' < k)%nat -> nth_error l k' = Some e -> exists j, e = ESFermion j) -> offset l k = offset l' k.
Proof.
  induction k as [|k IH]; intros hk H; [reflexivity|].
  destruct (nth_error l k) as [e|] eqn:E; [|apply nth_error_None in E; lia].
  destruct (H k e ltac:(lia) E) as [j ->]. destruct (F2_l k _ E) as [e' [E' G]]. cbn in G. subst e'.
  rewrite (offset_S l k _ E), (offset_S l' k _ E'), IH; [reflexivity|lia|]. intros k' e lt. apply H. lia.
Qed.
Lemma par_same x x' k j : same_numbers x x' -> nth_error l k = Some (ESFermion j) ->
  offset l k = offset l' k /\ par x' (offset l' k) = par x (offset l k).
Proof.
  intros R E. assert (hk : (k < length l)%nat) by (apply nth_error_Some; congruence).
  assert (FF : forall k' e, (k' < k)%nat -> nth_error l k' = Some e -> exists j, e = ESFermion j).
  { intros k' e lt Ek. apply (before_fermion e j). exact (ssorted_nth io l S0 k' k e _ lt Ek E). }
  assert (O : offset l k = offset l' k) by (apply offset_fermion; [lia|exact FF]).
  split; [exact O|]. rewrite <- O. symmetry. apply par_ext. intros i hi.
  destruct (bit_owner l k ltac:(lia) i hi) as [k1 [e1 [h1 [h2 h3]]]].
  destruct (FF k1 e1 h1 h2) as [j1 ->]. destruct (F2_l k1 _ h2) as [e' [E' G]]. cbn in G. subst e'.
  pose proof (R k1 _ _ h2 E') as F. unfold fld in F.
  assert (O1 : offset l k1 = offset l' k1).
  { apply offset_fermion; [lia|]. intros k2 e2 lt. apply FF. lia. }
  rewrite <- O1 in F.
  assert (T : tb (bit_field x (offset l k1) (es_nbits (ESFermion j1))) (i - offset l k1) = tb (bit_field x' (offset l k1) (es_nbits (ESFermion j1))) (i - offset l k1)) by congruence.
  rewrite !bit_field_bits in T. replace (i - offset l k1 + offset l k1)%nat with i in T by lia.
  destruct (Nat.ltb_spec (i - offset l k1) (es_nbits (ESFermion j1))); [exact T|lia].
Qed.

(** a number of bosons that the smaller space does not have *)
Definition beyond (q : N) : Prop :=
  exists k e e', nth_error l k = Some e /\ nth_error l' k = Some e' /\ isb e' = true /\ es_dim e <= fld l' q k e'.
Inductive agree : option (S * N) -> option (S * N) -> Prop :=
| ag_none : agree None None
| ag_some c y y' : same_numbers y y' -> agree (Some (c, y)) (Some (c, y'))
| ag_beyond c q : beyond q -> agree None (Some (c, q)).

Lemma beyond_not x q : valid_state l x -> forall x', same_numbers x x' -> beyond q -> q <> x'.
Proof.
  intros V x' R [k [e [e' [E [E' [_ h]]]]]] ->. rewrite <- (R k e e' E E') in h.
  pose proof (valid_field l k e x V E). unfold fld in h. lia.
Qed.
Lemma grown_isb (e e' : es) : grown e e' -> isb e' = isb e.
Proof. destruct e; cbn; intros H; subst; auto. now destruct H as [d' [-> _]]. Qed.
Lemma grown_site g k e : site io l g k e -> exists e', site io l' g k e' /\ grown e e'.
Proof. intros [E C]. destruct (F2_l k e E) as [e' [E' G]]. exists e'. split; [|exact G]. split; [exact E'|]. now rewrite (grown_carries g e e' G). Qed.
Lemma same_set x x' k e e' n' : same_numbers x x' -> nth_error l k = Some e -> nth_error l' k = Some e' ->
  n' <N es_nbits e -> n' <N es_nbits e' ->
  same_numbers (set_field x (offset l k) (es_nbits e) n') (set_field x' (offset l' k) (es_nbits e') n').
Proof.
  intros R E E' h h' k1 e1 e1' E1 E1'. rewrite (fsetl so sq half LL l k e x n' k1 e1), (fsetl so sq half LL l' k e' x' n' k1 e1') by auto.
  destruct (Nat.eqb k1 k); auto.
Qed.
Lemma gact_agree g x x' : valid_state l x -> valid_state l' x' -> same_numbers x x' -> agree (gact l g x) (gact l' g x') /\
  (creator g = false -> gact l g x = None -> gact l' g x' = None).
Proof.
  intros V V' R. destruct (site_or io l g) as [[k [e H]]|U].
  2: { assert (U' : forall e', In e' l' -> carries io g e' = false).
       { intros e' i. apply In_nth_error in i. destruct i as [k E']. destruct (F2_r k e' E') as [e [E G]].
         rewrite (grown_carries g e e' G). apply U. eapply nth_error_In; eauto. }
       rewrite (gen_act_unknown io so sq half l g x U), (gen_act_unknown io so sq half l' g x' U'). split; [constructor|auto]. }
  destruct (grown_site g k e H) as [e' [H' G]]. pose proof H as [E C]. pose proof H' as [E' C'].
  rewrite (gen_act_loc io Hio so sq half L l g k e x S0 H), (gen_act_loc io Hio so sq half L l' g k e' x' S1 H').
  pose proof (R k e e' E E') as F. unfold fld in F. rewrite <- F. set (n := bit_field x (offset l k) (es_nbits e)) in *.
  assert (J : jwf so g (offset l' k) x' = jwf so g (offset l k) x).
  { unfold jwf. destruct g as [d i| |]; cbn [is_f]; auto. apply (carries_f io Hio) in C. subst e. now rewrite (proj2 (par_same x x' k i R E)). }
  rewrite J.
  assert (SAME : loc so sq half g e' n = loc so sq half g e n ->
    agree match loc so sq half g e n with None => None | Some (c, n') => Some (s_mul so (jwf so g (offset l k) x) c, set_field x (offset l k) (es_nbits e) n') end
      match loc so sq half g e' n with None => None | Some (c, n') => Some (s_mul so (jwf so g (offset l k) x) c, set_field x' (offset l' k) (es_nbits e') n') end).
  { intros Q. rewrite Q. destruct (loc so sq half g e n) as [[c n']|] eqn:Lc; [|constructor]. constructor.
    apply same_set; auto.
    - exact (loc_bits io Hio so sq half l W g k e x c n' H V Lc).
    - apply (loc_bits io Hio so sq half l' W1 g k e' x' c n' H' V'). now rewrite <- F, Q. }
  destruct (creator g) eqn:K.
  - split; [|discriminate]. destruct g as [|[|] i|]; try discriminate. destruct e as [|d j|]; try discriminate. destruct G as [d' [-> hd]].
    cbn [loc es_dim] in *. destruct (N.ltb_spec (n + 1) d) as [lt|ge].
    + apply SAME. destruct (N.ltb_spec (n + 1) d'); [reflexivity|lia].
    + destruct (N.ltb_spec (n + 1) d') as [lt'|ge']; [|constructor].
      constructor. exists k, (ESBoson d j), (ESBoson d' j). split; [exact E|]. split; [exact E'|]. split; [reflexivity|]. cbn [es_dim].
      rewrite (fsetl so sq half LL l' k (ESBoson d' j) x' (n + 1) k (ESBoson d' j)); auto; [now rewrite Nat.eqb_refl|].
      apply (loc_bits io Hio so sq half l' W1 (GBoson true i) k (ESBoson d' j) x' (sq (n + 1)) (n + 1) H' V').
      rewrite <- F. cbn [loc es_dim]. destruct (N.ltb_spec (n + 1) d'); [reflexivity|lia].
  - assert (Q : loc so sq half g e' n = loc so sq half g e n).
    { destruct g as [d i|[|] i|m c i]; try discriminate; reflexivity. }
    split; [now apply SAME|]. intros _. rewrite Q. destruct (loc so sq half g e n) as [[c n']|]; [discriminate|reflexivity].
Qed.
Lemma mact_valid' t m x c y : StronglySorted (es_before io) t -> Forall es_wf t -> valid_state t x -> mact t m x = Some (c, y) -> valid_state t y.
Proof. intros St Wt V E. exact (UFock2.mact_valid io Hio so sq half LL t St Wt m x c y V E). Qed.
Lemma mact_down m x x' : Forall (fun g => creator g = false) m -> valid_state l x -> valid_state l' x' -> same_numbers x x' ->
  agree (mact l m x) (mact l' m x') /\ (mact l m x = None -> mact l' m x' = None).
Proof.
  intros F V V' R. induction F as [|g m h F IH]; cbn [mono_act]; [split; [now constructor|discriminate]|].
  destruct IH as [A D]. destruct (mact l m x) as [[c y]|] eqn:M.
  - destruct (mact l' m x') as [[c' y']|] eqn:M'; [|inversion A]. inversion A as [|c0 y0 y1 R1|]; subst. cbn [LOpSpec.obind].
    rename c' into c.
    destruct (gact_agree g y y' (mact_valid' l m x c y S0 W V M) (mact_valid' l' m x' c y' S1 W1 V' M') R1) as [B D'].
    specialize (D' h). destruct (gact l g y) as [[k z]|] eqn:Gy.
    + inversion B; subst. split; [now constructor|discriminate].
    + rewrite (D' eq_refl). split; [constructor|auto].
  - rewrite (D eq_refl). split; [constructor|auto].
Qed.
Lemma beyond_up g q c r : annihilator g = false -> valid_state l' q -> beyond q -> gact l' g q = Some (c, r) -> beyond r.
Proof.
  intros na V [k [e [e' [E [E' [ib h]]]]]] G. exists k, e, e'. repeat (split; [assumption|]).
  pose proof (fld_step io Hio so sq half LL l' S1 W1 g q c r k e' V G E' ib) as Q.
  assert (Z : anni io e' [g] = 0%nat) by (unfold anni; cbn [filter]; now rewrite na).
  rewrite Z in Q. clear - Q h. lia.
Qed.
Lemma mact_up m x x' : Forall (fun g => annihilator g = false) m -> valid_state l x -> valid_state l' x' -> same_numbers x x' ->
  agree (mact l m x) (mact l' m x').
Proof.
  intros F V V' R. induction F as [|g m h F IH]; cbn [mono_act]; [now constructor|].
  destruct (mact l m x) as [[c y]|] eqn:M; destruct (mact l' m x') as [[c' y']|] eqn:M'; inversion IH; subst; cbn [LOpSpec.obind].
  - destruct (gact_agree g y y' (mact_valid' l m x c' y S0 W V M) (mact_valid' l' m x' c' y' S1 W1 V' M') ltac:(assumption)) as [B _].
    destruct B; constructor; auto.
  - destruct (gact l' g y') as [[k z]|] eqn:G; [|constructor]. constructor.
    refine (beyond_up g y' k z h (mact_valid' l' m x' c' y' S1 W1 V' M') _ G). assumption.
  - constructor.
Qed.
Theorem mact_agree m x x' : canonical_mono io m -> valid_state l x -> valid_state l' x' -> same_numbers x x' ->
  agree (mact l m x) (mact l' m x').
Proof.
  intros [Sm _] V V' R. destruct (canonical_split io m Sm) as [a [b [-> [Ha Hb]]]].
  rewrite (mact_app io so L sq half l a b x), (mact_app io so L sq half l' a b x').
  destruct (mact_down b x x' Hb V V' R) as [A D]. destruct (mact l b x) as [[c y]|] eqn:M.
  - destruct (mact l' b x') as [[c' y']|] eqn:M'; inversion A; subst. cbn [LOpSpec.obind].
    pose proof (mact_up a y y' Ha (mact_valid' l b x c' y S0 W V M) (mact_valid' l' b x' c' y' S1 W1 V' M') ltac:(assumption)) as B.
    destruct B; constructor; auto.
  - rewrite (D eq_refl). constructor.
Qed.
Lemma same_inj x y x' y' : valid_state l x -> valid_state l y -> valid_state l' x' -> valid_state l' y' ->
  same_numbers x x' -> same_numbers y y' -> (x = y <-> x' = y').
Proof.
  intros Vx Vy Vx' Vy' Rx Ry. split; intros ->.
  - apply (state_ext l' W1); auto. intros k e' E'. destruct (F2_r k e' E') as [e [E G]].
    rewrite <- (Rx k e e' E E'). apply (Ry k e e' E E').
  - apply (state_ext l W); auto. intros k e E. destruct (F2_l k e E) as [e' [E' G]].
    rewrite (Rx k e e' E E'). symmetry. apply (Ry k e e' E E').
Qed.
Theorem mel_same e y x y' x' : (forall m c, In (m, c) e -> canonical_mono io m) ->
  valid_state l y -> valid_state l x -> valid_state l' y' -> valid_state l' x' -> same_numbers y y' -> same_numbers x x' ->
  mel io so sq half l e y x = mel io so sq half l' e y' x'.
Proof.
  intros C Vy Vx Vy' Vx' Ry Rx. induction e as [|[m c] e IH]; cbn [mel]; auto.
  rewrite IH by (intros m' c' i; apply (C m' c'); now right). f_equal. f_equal.
  pose proof (mact_agree m x x' (C m c (or_introl eq_refl)) Vx Vx' Rx) as A.
  destruct (mact l m x) as [[k z]|] eqn:M; destruct (mact l' m x') as [[k' z']|] eqn:M'; inversion A; subst; cbn [amp1]; auto.
  - pose proof (mact_valid' l m x k' z S0 W Vx M) as Vz. pose proof (mact_valid' l' m x' k' z' S1 W1 Vx' M') as Vz'.
    pose proof (same_inj z y z' y' Vz Vy Vz' Vy' ltac:(assumption) Ry) as Q.
    destruct (N.eqb_spec z y), (N.eqb_spec z' y'); auto; tauto.
  - destruct (N.eqb_spec z' y') as [->|]; auto. exfalso. eapply (beyond_not y y' Vy y' Ry); auto.
Qed.

(** the state of the larger space with the same numbers *)
Definition emb (x : N) : N :=
  enc l' (map (fun k => match nth_error l k with Some e => fld l x k e | None => 0 end) (seq 0 (length l'))).
Lemma grown_dim (e e' : es) : grown e e' -> es_dim e <= es_dim e'.
Proof. destruct e; cbn; intros H; subst; cbn; try lia. destruct H as [d' [-> h]]. exact h. Qed.
Lemma emb_ok x : valid_state l x -> valid_state l' (emb x) /\ same_numbers x (emb x).
Proof.
  intros V. set (f := fun k => match nth_error l k with Some e => fld l x k e | None => 0 end).
  assert (D : digits_ok l' (map f (seq 0 (length l')))).
  { apply (digits_map l' f). intros k e' E'. destruct (F2_r k e' E') as [e [E G]]. unfold f. rewrite E.
    pose proof (valid_field l k e x V E) as Q. pose proof (grown_dim e e' G). unfold fld. lia. }
  split.
  - apply (validr_iff l' W1). apply (enc_valid l' _ W1 D).
  - intros k e e' E E'. assert (hk : (k < length l')%nat) by (apply nth_error_Some; congruence).
    unfold emb. fold f. rewrite (enc_fld l' _ W1 D k e' (f k) E').
    + unfold f. now rewrite E.
    + apply nth_map_seq. exact hk.
Qed.
End Cut.
