(** Truncated operators as corners of the untruncated ones (for C84). *)
From Coq Require Import NArith ZArith List Bool Sorted Lia Setoid Morphisms.
From Verif Require Import BitsModel BitsSpec BitsProofs ExprModel ExprSpec ExprOrder ExprMap ExprEval ExprStd ExprCanon ExprMain ExprConj
  HSModel HSSpec HSEnum HSProofs HSMain PropHS LOpModel LOpSpec LOpFermion LOpSite LOpActF LOpActB LOpActS LOpComm LOpApply
  LOpMatrix LOpThrow LOpReject LOpMain LOpFaithful MonModel MonProofs UFock.
Import ListNotations.
Close Scope nat_scope.
Open Scope N_scope.
Open Scope list_scope.

Section Link.
Context {I S : Type} (io : index_ops I) (Hio : index_order io).
Context (so : scalar_ops S) (sq : N -> S) (half : Z -> S) (LL : lop_laws so sq half).
Let L : scalar_laws so := ll_ring _ _ _ LL.
Let MC : forall x y, s_mul so x y = s_mul so y x := ll_comm _ _ _ LL.
Notation es := (espace I).
Notation gact := (gen_act io so sq half).
Notation mact := (mono_act io so sq half).
Notation bnd := (LOpSpec.obind so).
Notation "x +s y" := (s_add so x y) (at level 50, left associativity).
Notation "x *s y" := (s_mul so x y) (at level 40, left associativity).
Context (l : list es) (S0 : StronglySorted (es_before io) l) (W : Forall es_wf l).
Context (bas : list N) (HB : basis_of l bas).
Notation uok := (uok l).
Notation ug := (ug io so sq half l).
Notation urho := (urho io Hio so sq half LL l S0 W).
Notation fr := (fring so (ll_ring _ _ _ LL) uok).
Notation inj := (lin_scalar so (ll_ring _ _ _ LL) (ll_comm _ _ _ LL) uok).
Notation papp := (@UFock.papp S so ust).

(** products of generators and expressions *)
Fixpoint umono (m : list (gen I)) (p : ust) : option (S * ust) :=
  match m with
  | [] => Some (s_one so, p)
  | g :: t => match umono t p with
              | None => None
              | Some (c, q) => match ug g q with None => None | Some (k, r) => Some (c *s k, r) end
              end
  end.
Lemma umono_ok m p c q : uok p -> umono m p = Some (c, q) -> uok q.
Proof.
  revert c q. induction m as [|g m IH]; cbn [umono]; intros c q hp E.
  - injection E as <- <-. exact hp.
  - destruct (umono m p) as [[c1 q1]|]; [|discriminate]. destruct (ug g q1) as [[k r]|] eqn:G; [|discriminate].
    injection E as <- <-. eapply (ug_ok io Hio so sq half LL l S0 W); [eapply IH; eauto|exact G].
Qed.
Lemma umono_app a b p : umono (a ++ b) p = match umono b p with
  | None => None | Some (c, q) => match umono a q with None => None | Some (k, r) => Some (c *s k, r) end end.
Proof.
  induction a as [|g a IH]; cbn [umono app].
  - destruct (umono b p) as [[c q]|]; auto. now rewrite (sl_mul_1_r so L).
  - rewrite IH. destruct (umono b p) as [[c q]|]; auto. destruct (umono a q) as [[k r]|]; auto.
    destruct (ug g r) as [[k' r']|]; auto. now rewrite (sl_mul_assoc so L).
Qed.
Lemma eval_umono m : forall u p, uok p -> lf so uok (eval_mono fr urho m) u p = papp (umono m p) u.
Proof.
  induction m as [|g m IH]; intros u p hp; cbn [eval_mono umono].
  - cbn. now rewrite (sl_mul_1_l so L).
  - cbn [fring op_ring rmul lin_ring linmul lf]. rewrite IH by auto. unfold UFock.papp at 1.
    destruct (umono m p) as [[c q]|]; auto. cbn [UFock.urho pmap lf]. unfold UFock.papp.
    destruct (ug g q) as [[k r]|]; [apply (sl_mul_assoc so L)|apply (mul_0_r so L)].
Qed.
Fixpoint uexpr (e : list (list (gen I) * S)) (u : ust -> S) (p : ust) : S :=
  match e with [] => s_zero so | (m, c) :: t => c *s papp (umono m p) u +s uexpr t u p end.
Lemma papp_scal o c u : papp o (fun q => c *s u q) = c *s papp o u.
Proof.
  unfold UFock.papp. destruct o as [[k q]|]; [|now rewrite (mul_0_r so L)]. rewrite !(sl_mul_assoc so L). f_equal. apply MC.
Qed.
Lemma eval_uexpr e : forall u p, uok p -> lf so uok (eval_expr fr inj urho e) u p = uexpr e u p.
Proof.
  induction e as [|[m c] e IH]; intros u p hp; cbn [eval_expr uexpr]; [reflexivity|].
  cbn [fring op_ring radd rmul lin_ring linadd linmul lf]. f_equal; [|now apply IH].
  rewrite eval_umono by auto. cbn [lin_scalar lf]. apply papp_scal.
Qed.

(** the untruncated image of a basis state *)
Definition isb (e : es) : bool := match e with ESBoson _ _ => true | _ => false end.
Definition zdig (x : N) (k : nat) : N :=
  match nth_error l k with Some e => if isb e then 0 else fld l x k e | None => 0 end.
Definition bdig (x : N) (k : nat) : N :=
  match nth_error l k with Some e => if isb e then fld l x k e else 0 | None => 0 end.
Definition iota (x : N) : ust :=
  (enc l (map (zdig x) (seq 0 (length l))), map (bdig x) (seq 0 (length l))).

Lemma digits_map (f : nat -> N) : (forall k e, nth_error l k = Some e -> f k < es_dim e) -> digits_ok l (map f (seq 0 (length l))).
Proof.
  intros H. unfold digits_ok.
  assert (G : forall t s, (forall k e, nth_error t k = Some e -> f (s + k)%nat < es_dim e) ->
    Forall2 (fun (e : es) d => d < es_dim e) t (map f (seq s (length t)))).
  { induction t as [|e t IH]; intros s K; cbn; constructor.
    - pose proof (K 0%nat e eq_refl) as Q. now rewrite Nat.add_0_r in Q.
    - apply IH. intros k f0 E. rewrite Nat.add_succ_comm. now apply K. }
  apply G. exact H.
Qed.
Lemma dim_pos e : In e l -> 0 < es_dim e.
Proof.
  intros i. rewrite Forall_forall in W. specialize (W e i). destruct e; cbn in *; lia.
Qed.
Lemma nth_map_seq (f : nat -> N) k : (k < length l)%nat -> nth_error (map f (seq 0 (length l))) k = Some (f k).
Proof.
  intros h. erewrite map_nth_error; [reflexivity|]. rewrite <- (Nat.add_0_l k) at 2.
  rewrite (nth_error_nth' _ 0%nat) by (now rewrite seq_length). f_equal. now apply seq_nth.
Qed.
Lemma zdigits x : valid_state l x -> digits_ok l (map (zdig x) (seq 0 (length l))).
Proof.
  intros V. apply digits_map. intros k e E. unfold zdig. rewrite E. destruct (isb e).
  - apply dim_pos. eapply nth_error_In; eauto.
  - apply (valid_field l k e x V E).
Qed.
Lemma iota_valid x : valid_state l x -> valid_state l (fst (iota x)).
Proof. intros V. apply (validr_iff l W). apply (enc_valid l _ W). now apply zdigits. Qed.
Lemma iota_fld x k e : valid_state l x -> nth_error l k = Some e ->
  fld l (fst (iota x)) k e = if isb e then 0 else fld l x k e.
Proof.
  intros V E. cbn [iota fst].
  assert (h : (k < length l)%nat) by (apply nth_error_Some; congruence).
  rewrite (enc_fld l _ W (zdigits x V) k e (zdig x k) E (nth_map_seq _ k h)). unfold zdig. now rewrite E.
Qed.
Lemma iota_len x : length (snd (iota x)) = length l.
Proof. cbn [iota snd]. now rewrite map_length, seq_length. Qed.
Lemma iota_num x k e : nth_error l k = Some e -> nth k (snd (iota x)) 0 = if isb e then fld l x k e else 0.
Proof.
  intros E. assert (h : (k < length l)%nat) by (apply nth_error_Some; congruence).
  cbn [iota snd]. rewrite (nth_error_nth _ _ 0 (nth_map_seq (bdig x) k h)). unfold bdig. now rewrite E.
Qed.
Lemma iota_ok x : valid_state l x -> uok (iota x).
Proof. intros V. split; [now apply iota_valid|apply iota_len]. Qed.
Lemma nums_ext (a b : list N) : length a = length l -> length b = length l ->
  (forall k e, nth_error l k = Some e -> nth k a 0 = nth k b 0) -> a = b.
Proof.
  intros Ha Hb H. apply (nth_ext a b 0 0); [congruence|]. intros k hk. rewrite Ha in hk.
  destruct (nth_error l k) as [e|] eqn:E; [now apply (H k e)|]. apply nth_error_None in E. lia.
Qed.
Lemma iota_inj x y : valid_state l x -> valid_state l y -> iota x = iota y -> x = y.
Proof.
  intros Vx Vy E. apply (state_ext l W x y Vx Vy). intros k e Ek.
  destruct (isb e) eqn:Be.
  - pose proof (iota_num x k e Ek) as A. pose proof (iota_num y k e Ek) as B. rewrite Be in A, B. congruence.
  - pose proof (iota_fld x k e Vx Ek) as A. pose proof (iota_fld y k e Vy Ek) as B. rewrite Be in A, B. congruence.
Qed.
Lemma fsetl k0 e0 z n' k e : nth_error l k0 = Some e0 -> nth_error l k = Some e -> n' <N es_nbits e0 ->
  fld l (set_field z (offset l k0) (es_nbits e0) n') k e = if Nat.eqb k k0 then n' else fld l z k e.
Proof.
  intros E0 E hn. destruct (Nat.eqb k k0) eqn:Q.
  - apply Nat.eqb_eq in Q. subst k0. rewrite E in E0. injection E0 as <-. unfold fld. now apply bit_field_set.
  - apply Nat.eqb_neq in Q. now apply (fld_set so MC sq l).
Qed.
(** changing the field of a space that is not a boson *)
Lemma iota_set x k e n' : valid_state l x -> nth_error l k = Some e -> n' < es_dim e -> isb e = false ->
  iota (set_field x (offset l k) (es_nbits e) n') = (set_field (fst (iota x)) (offset l k) (es_nbits e) n', snd (iota x)).
Proof.
  intros V E hn nb. pose proof E as E'. apply nth_error_In in E'.
  assert (we : es_wf e) by (rewrite Forall_forall in W; auto). pose proof (dim_le e we) as DL.
  assert (hb : n' <N es_nbits e) by lia.
  assert (V' : valid_state l (set_field x (offset l k) (es_nbits e) n')) by (apply (valid_update l k e x n'); auto).
  apply injective_projections; cbn [fst snd].
  - apply (state_ext l W).
    + now apply iota_valid.
    + apply (valid_update l k e); auto. now apply iota_valid.
    + intros k1 e1 E1. rewrite iota_fld by auto. rewrite !fsetl by auto. rewrite iota_fld by auto.
      destruct (Nat.eqb_spec k1 k) as [->|ne]; auto. rewrite E in E1. injection E1 as <-. now rewrite nb.
  - apply nums_ext; try apply iota_len. intros k1 e1 E1. rewrite !(iota_num _ k1 e1 E1). destruct (isb e1) eqn:b1; auto.
    rewrite fsetl by auto. destruct (Nat.eqb_spec k1 k) as [->|ne]; auto. congruence.
Qed.
(** changing the number of bosons *)
Lemma iota_bset x k e n' : valid_state l x -> nth_error l k = Some e -> n' < es_dim e -> isb e = true ->
  iota (set_field x (offset l k) (es_nbits e) n') = (fst (iota x), setl (snd (iota x)) k n').
Proof.
  intros V E hn ib. pose proof E as E'. apply nth_error_In in E'.
  assert (we : es_wf e) by (rewrite Forall_forall in W; auto). pose proof (dim_le e we) as DL.
  assert (hb : n' <N es_nbits e) by lia.
  assert (hk : (k < length l)%nat) by (apply nth_error_Some; congruence).
  assert (V' : valid_state l (set_field x (offset l k) (es_nbits e) n')) by (apply (valid_update l k e x n'); auto).
  apply injective_projections; cbn [fst snd].
  - apply (state_ext l W).
    + now apply iota_valid.
    + now apply iota_valid.
    + intros k1 e1 E1. rewrite !iota_fld by auto. destruct (isb e1) eqn:b1; auto.
      rewrite fsetl by auto. destruct (Nat.eqb_spec k1 k) as [->|ne]; auto. congruence.
  - apply nums_ext; [apply iota_len|now rewrite setl_length, iota_len|]. intros k1 e1 E1. rewrite !(iota_num _ k1 e1 E1).
    destruct (Nat.eqb_spec k1 k) as [->|ne].
    + rewrite E in E1. injection E1 as <-. rewrite ib, fsetl, Nat.eqb_refl by auto. rewrite nth_setl; auto. now rewrite iota_len.
    + rewrite nth_setl_other by auto. rewrite (iota_num x k1 e1 E1). destruct (isb e1); auto. rewrite fsetl by auto.
      destruct (Nat.eqb_spec k1 k); congruence.
Qed.

(** Jordan-Wigner signs do not see the bosons *)
Lemma ssorted_nth (t : list es) : StronglySorted (es_before io) t -> forall a b x y, (a < b)%nat ->
  nth_error t a = Some x -> nth_error t b = Some y -> es_before io x y.
Proof.
  induction 1 as [|x0 t St IH Ft]; intros a b x y h Ea Eb; [destruct a; discriminate|].
  destruct b as [|b]; [lia|]. destruct a as [|a]; cbn in Ea, Eb.
  - injection Ea as <-. rewrite Forall_forall in Ft. apply Ft. eapply nth_error_In; eauto.
  - apply (IH a b x y); auto. lia.
Qed.
Lemma bit_owner k : (k <= length l)%nat -> forall i, (i < offset l k)%nat ->
  exists k' e', (k' < k)%nat /\ nth_error l k' = Some e' /\ (offset l k' <= i < offset l k' + es_nbits e')%nat.
Proof.
  induction k as [|k IH]; intros hk i hi; [unfold offset in hi; cbn in hi; lia|].
  destruct (nth_error l k) as [e|] eqn:E; [|apply nth_error_None in E; lia].
  destruct (Nat.lt_ge_cases i (offset l k)) as [lt|ge].
  - destruct (IH ltac:(lia) i lt) as [k' [e' [h1 [h2 h3]]]]. exists k', e'. repeat split; auto; lia.
  - exists k, e. rewrite (offset_S l k e E) in hi. repeat split; auto.
Qed.
Lemma iota_par x k j : valid_state l x -> nth_error l k = Some (ESFermion j) ->
  par (fst (iota x)) (offset l k) = par x (offset l k).
Proof.
  intros V E. apply par_ext. intros i hi.
  assert (hk : (k < length l)%nat) by (apply nth_error_Some; congruence).
  destruct (bit_owner k ltac:(lia) i hi) as [k' [e' [h1 [h2 h3]]]].
  pose proof (ssorted_nth l S0 k' k e' _ h1 h2 E) as Q.
  assert (nb : isb e' = false) by (inversion Q; reflexivity).
  pose proof (iota_fld x k' e' V h2) as F. rewrite nb in F. unfold fld in F.
  assert (T : tb (bit_field (fst (iota x)) (offset l k') (es_nbits e')) (i - offset l k') = tb (bit_field x (offset l k') (es_nbits e')) (i - offset l k')) by congruence.
  rewrite !bit_field_bits in T. replace (i - offset l k' + offset l k')%nat with i in T by lia.
  destruct (Nat.ltb_spec (i - offset l k') (es_nbits e')); [exact T|lia].
Qed.

Definition up (o : option (S * N)) : option (S * ust) :=
  match o with None => None | Some (c, y) => Some (c, iota y) end.
Lemma ug_other g x : valid_state l x -> algebra_id g <> (-2)%Z -> ug g (iota x) = up (gact l g x).
Proof.
  intros V nb.
  assert (U : ug g (iota x) = match gact l g (fst (iota x)) with None => None | Some (c, y) => Some (c, (y, snd (iota x))) end)
    by (destruct g; try reflexivity; cbn in nb; congruence).
  rewrite U. destruct (site_or io l g) as [[k [e H]]|N].
  2: { now rewrite !(gen_act_unknown io so sq half l g _ N). }
  rewrite !(gen_act_loc io Hio so sq half L l g k e _ S0 H). pose proof H as [E C].
  assert (ib : isb e = false) by (destruct g, e; cbn in C, nb |- *; try reflexivity; try discriminate; congruence).
  pose proof (iota_fld x k e V E) as F. rewrite ib in F. unfold fld in F. rewrite F.
  destruct (loc so sq half g e (bit_field x (offset l k) (es_nbits e))) as [[c n']|] eqn:Lc; [|reflexivity].
  cbn [up]. pose proof (valid_field l k e x V E) as hn.
  pose proof (loc_dim io Hio so sq half g e _ c n' C hn Lc) as hn'.
  rewrite (iota_set x k e n' V E hn' ib).
  assert (J : jwf so g (offset l k) (fst (iota x)) = jwf so g (offset l k) x); [|now rewrite J].
  unfold jwf. destruct g as [d i| |]; cbn [is_f]; auto. apply (carries_f io Hio) in C. subst e. now rewrite (iota_par x k i V E).
Qed.
Lemma ug_boson d i x k e : valid_state l x -> site io l (GBoson d i) k e ->
  (d = true -> fld l x k e + 1 < es_dim e) -> ug (GBoson d i) (iota x) = up (gact l (GBoson d i) x).
Proof.
  intros V H sf. cbn [UFock.ug]. rewrite (site_pos io Hio l S0 _ k e H).
  rewrite (gen_act_loc io Hio so sq half L l _ k e _ S0 H). pose proof H as [E C].
  assert (ib : isb e = true) by (destruct e; cbn in C |- *; congruence).
  rewrite (iota_num x k e E), ib. unfold fld in *. set (n := bit_field x (offset l k) (es_nbits e)) in *. cbn [loc].
  pose proof (valid_field l k e x V E) as hn. fold n in hn.
  destruct d.
  - specialize (sf eq_refl). destruct (N.ltb_spec (n + 1) (es_dim e)); [|lia]. cbn [up jwf is_f].
    rewrite (iota_bset x k e (n + 1) V E) by auto. unfold jwf. cbn [is_f]. now rewrite (sl_mul_1_l so L).
  - destruct (N.eqb_spec n 0); [reflexivity|]. cbn [up]. rewrite (iota_bset x k e (n - 1) V E) by (auto; lia).
    unfold jwf. cbn [is_f]. now rewrite (sl_mul_1_l so L).
Qed.
Lemma ug_unknown g p : (forall e, In e l -> carries io g e = false) -> ug g p = None.
Proof.
  intros N. destruct g as [d i|d i|m c i]; cbn [UFock.ug]; try now rewrite (gen_act_unknown io so sq half l _ _ N).
  destruct (pos io l (GBoson d i)) as [k|] eqn:P; auto. destruct (pos_site io l _ k P) as [e [E C]].
  rewrite (N e) in C; [discriminate|]. eapply nth_error_In; eauto.
Qed.
(** one step within the cutoff *)
Definition fits (g : gen I) (x : N) : Prop :=
  match g with GBoson true _ => forall k e, site io l g k e -> fld l x k e + 1 < es_dim e | _ => True end.
Lemma ug_fits g x : valid_state l x -> fits g x -> ug g (iota x) = up (gact l g x).
Proof.
  intros V F. destruct (site_or io l g) as [[k [e H]]|N].
  - destruct g as [d i|d i|m c i]; try (apply ug_other; [exact V|discriminate]).
    apply (ug_boson d i x k e V H). intros ->. now apply F.
  - rewrite (ug_unknown g _ N), (gen_act_unknown io so sq half l g _ N). reflexivity.
Qed.
Fixpoint safe (m : list (gen I)) (x : N) : Prop :=
  match m with [] => True | g :: t => safe t x /\ forall c y, mact l t x = Some (c, y) -> fits g y end.
Lemma mact_valid m x c y : valid_state l x -> mact l m x = Some (c, y) -> valid_state l y.
Proof. intros V E. eapply (mono_act_valid io Hio so sq half L l m); eauto. Qed.
Lemma umono_safe m x : valid_state l x -> safe m x -> umono m (iota x) = up (mact l m x).
Proof.
  intros V. induction m as [|g m IH]; cbn [umono safe mono_act]; [reflexivity|]. intros [Sm F].
  rewrite (IH Sm). destruct (mact l m x) as [[c y]|] eqn:E; cbn [up LOpSpec.obind]; auto.
  rewrite (ug_fits g y (mact_valid m x c y V E) (F c y eq_refl)).
  destruct (gact l g y) as [[k z]|]; reflexivity.
Qed.
Definition creator (g : gen I) : bool := match g with GBoson true _ => true | _ => false end.
Definition annihilator (g : gen I) : bool := match g with GBoson false _ => true | _ => false end.
Lemma safe_down m x : Forall (fun g => creator g = false) m -> safe m x.
Proof.
  induction 1 as [|g m h F IH]; cbn [safe]; auto. split; auto. intros c y _. destruct g as [|[|] i|]; cbn in *; auto. discriminate.
Qed.

(** states beyond the cutoff *)
Definition outr (p : ust) : Prop := exists k e, nth_error l k = Some e /\ isb e = true /\ es_dim e <= nth k (snd p) 0.
Lemma outr_not_iota p y : valid_state l y -> outr p -> p <> iota y.
Proof.
  intros V [k [e [E [ib h]]]] ->. rewrite (iota_num y k e E), ib in h. pose proof (valid_field l k e y V E). unfold fld in h. lia.
Qed.
Lemma outr_up g p c q : annihilator g = false -> uok p -> outr p -> ug g p = Some (c, q) -> outr q.
Proof.
  intros na [_ Ln] [k [e [E [ib h]]]] U. exists k, e. repeat (split; [assumption|]).
  destruct g as [d i|[|] i|m cc i]; cbn [UFock.ug annihilator] in *; try discriminate.
  - destruct (gact l _ _) as [[c' y]|]; [|discriminate]. injection U as <- <-. exact h.
  - destruct (pos io l (GBoson true i)) as [k'|] eqn:P; [|discriminate]. injection U as <- <-. cbn [snd].
    pose proof (pos_lt io l _ k' P) as hk'. destruct (Nat.eq_dec k' k) as [->|ne].
    + rewrite nth_setl by lia. lia.
    + now rewrite nth_setl_other.
  - destruct (gact l _ _) as [[c' y]|]; [|discriminate]. injection U as <- <-. exact h.
Qed.
Definition corner (o : option (S * N)) (o' : option (S * ust)) : Prop :=
  o' = up o \/ (o = None /\ exists c q, o' = Some (c, q) /\ uok q /\ outr q).
Lemma ug_corner g x : valid_state l x -> corner (gact l g x) (ug g (iota x)).
Proof.
  intros V. destruct (site_or io l g) as [[k [e H]]|N].
  2: { left. rewrite (ug_unknown g _ N), (gen_act_unknown io so sq half l g _ N). reflexivity. }
  destruct g as [d i|[|] i|m c i]; try (left; apply ug_other; [exact V|discriminate]).
  2: { left. apply (ug_boson false i x k e V H). discriminate. }
  destruct (N.lt_ge_cases (fld l x k e + 1) (es_dim e)) as [lt|ge].
  - left. apply (ug_boson true i x k e V H). auto.
  - right. pose proof H as [E C]. split.
    + rewrite (gen_act_loc io Hio so sq half L l _ k e _ S0 H). cbn [loc]. unfold fld in ge.
      destruct (N.ltb_spec (bit_field x (offset l k) (es_nbits e) + 1) (es_dim e)); [lia|reflexivity].
    + assert (ib : isb e = true) by (destruct e; cbn in C |- *; congruence).
      assert (hk : (k < length l)%nat) by (apply nth_error_Some; congruence).
      cbn [UFock.ug]. rewrite (site_pos io Hio l S0 _ k e H), (iota_num x k e E), ib. eexists _, _. split; [reflexivity|]. split.
      * split; [now apply iota_valid|]. cbn [snd]. now rewrite setl_length, iota_len.
      * exists k, e. cbn [snd]. rewrite nth_setl by (rewrite iota_len; exact hk). auto.
Qed.
Lemma umono_up m x : Forall (fun g => annihilator g = false) m -> valid_state l x -> corner (mact l m x) (umono m (iota x)).
Proof.
  intros F V. induction F as [|g m na F IH]; cbn [mono_act umono]; [left; reflexivity|].
  destruct IH as [IH|[IH [c [q [IH1 [IH2 IH3]]]]]].
  - rewrite IH. destruct (mact l m x) as [[c y]|] eqn:E; cbn [up LOpSpec.obind]; [|left; reflexivity].
    pose proof (mact_valid m x c y V E) as Vy.
    destruct (ug_corner g y Vy) as [U|[G [k [q [U [Uo Ur]]]]]].
    + rewrite U. destruct (gact l g y) as [[k z]|]; left; reflexivity.
    + rewrite G, U. right. split; auto. eexists _, _. split; [reflexivity|]. auto.
  - rewrite IH, IH1. cbn [LOpSpec.obind]. destruct (ug g q) as [[k r]|] eqn:U; [|left; reflexivity].
    right. split; auto. eexists _, _. split; [reflexivity|]. split.
    + exact (ug_ok io Hio so sq half LL l S0 W g q k r IH2 U).
    + exact (outr_up g q k r na IH2 IH3 U).
Qed.
Lemma canonical_split m : StronglySorted (gen_before_eq io) m ->
  exists a b, m = a ++ b /\ Forall (fun g => annihilator g = false) a /\ Forall (fun g => creator g = false) b.
Proof.
  induction 1 as [|g m Sm IH F].
  - exists [], []. auto.
  - destruct (annihilator g) eqn:A.
    + exists [], (g :: m). split; [reflexivity|]. split; [constructor|]. destruct g as [|[|] i|]; try discriminate.
      constructor; [reflexivity|]. eapply Forall_impl; [|exact F]. intros g' [<-|h]; [reflexivity|]. inversion h; reflexivity.
    + destruct IH as [a [b [-> [Ha Hb]]]]. exists (g :: a), b. split; [reflexivity|]. auto.
Qed.
Theorem umono_corner m x : canonical_mono io m -> valid_state l x -> corner (mact l m x) (umono m (iota x)).
Proof.
  intros [Sm _] V. destruct (canonical_split m Sm) as [a [b [-> [Ha Hb]]]].
  rewrite umono_app, (umono_safe b x V (safe_down b x Hb)). rewrite (mact_app io so L sq half l a b x).
  destruct (mact l b x) as [[c y]|] eqn:E; cbn [up LOpSpec.obind]; [|left; reflexivity].
  destruct (umono_up a y Ha (mact_valid b x c y V E)) as [U|[M [k [q [U Q]]]]].
  - rewrite U. destruct (mact l a y) as [[k z]|]; left; reflexivity.
  - rewrite U, M. right. split; auto. eexists _, _. split; [reflexivity|]. exact Q.
Qed.

(** matrix elements *)
Lemma ust_dec (p q : ust) : {p = q} + {p <> q}.
Proof. decide equality; [apply (list_eq_dec N.eq_dec)|apply N.eq_dec]. Qed.
Definition delta (y : N) (q : ust) : S := if ust_dec q (iota y) then s_one so else s_zero so.
Lemma papp_corner o o' y : (forall c z, o = Some (c, z) -> valid_state l z) -> valid_state l y -> corner o o' ->
  papp o' (delta y) = amp1 so o y.
Proof.
  intros Vo V [->|[-> [c [q [-> [_ Q]]]]]].
  - destruct o as [[c z]|]; cbn [up papp amp1]; auto. unfold UFock.papp, delta. destruct (ust_dec (iota z) (iota y)) as [e|ne].
    + apply (iota_inj z y (Vo c z eq_refl) V) in e. subst z. now rewrite N.eqb_refl, (sl_mul_1_r so L).
    + destruct (N.eqb_spec z y) as [->|]; [congruence|]. apply (mul_0_r so L).
  - unfold UFock.papp, delta. cbn [amp1]. destruct (ust_dec q (iota y)) as [e|_]; [|apply (mul_0_r so L)].
    destruct (outr_not_iota q y V Q e).
Qed.
Theorem mel_uexpr e y x : (forall m c, In (m, c) e -> canonical_mono io m) -> valid_state l y -> valid_state l x ->
  mel io so sq half l e y x = uexpr e (delta y) (iota x).
Proof.
  intros C Vy Vx. induction e as [|[m c] e IH]; cbn [mel uexpr]; auto.
  rewrite IH by (intros m' c' i; apply (C m' c'); now right). f_equal. f_equal. symmetry.
  apply papp_corner; auto.
  - intros k z E. eapply mact_valid; eauto.
  - apply umono_corner; auto. apply (C m c). now left.
Qed.
End Link.
