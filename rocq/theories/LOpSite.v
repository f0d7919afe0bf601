(** Bit fields, sites of generators, and the action of single generators. *)
From Coq Require Import NArith ZArith List Bool Sorted Permutation Lia.
From Verif Require Import BitsModel BitsSpec BitsProofs ExprModel ExprSpec ExprOrder HSModel HSSpec HSEnum
  HSProofs HSMain PropHS LOpModel LOpSpec LOpFermion.
Import ListNotations.
Open Scope N_scope.
Open Scope list_scope.

(** ** Fields *)
Lemma split_bits a b o i : a < 2 ^ N.of_nat o ->
  tb (a + 2 ^ N.of_nat o * b) i = if Nat.ltb i o then tb a i else tb b (i - o).
Proof.
  intros h. assert (P : 2 ^ N.of_nat o <> 0) by (apply N.pow_nonzero; discriminate).
  assert (M : (a + 2 ^ N.of_nat o * b) mod 2 ^ N.of_nat o = a).
  { rewrite N.mul_comm, N.mod_add by auto. now apply N.mod_small. }
  assert (D : (a + 2 ^ N.of_nat o * b) / 2 ^ N.of_nat o = b).
  { rewrite N.mul_comm, N.div_add by auto. rewrite N.div_small by auto. lia. }
  destruct (Nat.ltb_spec i o).
  - rewrite <- M at 2. now rewrite N.mod_pow2_bits_low by lia.
  - rewrite <- D at 2. rewrite N.div_pow2_bits. f_equal. lia.
Qed.
Lemma bit_field_bits x o n i : tb (bit_field x o n) i = Nat.ltb i n && tb x (i + o).
Proof.
  unfold bit_field. destruct (Nat.ltb_spec i n).
  - rewrite N.mod_pow2_bits_low by lia. rewrite N.shiftr_spec'. cbn [andb]. f_equal. lia.
  - now rewrite N.mod_pow2_bits_high by lia.
Qed.
Lemma bit_field_lt x o n : bit_field x o n < 2 ^ N.of_nat n.
Proof. apply N.mod_lt. apply N.pow_nonzero. discriminate. Qed.
Lemma bit_field_ext x y o n : (forall i, (o <= i < o + n)%nat -> tb x i = tb y i) -> bit_field x o n = bit_field y o n.
Proof.
  intros H. apply testbit_nat_ext. intros i. rewrite !bit_field_bits.
  destruct (Nat.ltb_spec i n); cbn; auto. apply H. lia.
Qed.
Lemma set_field_bits x o n v i : v < 2 ^ N.of_nat n ->
  tb (set_field x o n v) i =
  if Nat.ltb i o then tb x i else if Nat.ltb i (o + n) then tb v (i - o) else tb x i.
Proof.
  intros h. unfold set_field. rewrite split_bits by (apply N.mod_lt, N.pow_nonzero; discriminate).
  destruct (Nat.ltb_spec i o).
  - now rewrite N.mod_pow2_bits_low by lia.
  - rewrite split_bits by auto. destruct (Nat.ltb_spec (i - o) n), (Nat.ltb_spec i (o + n)); try lia; auto.
    rewrite N.div_pow2_bits. f_equal. lia.
Qed.
Lemma bit_field_set x o n v : v < 2 ^ N.of_nat n -> bit_field (set_field x o n v) o n = v.
Proof.
  intros h. apply testbit_nat_ext. intros i. rewrite bit_field_bits, set_field_bits by auto.
  destruct (Nat.ltb_spec i n).
  - destruct (Nat.ltb_spec (i + o) o), (Nat.ltb_spec (i + o) (o + n)); try lia. cbn. f_equal. lia.
  - cbn. symmetry. apply bits_lt_pow with (k := N.of_nat n); auto. lia.
Qed.
Lemma bit_field_set_other x o n v o' n' : v < 2 ^ N.of_nat n -> (o + n <= o' \/ o' + n' <= o)%nat ->
  bit_field (set_field x o n v) o' n' = bit_field x o' n'.
Proof.
  intros h D. apply bit_field_ext. intros i hi. rewrite set_field_bits by auto.
  destruct (Nat.ltb_spec i o), (Nat.ltb_spec i (o + n)); auto; lia.
Qed.
Lemma set_field_set x o n v w : v < 2 ^ N.of_nat n -> w < 2 ^ N.of_nat n ->
  set_field (set_field x o n v) o n w = set_field x o n w.
Proof.
  intros hv hw. apply testbit_nat_ext. intros i. rewrite !set_field_bits by auto.
  destruct (Nat.ltb_spec i o), (Nat.ltb_spec i (o + n)); auto.
Qed.
Lemma set_field_comm x o n v o' n' w : v < 2 ^ N.of_nat n -> w < 2 ^ N.of_nat n' ->
  (o + n <= o' \/ o' + n' <= o)%nat ->
  set_field (set_field x o n v) o' n' w = set_field (set_field x o' n' w) o n v.
Proof.
  intros hv hw D. apply testbit_nat_ext. intros i. rewrite !set_field_bits by auto.
  destruct (Nat.ltb_spec i o), (Nat.ltb_spec i (o + n)), (Nat.ltb_spec i o'), (Nat.ltb_spec i (o' + n')); auto; lia.
Qed.
Lemma set_field_same x o n : set_field x o n (bit_field x o n) = x.
Proof.
  apply testbit_nat_ext. intros i. rewrite set_field_bits by apply bit_field_lt.
  destruct (Nat.ltb_spec i o), (Nat.ltb_spec i (o + n)); auto. rewrite bit_field_bits.
  destruct (Nat.ltb_spec (i - o) n); try lia. cbn. f_equal. lia.
Qed.
Lemma field_decomp x o n :
  x = x mod 2 ^ N.of_nat o + 2 ^ N.of_nat o * (bit_field x o n + 2 ^ N.of_nat n * (x / 2 ^ N.of_nat (o + n))).
Proof. symmetry. exact (set_field_same x o n). Qed.
(** arithmetic on a field *)
Lemma field_shift x o n v : Z.of_N (set_field x o n v) =
  (Z.of_N x + (Z.of_N v - Z.of_N (bit_field x o n)) * 2 ^ Z.of_nat o)%Z.
Proof.
  rewrite (field_decomp x o n) at 2. unfold set_field.
  rewrite !N2Z.inj_add, !N2Z.inj_mul, !N2Z.inj_add, !N2Z.inj_pow. rewrite nat_N_Z. change (Z.of_N 2) with 2%Z. ring.
Qed.
Lemma set_field_bound x o n v b : v < 2 ^ N.of_nat n -> (o + n <= b)%nat -> x < 2 ^ N.of_nat b ->
  set_field x o n v < 2 ^ N.of_nat b.
Proof.
  intros hv hb hx. apply bits_lt_pow. intros i hi. rewrite <- (N2Nat.id i), set_field_bits by auto.
  rewrite N2Nat.id. destruct (Nat.ltb_spec (N.to_nat i) o), (Nat.ltb_spec (N.to_nat i) (o + n)); try lia.
  eapply bits_lt_pow; eauto.
Qed.
Lemma setbit_field x o : N.setbit x (N.of_nat o) = set_field x o 1 1.
Proof.
  apply testbit_nat_ext. intros i. rewrite set_field_bits by reflexivity. rewrite N.setbit_eqb.
  destruct (Nat.ltb_spec i o), (Nat.ltb_spec i (o + 1)), (N.eqb_spec (N.of_nat o) (N.of_nat i)); cbn; auto; try lia.
  replace (i - o)%nat with 0%nat by lia. reflexivity.
Qed.
Lemma clearbit_field x o : N.clearbit x (N.of_nat o) = set_field x o 1 0.
Proof.
  apply testbit_nat_ext. intros i. rewrite set_field_bits by reflexivity. rewrite N.clearbit_eqb.
  destruct (Nat.ltb_spec i o), (Nat.ltb_spec i (o + 1)), (N.eqb_spec (N.of_nat o) (N.of_nat i));
    rewrite ?andb_true_r, ?andb_false_r; auto; try lia.
Qed.
Lemma bit_field_1 x o : bit_field x o 1 = if tb x o then 1 else 0.
Proof.
  apply testbit_nat_ext. intros i. rewrite bit_field_bits. destruct (Nat.ltb_spec i 1).
  - replace i with 0%nat by lia. rewrite Nat.add_0_l. now destruct (tb x o).
  - cbn. destruct (tb x o).
    + symmetry. apply bits_lt_pow with (k := 1); [reflexivity|lia].
    + symmetry. apply N.bits_0.
Qed.
(** the code's way to read a field *)
Lemma code_field x o nb : (nb <= 63)%nat ->
  N.land (N.shiftr x (N.of_nat o)) (sub64 (w64 (N.shiftl 1 (N.of_nat nb))) 1) = bit_field x o nb.
Proof.
  intros h. rewrite N.shiftl_1_l, w64_small by (apply N.pow_lt_mono_r; lia).
  pose proof (pow_pos nb). rewrite sub64_ge; [|unfold u64; apply N.pow_lt_mono_r; lia|lia].
  unfold bit_field. rewrite <- N.land_ones. f_equal. rewrite N.ones_equiv. lia.
Qed.

(** ** Validity *)
Section Valid.
Context {I : Type}.
Notation es := (espace I).
Lemma valid_update (l : list es) k e x v : Forall es_wf l -> valid_state l x -> nth_error l k = Some e ->
  v < es_dim e -> valid_state l (set_field x (offset l k) (es_nbits e) v).
Proof.
  intros W [hx Vx] E hv.
  assert (we : es_wf e) by (rewrite Forall_forall in W; apply W; eapply nth_error_In; eauto).
  assert (hv2 : v < 2 ^ N.of_nat (es_nbits e)) by (eapply N.lt_le_trans; [exact hv|now apply dim_le]).
  split.
  - apply set_field_bound; auto. rewrite <- (offset_S l k e E). apply offset_total.
  - intros k' e' E'. destruct (Nat.eq_dec k k') as [<-|ne].
    + rewrite E in E'. inversion E'; subst. now rewrite bit_field_set.
    + rewrite bit_field_set_other; auto.
      rewrite <- (offset_S l k e E), <- (offset_S l k' e' E').
      destruct (Nat.lt_ge_cases k k').
      * left. now apply offset_mono.
      * right. apply offset_mono. lia.
Qed.
Lemma valid_field (l : list es) k e x : valid_state l x -> nth_error l k = Some e ->
  bit_field x (offset l k) (es_nbits e) < es_dim e.
Proof. intros [_ V] E. now apply V. Qed.
End Valid.

(** ** Sites *)
Section Sites.
Context {I : Type} (io : index_ops I) (Hio : index_order io).
Notation es := (espace I).
Notation sorted l := (StronglySorted (es_before io) l).

(** the space looked up by the code *)
Definition gslot (g : gen I) : es :=
  match g with GFermion _ i => ESFermion i | GBoson _ i => ESBoson 1 i | GSpin m _ i => ESSpin m i end.
Lemma carries_slot g e : carries io g e = true <-> same_slot e (gslot g).
Proof.
  destruct Hio as [EQ _ _ _ _].
  destruct g as [d i|d i|m c i], e as [j|d' j|m' j]; cbn; split; intros H; try discriminate; try (inversion H; fail).
  - apply EQ in H. subst. constructor.
  - inversion H; subst. now apply EQ.
  - apply EQ in H. subst. constructor.
  - inversion H; subst. now apply EQ.
  - apply andb_true_iff in H. destruct H as [H1 H2]. apply Nat.eqb_eq in H1. apply EQ in H2. subst. constructor.
  - inversion H; subst. apply andb_true_iff. split; [apply Nat.eqb_refl|now apply EQ].
Qed.
(** e of slot g sits at position k *)
Definition site (l : list es) (g : gen I) (k : nat) (e : es) : Prop :=
  nth_error l k = Some e /\ carries io g e = true.
Lemma find_site_gen (l : list es) g : forall s,
  match find_site io l s g with
  | Some (o, e) => exists k, site l g k e /\ o = (s + offset l k)%nat
  | None => forall e, In e l -> carries io g e = false
  end.
Proof.
  induction l as [|x t IH]; intros s; cbn [find_site].
  - intros e [].
  - destruct (carries io g x) eqn:C.
    + exists 0%nat. split; [split; auto|]. unfold offset; cbn. lia.
    + specialize (IH (s + es_nbits x)%nat). destruct (find_site io t (s + es_nbits x) g) as [[o e]|].
      * destruct IH as [k [[E1 E2] ->]]. exists (S k). split; [split; auto|].
        unfold offset; cbn [firstn total_bits]. lia.
      * intros e [<-|h]; auto.
Qed.
Lemma site_unique (l : list es) g k e k' e' : sorted l -> site l g k e -> site l g k' e' -> k = k' /\ e = e'.
Proof.
  intros S [E C] [E' C']. apply carries_slot in C, C'.
  assert (SS : same_slot e e').
  { destruct g; inversion C; subst; inversion C'; subst; constructor. }
  destruct (sorted_slot_unique io Hio l S k k' e e' E E' SS) as [-> ->]. auto.
Qed.
Lemma find_site_iff (l : list es) g o e : sorted l ->
  (find_site io l 0 g = Some (o, e) <-> exists k, site l g k e /\ o = offset l k).
Proof.
  intros S. pose proof (find_site_gen l g 0) as H. split.
  - intros E. rewrite E in H. destruct H as [k [h1 ->]]. exists k. auto.
  - intros [k [h1 ->]]. destruct (find_site io l 0 g) as [[o' e']|].
    + destruct H as [k' [h2 ->]]. destruct (site_unique l g k e k' e' S h1 h2) as [-> ->]. reflexivity.
    + exfalso. destruct h1 as [h1 h2]. rewrite (H e) in h2; [discriminate|]. eapply nth_error_In; eauto.
Qed.
Lemma site_model (h : hspace I) g : hs_inv io h ->
  match find_site io (spaces h) 0 g with
  | Some (o, e) => hs_bit_range io h (gslot g) = Some (Z.of_nat o, Z.of_nat o + Z.of_nat (es_nbits e) - 1)%Z /\
                   hs_es_dim io h (gslot g) = Some (es_dim e) /\
                   exists k, site (spaces h) g k e /\ o = offset (spaces h) k
  | None => hs_bit_range io h (gslot g) = None /\ hs_es_dim io h (gslot g) = None
  end.
Proof.
  intros Hi. pose proof Hi as [S [W [P _]]].
  pose proof (es_find_spec io Hio (gslot g) (hs_es h)) as F. fold (spaces h) in F. specialize (F S).
  pose proof (find_site_gen (spaces h) g 0) as G.
  unfold hs_bit_range, hs_es_dim. destruct (find_site io (spaces h) 0 g) as [[o e]|].
  - destruct G as [k [[E C] ->]]. cbn [Nat.add].
    destruct (es_find io (gslot g) (hs_es h)) as [[[k' x] r]|].
    + destruct F as [F1 F2].
      assert (E' : nth_error (spaces h) k' = Some x).
      { unfold spaces. erewrite map_nth_error; [|exact F1]. reflexivity. }
      assert (C' : carries io g x = true) by (now apply carries_slot).
      destruct (site_unique _ g k e k' x S (conj E C) (conj E' C')) as [<- <-].
      rewrite P in F1. rewrite (place_nth _ _ _ _ E) in F1. inversion F1; subst. cbn.
      split; [|split; [auto|exists k; split; [split; auto|auto]]]. f_equal.
    + exfalso. apply (F e); [eapply nth_error_In; eauto|now apply carries_slot].
  - destruct (es_find io (gslot g) (hs_es h)) as [[[k' x] r]|]; [|cbn; auto].
    destruct F as [F1 F2]. exfalso.
    assert (C' : carries io g x = true) by (now apply carries_slot).
    rewrite G in C'; [discriminate|]. apply in_map_iff. exists (x, r). split; auto. eapply nth_error_In; eauto.
Qed.
(** fields of different sites are disjoint *)
Lemma sites_disjoint (l : list es) k e k' e' : nth_error l k = Some e -> nth_error l k' = Some e' -> k <> k' ->
  (offset l k + es_nbits e <= offset l k' \/ offset l k' + es_nbits e' <= offset l k)%nat.
Proof.
  intros E E' ne. rewrite <- (offset_S l k e E), <- (offset_S l k' e' E').
  destruct (Nat.lt_ge_cases k k'); [left|right]; apply offset_mono; lia.
Qed.
End Sites.

Notation "x '<N' n" := (x < 2 ^ N.of_nat n) (at level 70).

(** ** Single generators: a uniform description *)
Section Local.
Context {I S : Type} (io : index_ops I) (Hio : index_order io) (so : scalar_ops S) (sq : N -> S) (half : Z -> S).
Notation es := (espace I).

Definition loc (g : gen I) (e : es) (n : N) : option (S * N) :=
  match g with
  | GFermion true _ => if n =? 0 then Some (s_one so, 1) else None
  | GFermion false _ => if n =? 1 then Some (s_one so, 0) else None
  | GBoson true _ => if n + 1 <? es_dim e then Some (sq (n + 1), n + 1) else None
  | GBoson false _ => if n =? 0 then None else Some (sq n, n - 1)
  | GSpin mult Plus _ => if n + 1 <? N.of_nat mult then Some (sq ((N.of_nat mult - 1 - n) * (n + 1)), n + 1) else None
  | GSpin mult Minus _ => if n =? 0 then None else Some (sq ((N.of_nat mult - n) * n), n - 1)
  | GSpin mult Zcomp _ => Some (half (2 * Z.of_N n - (Z.of_nat mult - 1)), n)
  end.
Definition is_f (g : gen I) : bool := match g with GFermion _ _ => true | _ => false end.
Definition jwf (g : gen I) (o : nat) (x : N) : S := if is_f g then sign so (par x o) else s_one so.

Lemma carries_dim g e mult c i : g = GSpin mult c i -> carries io g e = true -> es_dim e = N.of_nat mult.
Proof. intros -> C. apply (carries_slot io Hio) in C. inversion C; subst. reflexivity. Qed.
Lemma carries_f d i e : carries io (GFermion d i) e = true -> e = ESFermion i.
Proof. intros C. apply (carries_slot io Hio) in C. inversion C; subst. reflexivity. Qed.

Lemma loc_dim g e n k n' : carries io g e = true -> n < es_dim e -> loc g e n = Some (k, n') -> n' < es_dim e.
Proof.
  intros C hn L. destruct g as [d i|d i|m c i].
  - apply carries_f in C. subst e. cbn in *. destruct d; [destruct (N.eqb_spec n 0)|destruct (N.eqb_spec n 1)]; inversion L; subst; lia.
  - cbn [loc] in L. destruct d.
    + destruct (N.ltb_spec (n + 1) (es_dim e)); inversion L; subst; auto.
    + destruct (N.eqb_spec n 0); inversion L; subst; lia.
  - rewrite (carries_dim _ _ m c i eq_refl C) in *. cbn [loc] in L. destruct c.
    + destruct (N.ltb_spec (n + 1) (N.of_nat m)); inversion L; subst; auto.
    + destruct (N.eqb_spec n 0); inversion L; subst; lia.
    + inversion L; subst; lia.
Qed.

Lemma gen_act_loc (L : scalar_laws so) (l : list es) g k e x : StronglySorted (es_before io) l -> site io l g k e ->
  gen_act io so sq half l g x =
  match loc g e (bit_field x (offset l k) (es_nbits e)) with
  | None => None
  | Some (c, n') => Some (s_mul so (jwf g (offset l k) x) c, set_field x (offset l k) (es_nbits e) n')
  end.
Proof.
  intros S0 H. assert (F : find_site io l 0 g = Some (offset l k, e)).
  { apply find_site_iff; auto. exists k. auto. }
  unfold gen_act. rewrite F. destruct H as [E C].
  unfold jwf. destruct g as [d i|d i|m c i]; cbn [is_f loc].
  - apply carries_f in C. subst e. cbn [es_nbits]. rewrite par_weight.
    destruct d.
    + destruct (_ =? 0); auto. now rewrite setbit_field, (sl_mul_1_r so L).
    + destruct (_ =? 1); auto. now rewrite clearbit_field, (sl_mul_1_r so L).
  - destruct d; [destruct (_ <? _)|destruct (_ =? 0)]; auto; now rewrite (sl_mul_1_l so L).
  - destruct c; [destruct (_ <? _)|destruct (_ =? 0)|]; auto; rewrite (sl_mul_1_l so L); auto.
    now rewrite set_field_same.
Qed.
Lemma gen_act_unknown (l : list es) g x : (forall e, In e l -> carries io g e = false) ->
  gen_act io so sq half l g x = None.
Proof.
  intros H. unfold gen_act. pose proof (find_site_gen io l g 0) as F.
  destruct (find_site io l 0 g) as [[o e]|]; auto. destruct F as [k [[E C] _]].
  rewrite H in C; [discriminate|]. eapply nth_error_In; eauto.
Qed.
Lemma site_or (l : list es) g : (exists k e, site io l g k e) \/ (forall e, In e l -> carries io g e = false).
Proof.
  pose proof (find_site_gen io l g 0) as F. destruct (find_site io l 0 g) as [[o e]|]; auto.
  destruct F as [k [h _]]. left. eauto.
Qed.
Lemma gen_act_valid (L : scalar_laws so) (l : list es) g x c y : StronglySorted (es_before io) l -> Forall es_wf l ->
  valid_state l x -> gen_act io so sq half l g x = Some (c, y) -> valid_state l y.
Proof.
  intros S0 W V E. destruct (site_or l g) as [[k [e H]]|H].
  - rewrite (gen_act_loc L l g k e x S0 H) in E.
    destruct (loc g e (bit_field x (offset l k) (es_nbits e))) as [[c' n']|] eqn:EL; [|discriminate].
    inversion E; subst. destruct H as [E1 C]. apply valid_update; auto.
    eapply loc_dim; eauto. eapply valid_field; eauto.
  - rewrite gen_act_unknown in E by auto. discriminate.
Qed.
Lemma mono_act_valid (L : scalar_laws so) (l : list es) m : StronglySorted (es_before io) l -> Forall es_wf l ->
  forall x c y, valid_state l x -> mono_act io so sq half l m x = Some (c, y) -> valid_state l y.
Proof.
  intros S0 W. induction m as [|g m IH]; intros x c y V E; cbn [mono_act] in E.
  - inversion E; subst. auto.
  - unfold obind in E. destruct (mono_act io so sq half l m x) as [[c1 y1]|] eqn:E1; [|discriminate].
    destruct (gen_act io so sq half l g y1) as [[c2 y2]|] eqn:E2; [|discriminate]. inversion E; subst.
    apply (gen_act_valid L l g y1 c2 y); auto. eapply IH; eauto.
Qed.

(** fermionic sites come first *)
Lemma fermion_first (l : list es) g k e g' k' e' : StronglySorted (es_before io) l ->
  site io l g k e -> site io l g' k' e' -> is_f g = true -> is_f g' = false ->
  (offset l k + es_nbits e <= offset l k')%nat.
Proof.
  intros S0 [E C] [E' C'] F F'. destruct g as [d i| |]; try discriminate. apply carries_f in C. subst e.
  rewrite <- (offset_S l k _ E). apply offset_mono.
  destruct (Nat.lt_trichotomy k k') as [h|[h|h]]; auto.
  - subst k'. rewrite E in E'. inversion E'; subst. destruct g'; cbn in *; discriminate.
  - exfalso. assert (BB : es_before io e' (ESFermion i)).
    { clear -S0 E E' h. revert k k' E E' h. induction S0 as [|x t S IH F]; intros [|k] [|k'] E E' h; cbn in *; try discriminate; try lia.
      - inversion E'; subst. rewrite Forall_forall in F. apply F. eapply nth_error_In; eauto.
      - eapply IH; eauto. lia. }
    apply (carries_slot io Hio) in C'. destruct g'; cbn in F'; try discriminate; inversion C'; subst; inversion BB.
Qed.
End Local.
