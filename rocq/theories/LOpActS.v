(** The bosonic and spin actions, continued. *)
From Coq Require Import NArith ZArith List Bool Sorted Permutation Lia Psatz.
From Verif Require Import BitsModel BitsSpec BitsProofs ExprModel ExprSpec ExprOrder HSModel HSSpec HSEnum
  HSProofs HSMain PropHS LOpModel LOpSpec LOpFermion LOpSite LOpActF LOpActB.
Import ListNotations.
Open Scope N_scope.
Open Scope list_scope.


Lemma spin_ss_bound (m : nat) a b : a + b = N.of_nat m -> a * b <= spin_ss m.
Proof.
  intros H. unfold spin_ss. rewrite <- H. destruct (N.even (a + b)) eqn:Ev.
  - apply N.even_spec in Ev. destruct Ev as [c Hc]. rewrite Hc.
    replace (2 * c) with (c * 2) by lia. rewrite N.div_mul by lia.
    assert (a <= c \/ b <= c) as [h|h] by lia; [replace b with (2 * c - a) by lia|replace a with (2 * c - b) by lia]; nia.
  - assert (Od : N.odd (a + b) = true) by (rewrite <- N.negb_even, Ev; reflexivity).
    apply N.odd_spec in Od. destruct Od as [c Hc]. rewrite Hc.
    replace ((2 * c + 1) * (2 * c + 1) - 1) with ((c * c + c) * 4) by nia. rewrite N.div_mul by lia.
    assert (a <= c \/ b <= c) as [h|h] by lia; [replace b with (2 * c + 1 - a) by lia|replace a with (2 * c + 1 - b) by lia]; nia.
Qed.

Lemma Forall2_weaken {A B} (P Q : A -> B -> Prop) a b : (forall x y, P x y -> Q x y) -> Forall2 P a b -> Forall2 Q a b.
Proof. intros H. induction 1; constructor; auto. Qed.

Section ActS.
Context {I S : Type} (io : index_ops I) (Hio : index_order io).
Context (so : scalar_ops S) (L : scalar_laws so) (sq : N -> S) (half : Z -> S).
Context (H0 : half 0%Z = s_zero so).
Notation es := (espace I).
Notation gact := (gen_act io so sq half).
Notation mact := (mono_act io so sq half).
Notation bnd := (obind so).
Notation impl := (implements io so sq half).

Theorem boson_correct (h : hspace I) m a : hs_inv io h -> boson_make io h m = LOk a ->
  impl (spaces h) (boson_act so sq a) m.
Proof.
  intros Hi E. pose proof Hi as [S0 [W [P [_ [B63 _]]]]]. unfold boson_make in E.
  pose proof (boson_loop_spec io Hio sq half h m Hi 1 0 [] ltac:(lia) ltac:(auto)) as BL. cbv zeta in BL.
  rewrite pre_1 in BL. cbn [app] in BL.
  destruct (boson_loop io h m 1 0 []) as [[[ups size] [|]]|g| |]; try discriminate; cbn [lbind] in E; inversion E; subst a; clear E.
  - destruct BL as [a [d [i [p [k [e [rest [-> [St [hp [hp1 F]]]]]]]]]]].
    intros x c V. right. unfold boson_act; cbn [ba_vanishing]. split; auto. intros y.
    rewrite !(mact_app io so L).
    destruct (mact (spaces h) rest x) as [[c1 y1]|] eqn:E1; cbn [obind]; auto.
    assert (V1 : valid_state (spaces h) y1) by (eapply mono_act_valid; eauto).
    rewrite (boson_power_vanishes io Hio so L sq half (spaces h) d i k e p y1 S0 W St V1 hp). reflexivity.
  - destruct BL as [grps [us [-> [hs [-> F]]]]]. cbn [app].
    unfold boson_act; cbn [ba_vanishing ba_updates ba_sqrt].
    destruct us as [|u us]; [inversion F; subst; cbn; apply (implements_nil io so L)|].
    remember (u :: us) as us' eqn:Eus.
    apply (implements_groups io Hio so L sq half); auto.
    subst us'. clear -F S0 W B63 Hio L.
    eapply Forall2_weaken; [|exact F]. intros gp v Hb. unfold max_sqrt.
    now apply (boson_update_correct io Hio so L).
Qed.

(** *** spins *)
Definition su_ok (l : list es) (size : N) (gp : gen I * N) (u : spin_update) : Prop :=
  exists mult c i k e, fst gp = GSpin mult c i /\ site io l (fst gp) k e /\
  1 <= snd gp /\ spin_ss mult + 1 <= size /\
  u = mk_su (N.of_nat mult - 1) (Z.of_nat (offset l k)) (sub64 (w64 (N.shiftl 1 (N.of_nat (es_nbits e)))) 1) c (snd gp).

Lemma su_ok_mono l size size' gp u : size <= size' -> su_ok l size gp u -> su_ok l size' gp u.
Proof.
  intros h [m [c [i [k [e [E1 [E2 [E3 [E4 E5]]]]]]]]]. exists m, c, i, k, e. repeat split; auto; try apply E2. lia.
Qed.

Lemma in_zrange a k : In a (zrange k) -> a < N.of_nat k.
Proof. unfold zrange. intros h. apply in_map_iff in h. destruct h as [r [<- hr]]. apply in_seq in hr. lia. Qed.

Lemma spin_update_correct l size gp u : StronglySorted (es_before io) l -> Forall es_wf l -> Forall int_mult l -> (total_bits l <= 63)%nat ->
  su_ok l size gp u -> impl l (spin_update_act so sq half (N.min size 128) u) (grp gp).
Proof.
  intros S0 W IM B [mult [c0 [i [k [e [Eg [St [hp1 [hs ->]]]]]]]]] x c V.
  destruct gp as [g p]; cbn [fst snd] in *. subst g. unfold grp; cbn [fst snd].
  pose proof (valid_field l k e x V (proj1 St)) as hn.
  rewrite (carries_dim io Hio (GSpin mult c0 i) e mult c0 i eq_refl (proj2 St)) in hn.
  assert (hnb : (es_nbits e <= 63)%nat).
  { pose proof (offset_S _ _ _ (proj1 St)). pose proof (offset_total l (Datatypes.S k)). lia. }
  assert (hm : N.of_nat mult < 2 ^ 31).
  { rewrite Forall_forall in IM. specialize (IM e (nth_error_In _ _ (proj1 St))). destruct St as [_ C].
    destruct e; cbn in C; try discriminate. cbn in IM. apply andb_prop in C. destruct C as [C _]. apply Nat.eqb_eq in C. now subst. }
  unfold spin_update_act; cbn [su_s2 su_shift su_mask su_c su_power].
  replace (Z.to_N (Z.of_nat (offset l k))) with (N.of_nat (offset l k)) by lia.
  rewrite code_field by auto.
  assert (hx : x < 2 ^ 63).
  { destruct V as [V _]. eapply N.lt_le_trans; [exact V|]. apply N.pow_le_mono_r; lia. }
  assert (D63 : 2 ^ 63 < 2 ^ 64) by reflexivity.
  assert (TB : forall v, v < N.of_nat mult -> set_field x (offset l k) (es_nbits e) v < 2 ^ 63).
  { intros v hv. change (2 ^ 63) with (2 ^ N.of_nat 63). apply set_field_bound; auto.
    - eapply (lad_lt io l W (GSpin mult c0 i) k e St). now rewrite (carries_dim io Hio (GSpin mult c0 i) e mult c0 i eq_refl (proj2 St)).
    - rewrite <- (offset_S l k e (proj1 St)). pose proof (offset_total l (Datatypes.S k)). lia. }
  pose proof (field_shift x (offset l k) (es_nbits e)) as FS.
  set (n := bit_field x (offset l k) (es_nbits e)) in *.
  assert (DE : es_dim e = N.of_nat mult) by (exact (carries_dim io Hio (GSpin mult c0 i) e mult c0 i eq_refl (proj2 St))).
  assert (ZP : (2 ^ Z.of_nat (offset l k))%Z = Z.of_N (2 ^ N.of_nat (offset l k))) by (rewrite N2Z.inj_pow, nat_N_Z; reflexivity).
  destruct c0.
  - (* Plus *)
    rewrite (ladder_up io Hio so L sq half l S0 W _ k e St eq_refl (fun n => (N.of_nat mult - 1 - n) * (n + 1))) by (auto; intros; cbn [loc]; now rewrite DE).
    fold n. rewrite N2Nat.id, DE.
    destruct (N.ltb_spec (N.of_nat mult - 1) (n + p)) as [h|h], (N.ltb_spec (n + p) (N.of_nat mult)) as [h2|h2]; try lia.
    + right. auto.
    + left. do 2 eexists. split; [reflexivity|].
      rewrite mul_roots_ok with (1 := L).
      * f_equal.
        -- f_equal. f_equal. apply map_ext_in. intros a ha. apply in_zrange in ha.
           rewrite sub64_ge by (unfold u64; lia). apply w64_small.
           assert ((N.of_nat mult - 1 - (n + a)) * (n + a + 1) <= 2 ^ 31 * 2 ^ 31) by (apply N.mul_le_mono; lia). lia.
        -- rewrite N.shiftl_mul_pow2. specialize (FS (n + p)). specialize (TB (n + p) h2). rewrite ZP in FS.
           set (Q := 2 ^ N.of_nat (offset l k)) in *. set (T := set_field _ _ _ _) in *.
           assert (ET : T = x + p * Q) by (clear -FS; nia). rewrite (w64_small (p * Q)) by lia. rewrite <- ET. apply w64_small. lia.
      * rewrite Forall_forall. intros a ha. apply in_map_iff in ha. destruct ha as [q [<- hq]]. apply in_zrange in hq.
        rewrite sub64_ge by (unfold u64; lia).
        assert ((N.of_nat mult - 1 - (n + q)) * (n + q + 1) <= 2 ^ 31 * 2 ^ 31) by (apply N.mul_le_mono; lia).
        rewrite w64_small by lia.
        assert ((N.of_nat mult - 1 - (n + q)) * (n + q + 1) <= spin_ss mult) by (apply spin_ss_bound; lia). lia.
  - (* Minus *)
    rewrite (ladder_down io Hio so L sq half l S0 W _ k e St eq_refl (fun n => (N.of_nat mult - n) * n)) by (auto; intros; reflexivity).
    fold n. rewrite N2Nat.id.
    destruct (N.ltb_spec n p) as [h|h], (N.leb_spec p n) as [h2|h2]; try lia.
    + right. auto.
    + left. do 2 eexists. split; [reflexivity|].
      rewrite mul_roots_ok with (1 := L).
      * f_equal.
        -- f_equal. f_equal. apply map_ext_in. intros a ha. apply in_zrange in ha.
           rewrite sub64_ge by (unfold u64; lia).
           replace (N.of_nat mult - 1 - (n - a) + 1) with (N.of_nat mult - (n - a)) by lia. apply w64_small.
           assert ((N.of_nat mult - (n - a)) * (n - a) <= 2 ^ 31 * 2 ^ 31) by (apply N.mul_le_mono; lia). lia.
        -- rewrite N.shiftl_mul_pow2. specialize (FS (n - p)). rewrite ZP in FS.
           set (Q := 2 ^ N.of_nat (offset l k)) in *. set (T := set_field _ _ _ _) in *.
           assert (ET : x = T + p * Q) by (clear -FS h2; nia). clearbody T. clear FS. rewrite (w64_small (p * Q)) by lia.
           rewrite sub64_ge by (unfold u64; lia). lia.
      * rewrite Forall_forall. intros a ha. apply in_map_iff in ha. destruct ha as [q [<- hq]]. apply in_zrange in hq.
        rewrite sub64_ge by (unfold u64; lia).
        replace (N.of_nat mult - 1 - (n - q) + 1) with (N.of_nat mult - (n - q)) by lia.
        assert ((N.of_nat mult - (n - q)) * (n - q) <= 2 ^ 31 * 2 ^ 31) by (apply N.mul_le_mono; lia).
        rewrite w64_small by lia.
        assert ((N.of_nat mult - (n - q)) * (n - q) <= spin_ss mult) by (apply spin_ss_bound; lia). lia.
  - (* Z *)
    rewrite (ladder_diag io Hio so L sq half l S0 _ k e St eq_refl (fun n => half (2 * Z.of_N n - (Z.of_nat mult - 1)))) by (intros; reflexivity).
    fold n.
    assert (EZ : (2 * Z.of_N n - Z.of_N (N.of_nat mult - 1))%Z = (2 * Z.of_N n - (Z.of_nat mult - 1))%Z) by lia.
    rewrite EZ.
    destruct (N.even (N.of_nat mult - 1) && (n =? (N.of_nat mult - 1) / 2)) eqn:Ev.
    + right. split; auto. apply andb_prop in Ev. destruct Ev as [E1 E2]. apply N.even_spec in E1. destruct E1 as [q Hq].
      apply N.eqb_eq in E2. rewrite Hq in E2. replace (2 * q) with (q * 2) in E2 by lia. rewrite N.div_mul in E2 by lia.
      assert (Ez : (2 * Z.of_N n - (Z.of_nat mult - 1) = 0)%Z) by lia. rewrite Ez, H0.
      replace (N.to_nat p) with (Datatypes.S (N.to_nat p - 1)) by lia. cbn [spow].
      rewrite (mul_0_l so L). intros y. cbn. now destruct (x =? y).
    + left. do 2 eexists. split; reflexivity.
Qed.

Definition is_s (g : gen I) : bool := match g with GSpin _ _ _ => true | _ => false end.
Lemma spin_loop_spec (h : hspace I) m : hs_inv io h -> forall power size ups, 1 <= power -> (m = [] -> power = 1) ->
  let l := spaces h in
  match spin_loop io h m power size ups with
  | LOk (ups', size') => exists grps us, ups' = ups ++ us /\ size <= size' /\
      pre power m ++ m = concat (map grp grps) /\ Forall2 (su_ok l size') grps us
  | LUnknown g => In g m /\ (is_s g = false \/ ~ known io l g)
  | _ => False
  end.
Proof.
  intros Hi. cbv zeta. pose proof Hi as [S0 [W [P [_ [B63 _]]]]].
  induction m as [|g t IH]; intros power size ups hp hm; cbn [spin_loop].
  - exists [], []. rewrite app_nil_r. repeat split; auto. reflexivity.
  - destruct g as [d i|d i|mm c i]; try (split; [now left|left; reflexivity]).
    destruct (last_of_run io (GSpin mm c i) t) eqn:LR.
    + pose proof (site_model io Hio h (GSpin mm c i) Hi) as SM. cbn [gslot] in SM.
      destruct (find_site io (spaces h) 0 (GSpin mm c i)) as [[o e]|] eqn:FS.
      * destruct SM as [-> [_ [k [St ->]]]].
        replace (Z.of_nat (offset (spaces h) k) + Z.of_nat (es_nbits e) - 1 - Z.of_nat (offset (spaces h) k) + 1)%Z
          with (Z.of_nat (es_nbits e)) by lia.
        replace (Z.to_N (Z.of_nat (es_nbits e))) with (N.of_nat (es_nbits e)) by lia.
        specialize (IH 1 (N.max size (spin_ss mm + 1)) (ups ++ [mk_su (N.of_nat mm - 1) (Z.of_nat (offset (spaces h) k))
               (sub64 (w64 (N.shiftl 1 (N.of_nat (es_nbits e)))) 1) c power]) ltac:(lia) ltac:(auto)).
        destruct (spin_loop io h t 1 _ _) as [[ups' size']|g| |]; auto.
        -- destruct IH as [grps [us [-> [Hs [E1 F]]]]]. rewrite pre_1 in E1. cbn [app] in E1.
           exists ((GSpin mm c i, power) :: grps). eexists. rewrite <- app_assoc. split; [reflexivity|].
           split; [lia|]. rewrite (pre_last io sq half _ _ _ hp LR), E1. split; [reflexivity|]. constructor; auto.
           exists mm, c, i, k, e. cbn [fst snd]. repeat split; auto; try apply St; lia.
        -- destruct IH as [h1 h2]. split; auto. now right.
      * destruct SM as [-> _]. split; [now left|]. right. intros [e [he C]].
        pose proof (find_site_gen io (spaces h) (GSpin mm c i) 0) as F. rewrite FS in F. rewrite (F _ he) in C. discriminate.
    + specialize (IH (power + 1) size ups ltac:(lia)).
      rewrite (pre_more io Hio sq half _ _ _ hp LR).
      destruct t as [|g' t']; [discriminate|]. specialize (IH ltac:(discriminate)).
      destruct (spin_loop io h (g' :: t') (power + 1) size ups) as [[ups' size']|g| |]; auto.
      destruct IH as [h1 h2]. split; auto. now right.
Qed.

Theorem spin_correct (h : hspace I) m a : hs_inv io h -> Forall int_mult (spaces h) -> spin_make io h m = LOk a ->
  impl (spaces h) (spin_act so sq half a) m.
Proof.
  intros Hi IM E. pose proof Hi as [S0 [W [P [_ [B63 _]]]]]. unfold spin_make in E.
  pose proof (spin_loop_spec h m Hi 1 0 [] ltac:(lia) ltac:(auto)) as BL. cbv zeta in BL.
  rewrite pre_1 in BL. cbn [app] in BL.
  destruct (spin_loop io h m 1 0 []) as [[ups size]|g| |]; try discriminate; cbn [lbind] in E; inversion E; subst a; clear E.
  destruct BL as [grps [us [-> [hs [-> F]]]]]. cbn [app].
  unfold spin_act; cbn [sa_updates sa_sqrt].
  destruct us as [|u us]; [inversion F; subst; cbn; apply (implements_nil io so L)|].
  remember (u :: us) as us' eqn:Eus.
  apply (implements_groups io Hio so L sq half); auto.
  eapply Forall2_weaken; [|exact F]. intros gp v Hb. unfold max_sqrt. subst us'.
  now apply spin_update_correct.
Qed.
End ActS.
