(** The bosonic and spin actions implement products of single-site operators. *)
From Coq Require Import NArith ZArith List Bool Sorted Permutation Lia Psatz.
From Verif Require Import BitsModel BitsSpec BitsProofs ExprModel ExprSpec ExprOrder HSModel HSSpec HSEnum
  HSProofs HSMain PropHS LOpModel LOpSpec LOpFermion LOpSite LOpActF.
Import ListNotations.
Open Scope N_scope.
Open Scope list_scope.

Lemma zrange_S k : zrange (S k) = zrange k ++ [N.of_nat k].
Proof. unfold zrange. rewrite seq_S, map_app. reflexivity. Qed.

Section ActB.
Context {I S : Type} (io : index_ops I) (Hio : index_order io).
Context (so : scalar_ops S) (L : scalar_laws so) (sq : N -> S) (half : Z -> S).
Notation es := (espace I).
Notation gact := (gen_act io so sq half).
Notation mact := (mono_act io so sq half).
Notation bnd := (obind so).
Notation impl := (implements io so sq half).

(** *** products of roots *)
Definition prods (ns : list N) : S := fold_left (fun c n => s_mul so c (sq n)) ns (s_one so).
Lemma fold_prods ns : forall c, fold_left (fun c n => s_mul so c (sq n)) ns c = s_mul so c (prods ns).
Proof.
  unfold prods. induction ns as [|n ns IH]; intros c; cbn [fold_left].
  - now rewrite (sl_mul_1_r so L).
  - rewrite IH, (IH (s_mul so (s_one so) (sq n))), (sl_mul_1_l so L), (sl_mul_assoc so L). reflexivity.
Qed.
Lemma prods_snoc ns n : prods (ns ++ [n]) = s_mul so (prods ns) (sq n).
Proof. unfold prods. rewrite fold_left_app. reflexivity. Qed.
Lemma mul_roots_ok size ns : Forall (fun n => n < size \/ 128 <= n) ns -> forall c,
  mul_roots so sq size ns c = Some (s_mul so c (prods ns)).
Proof.
  intros F. assert (H : forall c, mul_roots so sq size ns c = Some (fold_left (fun c n => s_mul so c (sq n)) ns c)).
  { induction F as [|n ns h F IH]; intros c; cbn [mul_roots fold_left]; auto.
    unfold sqr_root, max_sqrt. destruct (N.ltb_spec n 128).
    - destruct (N.ltb_spec n size); [apply IH|lia].
    - apply IH. }
  intros c. rewrite H, fold_prods. reflexivity.
Qed.

(** *** powers of ladder operators *)
Section Ladder.
Context (l : list es) (S0 : StronglySorted (es_before io) l) (W : Forall es_wf l).
Context (g : gen I) (k : nat) (e : es) (H : site io l g k e) (NF : is_f g = false).

Lemma lad_wf : es_wf e.
Proof. destruct H as [E _]. rewrite Forall_forall in W. apply W. eapply nth_error_In; eauto. Qed.
Lemma lad_lt v : v < es_dim e -> v <N es_nbits e.
Proof. intros h. eapply N.lt_le_trans; [exact h|]. apply dim_le, lad_wf. Qed.
Notation fld x := (bit_field x (offset l k) (es_nbits e)).
Notation sfld x v := (set_field x (offset l k) (es_nbits e) v).

Lemma ladder_up (w : N -> N) :
  (forall n, loc so sq half g e n = if n + 1 <? es_dim e then Some (sq (w n), n + 1) else None) ->
  forall p x, valid_state l x ->
  mact l (repeat g p) x =
  if (fld x + N.of_nat p <? es_dim e)
  then Some (prods (map (fun d => w (fld x + d)) (zrange p)), sfld x (fld x + N.of_nat p)) else None.
Proof.
  intros HL p x V. pose proof (valid_field l k e x V (proj1 H)) as hn. set (n := fld x) in *.
  induction p as [|p IH]; cbn [repeat mono_act].
  - cbn [N.of_nat]. rewrite N.add_0_r. destruct (N.ltb_spec n (es_dim e)); [|lia].
    unfold n. now rewrite set_field_same.
  - rewrite IH. replace (n + N.of_nat (Datatypes.S p)) with (n + N.of_nat p + 1) by lia.
    destruct (N.ltb_spec (n + N.of_nat p) (es_dim e)) as [h1|h1]; cbn [obind].
    + rewrite (gen_act_loc io Hio so sq half L l g k e _ S0 H). rewrite bit_field_set by (now apply lad_lt).
      rewrite HL. destruct (N.ltb_spec (n + N.of_nat p + 1) (es_dim e)) as [h2|h2]; cbn [obind]; auto.
      rewrite set_field_set by (now apply lad_lt). unfold jwf. rewrite NF, (sl_mul_1_l so L).
      rewrite zrange_S, map_app. cbn [map]. rewrite prods_snoc. reflexivity.
    + destruct (N.ltb_spec (n + N.of_nat p + 1) (es_dim e)); auto; lia.
Qed.
Lemma ladder_down (v : N -> N) :
  (forall n, loc so sq half g e n = if n =? 0 then None else Some (sq (v n), n - 1)) ->
  forall p x, valid_state l x ->
  mact l (repeat g p) x =
  if (N.of_nat p <=? fld x)
  then Some (prods (map (fun d => v (fld x - d)) (zrange p)), sfld x (fld x - N.of_nat p)) else None.
Proof.
  intros HL p x V. pose proof (valid_field l k e x V (proj1 H)) as hn. set (n := fld x) in *.
  induction p as [|p IH]; cbn [repeat mono_act].
  - cbn [N.of_nat]. rewrite N.sub_0_r. destruct (N.leb_spec 0 n); [|lia].
    unfold n. now rewrite set_field_same.
  - rewrite IH. replace (n - N.of_nat (Datatypes.S p)) with (n - N.of_nat p - 1) by lia.
    destruct (N.leb_spec (N.of_nat p) n) as [h1|h1]; cbn [obind].
    + rewrite (gen_act_loc io Hio so sq half L l g k e _ S0 H). rewrite bit_field_set by (apply lad_lt; lia).
      rewrite HL. destruct (N.eqb_spec (n - N.of_nat p) 0) as [h2|h2], (N.leb_spec (N.of_nat (Datatypes.S p)) n) as [h3|h3]; cbn [obind]; auto; try lia.
      rewrite set_field_set by (apply lad_lt; lia). unfold jwf. rewrite NF, (sl_mul_1_l so L).
      rewrite zrange_S, map_app. cbn [map]. rewrite prods_snoc. reflexivity.
    + destruct (N.leb_spec (N.of_nat (Datatypes.S p)) n); auto; lia.
Qed.
Lemma ladder_diag (z : N -> S) :
  (forall n, loc so sq half g e n = Some (z n, n)) ->
  forall p x, mact l (repeat g p) x = Some (spow so (z (fld x)) p, x).
Proof.
  intros HL p x.
  assert (SP : forall a q, s_mul so (spow so a q) a = spow so a (Datatypes.S q)).
  { intros a q. induction q as [|q IH]; cbn [spow]; [now rewrite (sl_mul_1_l so L), (sl_mul_1_r so L)|].
    rewrite <- (sl_mul_assoc so L). cbn [spow] in IH. now rewrite IH. }
  induction p as [|p IH]; cbn [repeat mono_act]; auto.
  rewrite IH. cbn [obind]. rewrite (gen_act_loc io Hio so sq half L l g k e _ S0 H), HL.
  unfold jwf. rewrite NF, (sl_mul_1_l so L), set_field_same, SP. reflexivity.
Qed.
End Ladder.

Lemma run_updates_app {U} (f : U -> N -> S -> ares S) a b x c :
  run_updates f (a ++ b) x c = match run_updates f a x c with AVal c' i => run_updates f b i c' | r => r end.
Proof.
  revert x c. induction a as [|u a IH]; intros x c; cbn [app run_updates]; auto.
  destruct (f u x c); auto.
Qed.
Lemma implements_single {U} l (f : U -> N -> S -> ares S) u m : impl l (f u) m -> impl l (run_updates f [u]) m.
Proof. intros H. eapply implements_ext; [|exact H]. intros x c _. cbn. now destruct (f u x c). Qed.
Definition grp (gp : gen I * N) : list (gen I) := repeat (fst gp) (N.to_nat (snd gp)).
Lemma implements_groups {U} l (f : U -> N -> S -> ares S) grps us :
  StronglySorted (es_before io) l -> Forall es_wf l ->
  Forall2 (fun gp u => impl l (f u) (grp gp)) grps us ->
  impl l (run_updates f (rev us)) (concat (map grp grps)).
Proof.
  intros S0 W. induction 1 as [|gp u grps us H F IH]; cbn [rev map concat].
  - eapply implements_ext; [|apply (implements_nil io so L)]. reflexivity.
  - eapply implements_ext; [|eapply (implements_seq io Hio so L sq half l); [exact S0|exact W|exact IH|exact (implements_single l f u (grp gp) H)]].
    intros x c _. cbn beta. rewrite run_updates_app. reflexivity.
Qed.

(** *** grouping *)
Definition pre (power : N) (m : list (gen I)) : list (gen I) :=
  match m with [] => [] | g :: _ => repeat g (N.to_nat power - 1) end.
Lemma pre_last g t power : 1 <= power -> last_of_run io g t = true ->
  pre power (g :: t) ++ g :: t = repeat g (N.to_nat power) ++ t.
Proof.
  intros hp _. cbn [pre]. replace (N.to_nat power) with (Datatypes.S (N.to_nat power - 1)) at 2 by lia.
  change (g :: t) with ([g] ++ t). rewrite app_assoc. f_equal.
  cbn [repeat]. symmetry. apply repeat_cons.
Qed.
Lemma pre_more g t power : 1 <= power -> last_of_run io g t = false ->
  pre power (g :: t) ++ g :: t = pre (power + 1) t ++ t.
Proof.
  intros hp hl. destruct t as [|g' t]; [discriminate|]. cbn [last_of_run] in hl.
  apply negb_false_iff in hl. apply (sto_eq _ _ _ (gen_sto io Hio)) in hl. subst g'. cbn [pre].
  replace (N.to_nat (power + 1) - 1)%nat with (Datatypes.S (N.to_nat power - 1)) by lia.
  change (g :: g :: t) with ([g] ++ g :: t). rewrite app_assoc. f_equal.
  cbn [repeat]. symmetry. apply repeat_cons.
Qed.
Lemma pre_1 m : pre 1 m = [].
Proof. destruct m; reflexivity. Qed.

(** *** bosons *)
Definition bu_ok (l : list es) (size : N) (gp : gen I * N) (u : boson_update) : Prop :=
  exists d i k e, fst gp = GBoson d i /\ site io l (fst gp) k e /\
  1 <= snd gp /\ snd gp <= es_dim e - 1 /\ es_dim e <= size /\
  u = mk_bu (Z.of_nat (offset l k)) (sub64 (w64 (N.shiftl 1 (N.of_nat (es_nbits e)))) 1)
        (if d then Z.of_N (snd gp) else (- Z.of_N (snd gp))%Z) (es_dim e - 1)
        ((if d then Z.of_N (snd gp) else (- Z.of_N (snd gp))) * 2 ^ Z.of_nat (offset l k))%Z.

Lemma dim_bits (e : es) : es_wf e -> forall b, (es_nbits e <= b)%nat -> es_dim e <= 2 ^ N.of_nat b.
Proof. intros w b hb. etransitivity; [now apply dim_le|]. apply N.pow_le_mono_r; lia. Qed.

Lemma boson_update_correct l size gp u : StronglySorted (es_before io) l -> Forall es_wf l -> (total_bits l <= 63)%nat ->
  bu_ok l size gp u -> impl l (boson_update_act so sq (N.min size 128) u) (grp gp).
Proof.
  intros S0 W B [d [i [k [e [Eg [St [hp1 [hp2 [hs ->]]]]]]]]] x c V.
  destruct gp as [g p]; cbn [fst snd] in *. subst g. unfold grp; cbn [fst snd].
  pose proof (valid_field l k e x V (proj1 St)) as hn.
  assert (hnb : (es_nbits e <= 63)%nat).
  { pose proof (offset_S _ _ _ (proj1 St)). pose proof (offset_total l (Datatypes.S k)). lia. }
  unfold boson_update_act; cbn [bu_shift bu_mask bu_change bu_nmax bu_state_change].
  replace (Z.to_N (Z.of_nat (offset l k))) with (N.of_nat (offset l k)) by lia.
  rewrite code_field by auto. set (n := bit_field x (offset l k) (es_nbits e)) in *.
  assert (hx : x < 2 ^ 63).
  { destruct V as [V _]. eapply N.lt_le_trans; [exact V|]. apply N.pow_le_mono_r; lia. }
  assert (TGT : forall v, v < es_dim e ->
     z_to_u64 (Z.of_N x + (Z.of_N v - Z.of_N n) * 2 ^ Z.of_nat (offset l k)) = set_field x (offset l k) (es_nbits e) v).
  { intros v hv. unfold n. rewrite <- field_shift. apply z_to_u64_small.
    change (2 ^ 63) with (2 ^ N.of_nat 63). apply set_field_bound; auto.
    - eapply lad_lt; eauto.
    - rewrite <- (offset_S l k e (proj1 St)). pose proof (offset_total l (Datatypes.S k)). lia. }
  destruct d.
  - rewrite (ladder_up l S0 W _ k e St eq_refl (fun n => n + 1)) by (auto; intros; reflexivity). fold n.
    rewrite N2Nat.id.
    destruct (Z.ltb_spec (Z.of_N n + Z.of_N p) 0); [lia|]. cbn [orb].
    destruct (Z.ltb_spec (Z.of_N (es_dim e - 1)) (Z.of_N n + Z.of_N p)) as [h|h], (N.ltb_spec (n + p) (es_dim e)) as [h2|h2]; try lia.
    + right. split; auto.
    + left. do 2 eexists. split; [reflexivity|].
      destruct (Z.ltb_spec 0 (Z.of_N p)); [|lia].
      replace (Z.to_nat (Z.of_N p)) with (N.to_nat p) by lia.
      rewrite mul_roots_ok.
      * f_equal.
        -- f_equal. f_equal. apply map_ext. intros a. lia.
        -- replace (Z.of_N p * 2 ^ Z.of_nat (offset l k))%Z with ((Z.of_N (n + p) - Z.of_N n) * 2 ^ Z.of_nat (offset l k))%Z by (f_equal; lia).
           apply TGT. lia.
      * rewrite Forall_forall. intros a ha. apply in_map_iff in ha. destruct ha as [q [<- hq]].
        unfold zrange in hq. apply in_map_iff in hq. destruct hq as [r [<- hr]]. apply in_seq in hr. lia.
  - rewrite (ladder_down l S0 W _ k e St eq_refl (fun n => n)) by (auto; intros; reflexivity). fold n.
    rewrite N2Nat.id.
    destruct (Z.ltb_spec (Z.of_N n + - Z.of_N p) 0) as [h|h], (N.leb_spec p n) as [h2|h2]; try lia; cbn [orb].
    + right. split; auto.
    + destruct (Z.ltb_spec (Z.of_N (es_dim e - 1)) (Z.of_N n + - Z.of_N p)); [lia|].
      left. do 2 eexists. split; [reflexivity|].
      destruct (Z.ltb_spec 0 (- Z.of_N p)); [lia|].
      replace (Z.to_nat (- - Z.of_N p)) with (N.to_nat p) by lia.
      assert (MM : map (fun d => sub64 n d) (zrange (N.to_nat p)) = map (fun d => n - d) (zrange (N.to_nat p))).
      { apply map_ext_in. intros q hq. unfold zrange in hq. apply in_map_iff in hq. destruct hq as [r [<- hr]]. apply in_seq in hr.
        apply sub64_ge; [|lia]. unfold u64. eapply N.lt_le_trans; [apply bit_field_lt|]. apply N.pow_le_mono_r; lia. }
      rewrite MM, mul_roots_ok.
      * f_equal.
        replace (- Z.of_N p * 2 ^ Z.of_nat (offset l k))%Z with ((Z.of_N (n - p) - Z.of_N n) * 2 ^ Z.of_nat (offset l k))%Z by (f_equal; lia).
        apply TGT. lia.
      * rewrite Forall_forall. intros a ha. apply in_map_iff in ha. destruct ha as [q [<- hq]]. lia.
Qed.

(** a power that exceeds the truncation vanishes *)
Lemma boson_power_vanishes l d i k e p x : StronglySorted (es_before io) l -> Forall es_wf l ->
  site io l (GBoson d i) k e -> valid_state l x -> es_dim e - 1 < p ->
  mact l (repeat (GBoson d i) (N.to_nat p)) x = None.
Proof.
  intros S0 W St V hp. pose proof (valid_field l k e x V (proj1 St)) as hn. destruct d.
  - rewrite (ladder_up l S0 W _ k e St eq_refl (fun n => n + 1)) by (auto; intros; reflexivity).
    destruct (N.ltb_spec (bit_field x (offset l k) (es_nbits e) + N.of_nat (N.to_nat p)) (es_dim e)); auto. lia.
  - rewrite (ladder_down l S0 W _ k e St eq_refl (fun n => n)) by (auto; intros; reflexivity).
    destruct (N.leb_spec (N.of_nat (N.to_nat p)) (bit_field x (offset l k) (es_nbits e))); auto. lia.
Qed.

Definition is_b (g : gen I) : bool := match g with GBoson _ _ => true | _ => false end.

Lemma bu_ok_mono l size size' gp u : size <= size' -> bu_ok l size gp u -> bu_ok l size' gp u.
Proof.
  intros h [d [i [k [e [E1 [E2 [E3 [E4 [E5 E6]]]]]]]]]. exists d, i, k, e. repeat split; auto; try apply E2. lia.
Qed.

Lemma boson_loop_spec (h : hspace I) m : hs_inv io h -> forall power size ups, 1 <= power -> (m = [] -> power = 1) ->
  let l := spaces h in
  match boson_loop io h m power size ups with
  | LOk (ups', size', false) => exists grps us, ups' = ups ++ us /\ size <= size' /\
      pre power m ++ m = concat (map grp grps) /\ Forall2 (bu_ok l size') grps us
  | LOk (ups', size', true) => exists a d i p k e rest,
      pre power m ++ m = a ++ repeat (GBoson d i) (N.to_nat p) ++ rest /\
      site io l (GBoson d i) k e /\ es_dim e - 1 < p /\ 1 <= p /\
      Forall (fun g => is_b g = true /\ known io l g) a
  | LUnknown g => In g m /\ (is_b g = false \/ ~ known io l g)
  | _ => False
  end.
Proof.
  intros Hi. cbv zeta. pose proof Hi as [S0 [W [P [_ [B63 _]]]]].
  induction m as [|g t IH]; intros power size ups hp hm; cbn [boson_loop].
  - exists [], []. rewrite app_nil_r. repeat split; auto. reflexivity.
  - destruct g as [d i|d i|mm c i]; try (split; [now left|left; reflexivity]).
    destruct (last_of_run io (GBoson d i) t) eqn:LR.
    + pose proof (site_model io Hio h (GBoson d i) Hi) as SM. cbn [gslot] in SM.
      destruct (find_site io (spaces h) 0 (GBoson d i)) as [[o e]|] eqn:FS.
      * destruct SM as [-> [-> [k [St ->]]]].
        replace (Z.of_nat (offset (spaces h) k) + Z.of_nat (es_nbits e) - 1 - Z.of_nat (offset (spaces h) k) + 1)%Z
          with (Z.of_nat (es_nbits e)) by lia.
        replace (Z.to_N (Z.of_nat (es_nbits e))) with (N.of_nat (es_nbits e)) by lia.
        assert (we : es_wf e) by (rewrite Forall_forall in W; apply W; eapply nth_error_In; apply St).
        assert (hd0 : 0 < es_dim e) by now apply wf_dim.
        assert (hd1 : es_dim e <= 2 ^ 63).
        { change (2 ^ 63) with (2 ^ N.of_nat 63). apply dim_bits; auto.
          pose proof (offset_S _ _ _ (proj1 St)). pose proof (offset_total (spaces h) (Datatypes.S k)). lia. }
        assert (SB : sub64 (es_dim e) 1 = es_dim e - 1).
        { apply sub64_ge; [|lia]. unfold u64. eapply N.le_lt_trans; [exact hd1|reflexivity]. }
        rewrite SB.
        assert (WB : w64 (es_dim e - 1 + 1) = es_dim e).
        { replace (es_dim e - 1 + 1) with (es_dim e) by lia. apply w64_small. eapply N.le_lt_trans; [exact hd1|reflexivity]. }
        rewrite WB.
        destruct (N.ltb_spec (es_dim e - 1) power) as [hv|hv].
        -- exists [], d, i, power, k, e, t. split; [now apply pre_last|]. repeat split; auto; apply St.
        -- specialize (IH 1 (N.max size (es_dim e)) (ups ++ [mk_bu (Z.of_nat (offset (spaces h) k))
               (sub64 (w64 (N.shiftl 1 (N.of_nat (es_nbits e)))) 1) (if d then Z.of_N power else (- Z.of_N power)%Z) (es_dim e - 1)
               ((if d then Z.of_N power else (- Z.of_N power)) * 2 ^ Z.of_nat (offset (spaces h) k))%Z]) ltac:(lia) ltac:(auto)).
           destruct (boson_loop io h t 1 _ _) as [[[ups' size'] [|]]|g| |]; auto.
           ++ destruct IH as [a [d' [i' [p [k' [e' [rest [E1 [E2 [E3 [E4 F]]]]]]]]]]].
              rewrite pre_1 in E1. cbn [app] in E1.
              exists (repeat (GBoson d i) (N.to_nat power) ++ a), d', i', p, k', e', rest.
              rewrite (pre_last _ _ _ hp LR), E1. rewrite <- app_assoc. repeat split; auto; try apply E2.
              apply Forall_app. split; auto. rewrite Forall_forall. intros g hg. apply repeat_spec in hg. subst g.
              split; auto. exists e. split; [eapply nth_error_In; apply St|apply St].
           ++ destruct IH as [grps [us [-> [Hs [E1 F]]]]]. rewrite pre_1 in E1. cbn [app] in E1.
              exists ((GBoson d i, power) :: grps). eexists. rewrite <- app_assoc. split; [reflexivity|].
              split; [lia|]. rewrite (pre_last _ _ _ hp LR), E1. split; [reflexivity|]. constructor; auto.
              exists d, i, k, e. cbn [fst snd]. repeat split; auto; try apply St; lia.
           ++ destruct IH as [h1 h2]. split; auto. now right.
      * destruct SM as [-> _]. split; [now left|]. right. intros [e [he C]].
        pose proof (find_site_gen io (spaces h) (GBoson d i) 0) as F. rewrite FS in F. rewrite (F _ he) in C. discriminate.
    + specialize (IH (power + 1) size ups ltac:(lia)).
      rewrite (pre_more _ _ _ hp LR).
      destruct t as [|g' t']; [discriminate|]. specialize (IH ltac:(discriminate)).
      destruct (boson_loop io h (g' :: t') (power + 1) size ups) as [[[ups' size'] [|]]|g| |]; auto.
      destruct IH as [h1 h2]. split; auto. now right.
Qed.
End ActB.
