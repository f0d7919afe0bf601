(** Operators acting through views of sectors: particle numbers, and a general
    statement about views that number a set of basis states. *)
From Coq Require Import NArith ZArith List Bool Sorted Permutation Lia.
From Verif Require Import BitsModel BitsSpec BitsProofs ExprModel ExprSpec ExprOrder ExprEval
  HSModel HSSpec HSEnum HSProofs HSMain PropHS LOpModel LOpSpec LOpFermion LOpSite LOpActF LOpActB LOpActS LOpComm LOpApply
  SectorModel SectorSpec SectorProofs ViewModel ViewProofs.
Import ListNotations.
Open Scope N_scope.
Open Scope list_scope.

Section Charge.
Context {I S : Type} (io : index_ops I) (Hio : index_order io).
Context (so : scalar_ops S) (LS : scalar_laws so) (sq : N -> S) (half : Z -> S).
Notation es := (espace I).
Context (l : list es) (S0 : StronglySorted (es_before io) l) (W : Forall es_wf l).
Notation occ := (occupied io l).

Lemma occ_find : forall (t : list es) s x i, occupied_from io t s x i =
  match find_site io t s (GFermion true i) with Some (o, _) => N.testbit x (N.of_nat o) | None => false end.
Proof.
  induction t as [|e t IH]; intros s x i; cbn [occupied_from find_site]; auto.
  destruct e as [j|d j|m j]; cbn [carries]; auto. destruct (i_eq io i j); auto.
Qed.
Lemma find_dagger d i : find_site io l 0 (GFermion d i) = find_site io l 0 (GFermion true i).
Proof.
  generalize 0%nat. generalize l. induction l0 as [|e t IH]; intros s; cbn [find_site]; auto.
  destruct e; cbn [carries]; auto. destruct (i_eq io i i0); auto.
Qed.
(** the effect of a generator on the occupation numbers *)
Definition flips (g : gen I) (i : I) : bool := match g with GFermion _ j => i_eq io i j | _ => false end.
Lemma gen_act_occ g x k y : valid_state l x -> gen_act io so sq half l g x = Some (k, y) ->
  (forall i, flips g i = false -> occ y i = occ x i) /\
  (forall d j, g = GFermion d j -> occ x j = negb d /\ occ y j = d).
Proof.
  intros Vx E. unfold gen_act in E. destruct (find_site io l 0 g) as [[o e]|] eqn:Fs; [|discriminate].
  pose proof Fs as Fs'. apply (find_site_iff io Hio l g o e S0) in Fs'. destruct Fs' as [p [St ->]]. pose proof St as [Ep Cp].
  assert (Y : exists v, v < 2 ^ N.of_nat (es_nbits e) /\ y = set_field x (offset l p) (es_nbits e) v).
  { pose proof (valid_field l p e x Vx Ep) as VF. pose proof (dim_le e (site_wf io l W g p e St)) as DL.
    destruct g as [d i|d i|m c i].
    - apply carries_f in Cp; [|exact Hio]. subst e. change (es_nbits (ESFermion i)) with 1%nat in *. destruct d.
      + destruct (_ =? 0); [|discriminate]. inversion E; subst. exists 1. split; [reflexivity|]. now rewrite setbit_field.
      + destruct (_ =? 1); [|discriminate]. inversion E; subst. exists 0. split; [reflexivity|]. now rewrite clearbit_field.
    - destruct d.
      + destruct (N.ltb_spec (bit_field x (offset l p) (es_nbits e) + 1) (es_dim e)); [|discriminate]. inversion E; subst. eexists. split; [|reflexivity]. lia.
      + destruct (N.eqb_spec (bit_field x (offset l p) (es_nbits e)) 0); [discriminate|]. inversion E; subst. eexists. split; [|reflexivity]. lia.
    - pose proof (carries_dim io Hio _ e m c i eq_refl Cp) as ED. destruct c.
      + destruct (N.ltb_spec (bit_field x (offset l p) (es_nbits e) + 1) (N.of_nat m)); [|discriminate]. inversion E; subst. eexists. split; [|reflexivity]. lia.
      + destruct (N.eqb_spec (bit_field x (offset l p) (es_nbits e)) 0); [discriminate|]. inversion E; subst. eexists. split; [|reflexivity]. lia.
      + inversion E; subst. exists (bit_field y (offset l p) (es_nbits e)). split; [lia|]. now rewrite set_field_same. }
  split.
  - intros i hi. unfold occupied. rewrite !occ_find. destruct (find_site io l 0 (GFermion true i)) as [[o' e']|] eqn:F'; auto.
    apply (find_site_iff io Hio l _ o' e' S0) in F'. destruct F' as [p' [[Ep' Cp'] ->]].
    apply carries_f in Cp'; [|exact Hio]. subst e'.
    assert (ne : p <> p').
    { intros <-. rewrite Ep in Ep'. inversion Ep'; subst e. destruct g as [d j|d j|m c j]; cbn in Cp, hi; try discriminate.
      apply (sto_eq _ _ _ Hio) in Cp. subst j. rewrite (i_eqb_refl io Hio) in hi. discriminate. }
    destruct Y as [v [hv ->]]. pose proof (sites_disjoint l p e p' _ Ep Ep' ne) as Dj. change (es_nbits (ESFermion i)) with 1%nat in Dj.
    rewrite set_field_bits by exact hv. destruct (Nat.ltb_spec (offset l p') (offset l p)), (Nat.ltb_spec (offset l p') (offset l p + es_nbits e)); auto; lia.
  - intros d j ->. unfold occupied. rewrite !occ_find. rewrite find_dagger in Fs. rewrite Fs.
    apply carries_f in Cp; [|exact Hio]. subst e. change (es_nbits (ESFermion j)) with 1%nat in *. rewrite bit_field_1 in E. destruct d.
    + destruct (tb x (offset l p)); [discriminate|]. inversion E; subst. split; [reflexivity|]. apply N.setbit_eq.
    + destruct (tb x (offset l p)); [|discriminate]. inversion E; subst. split; [reflexivity|]. apply N.clearbit_eq.
Qed.
Lemma count_same (f g : I -> bool) is : (forall i, In i is -> f i = g i) -> length (filter f is) = length (filter g is).
Proof. intros H. now rewrite (filter_ext_in f g is H). Qed.
Lemma count_flip (f g : I -> bool) is j : NoDup is -> In j is -> (forall i, i <> j -> f i = g i) -> f j = false -> g j = true ->
  length (filter g is) = Datatypes.S (length (filter f is)).
Proof.
  intros ND i H Ff Gg. induction ND as [|a is na ND IH]; [destruct i|]. cbn [filter]. destruct i as [->|i].
  - rewrite Ff, Gg. cbn [length]. f_equal. apply count_same. intros b ib. symmetry. apply H. congruence.
  - rewrite (H a) by (intros ->; contradiction). destruct (g a); cbn [length]; rewrite IH; auto.
Qed.

Context (is : list I) (sel : I -> bool) (ND : NoDup is).
Context (Hsel : forall i, In i (modes l) -> (sel i = true <-> In i is)).
Definition gcharge (g : gen I) : Z := charge sel [g].
Lemma gen_act_charge g x k y : valid_state l x -> gen_act io so sq half l g x = Some (k, y) ->
  Z.of_nat (particles io l y is) = (Z.of_nat (particles io l x is) + gcharge g)%Z.
Proof.
  intros Vx E. pose proof (gen_act_occ g x k y Vx E) as [A B]. unfold particles.
  destruct g as [d j|d j|m c j]; [|rewrite (count_same _ (occ x)) by (intros i _; now apply A); cbn; lia..].
  assert (jm : In j (modes l)).
  { unfold gen_act in E. destruct (find_site io l 0 (GFermion d j)) as [[o e]|] eqn:Fs; [|discriminate].
    apply (find_site_iff io Hio l _ o e S0) in Fs. destruct Fs as [p [[Ep Cp] _]]. apply carries_f in Cp; [|exact Hio]. subst e.
    unfold modes. apply in_flat_map. exists (ESFermion j). split; [eapply nth_error_In; eauto|cbn; auto]. }
  destruct (B d j eq_refl) as [B1 B2]. unfold gcharge. cbn [charge]. rewrite Z.add_0_r.
  assert (A' : forall i, i <> j -> occ y i = occ x i).
  { intros i ne. apply A. cbn. destruct (i_eq io i j) eqn:Q; auto. apply (sto_eq _ _ _ Hio) in Q. contradiction. }
  destruct (sel j) eqn:Sj.
  - apply (Hsel j jm) in Sj. destruct d; cbn [negb] in B1.
    + rewrite (count_flip (occ x) (occ y) is j); auto; [lia|]. intros i ne. symmetry. auto.
    + rewrite (count_flip (occ y) (occ x) is j); auto. lia.
  - rewrite (count_same (occ y) (occ x)); [lia|]. intros i ii. apply A'. intros ->. apply (Hsel j jm) in ii. congruence.
Qed.
Lemma charge_cons g m : charge sel (g :: m) = (gcharge g + charge sel m)%Z.
Proof. unfold gcharge. destruct g; cbn [charge]; lia. Qed.
Lemma mono_act_charge m : forall x k y, valid_state l x -> mono_act io so sq half l m x = Some (k, y) ->
  Z.of_nat (particles io l y is) = (Z.of_nat (particles io l x is) + charge sel m)%Z.
Proof.
  induction m as [|g m IH]; intros x k y Vx E.
  - cbn in E. inversion E; subst. cbn. lia.
  - cbn [mono_act] in E. destruct (mono_act io so sq half l m x) as [[c z]|] eqn:Em; [|discriminate]. cbn [obind] in E.
    destruct (gen_act io so sq half l g z) as [[k' y']|] eqn:Eg; [|discriminate]. inversion E; subst.
    assert (Vz : valid_state l z) by (eapply mono_act_valid; eauto).
    rewrite (gen_act_charge g z k' y Vz Eg), (IH x c z Vx Em), charge_cons. lia.
Qed.
End Charge.

(** ** Views numbering sets of basis states *)
Section Numbered.
Context {I S V1 V2 : Type} (io : index_ops I) (Hio : index_order io) (so : scalar_ops S) (sq : N -> S) (half : Z -> S).
Context (L : scalar_laws so).
Context (amp1' : N -> S).
Context (sv2 : sv_ops V2 S) (ok2 : V2 -> Prop) (amp2 : V2 -> N -> S) (size2 : V2 -> N) (SV2 : sv_laws so sv2 ok2 amp2 size2).
Context (l : list (espace I)) (e : list (list (gen I) * S)) (Lp : lop S) (LI : lop_impl io so sq half l e Lp).
Context (bas : list N) (HB : basis_of l bas).
(* source: states xs; destination: states ys, numbered by f *)
Context (xs ys : list N) (NDx : NoDup xs) (Vx : forall x, In x xs -> valid_state l x).
Context (f : N -> option N) (NDy : NoDup ys) (Hf : forall i y, nth_error ys i = Some y -> f y = Some (N.of_nat i)).
Context (Into : forall x m c k y, In x xs -> In (m, c) e -> mono_act io so sq half l m x = Some (k, y) -> In y ys).
Context (psi : N -> S) (Emb : embeds so amp1' xs psi).
Context (dsv : sv_ops V2 S) (Dadd : forall v n x, sv_add dsv v n x = match f n with None => None | Some k => sv_add sv2 v k x end).
Context (Dzero : forall v, sv_zero dsv v = sv_zero sv2 v).

Lemma pairs_spec : forall zs k, (forall i x, nth_error zs i = Some x -> psi x = amp1' (k + N.of_nat i)) -> NoDup zs ->
    NoDup (map fst (nonzero_pairs so amp1' zs k)) /\
    (forall x a, In (x, a) (nonzero_pairs so amp1' zs k) -> In x zs /\ a = psi x) /\
    (forall x, In x zs -> psi x <> s_zero so -> In x (map fst (nonzero_pairs so amp1' zs k))).
Proof.
  induction zs as [|z zs IHz]; intros k Hz NDz; cbn [nonzero_pairs map].
  - split; [constructor|]. split; [intros x a []|intros x []].
  - inversion NDz as [|? ? nz NDz']; subst.
    assert (Ez : psi z = amp1' k). { rewrite (Hz 0%nat z eq_refl). f_equal. lia. }
    destruct (IHz (k + 1)) as [A1 [A2 A3]]; auto.
    { intros i x Hx. rewrite (Hz (Datatypes.S i) x Hx). f_equal. lia. }
    destruct (s_is_zero so (amp1' k)) eqn:Z0.
    + split; auto. split.
      * intros x a i. destruct (A2 x a i). cbn; auto.
      * intros x [<-|i] nx; auto. apply (sl_is_zero so L) in Z0. congruence.
    + cbn [map fst]. split; [|split].
      * constructor; auto. intros i. apply in_map_iff in i. destruct i as [[x a] [Ex i]]. cbn in Ex. subst x. apply nz. apply (A2 z a i).
      * intros x a [Q|i]; [inversion Q; subst; cbn; auto|]. destruct (A2 x a i). cbn; auto.
      * intros x [<-|i] nx; cbn; auto.
Qed.
Theorem numbered_action dst : ok2 dst -> N.of_nat (length ys) <= size2 dst ->
  exists w, lop_apply_to so sq half dsv Lp (nonzero_pairs so amp1' xs 0) dst = Some w /\ ok2 w /\ size2 w = size2 dst /\
    (forall k y, nth_error ys k = Some y -> amp2 w (N.of_nat k) = ssum so (fun x => s_mul so (mel io so sq half l e y x) (psi x)) bas) /\
    (forall k, N.of_nat (length ys) <= k -> amp2 w k = s_zero so).
Proof.
  intros O2 Z2. destruct Emb as [Em1 Em2].
  destruct (pairs_spec xs 0) as [D1 [D2 D3]]; auto.
  destruct (svl_zero _ _ _ _ _ SV2 dst O2) as [Oz [Zz Az]].
  assert (IX : forall y, In y ys -> exists i, nth_error ys i = Some y /\ (i < length ys)%nat /\ f y = Some (N.of_nat i)).
  { intros y iy. apply In_nth_error in iy. destruct iy as [i Hy]. exists i. split; auto. split; auto. apply nth_error_Some. congruence. }
  set (va (u : V2) y := match f y with Some k => amp2 u k | None => s_zero so end).
  destruct (act_entries_on io so L sq half dsv (fun u => ok2 u /\ N.of_nat (length ys) <= size2 u) va (fun y => In y ys)
     (fun u u' => size2 u' = size2 u /\ forall k, N.of_nat (length ys) <= k -> amp2 u' k = amp2 u k))
    with (l := l) (e := e) (Lp := Lp) (ent := nonzero_pairs so amp1' xs 0) (dst := sv_zero sv2 dst) as [w [Ew [[Ow _] [[Zw Fw] Aw]]]]; auto.
  - intros u u1 u2 [Q1 Q2] [Q3 Q4]. split; [congruence|]. intros k hk. rewrite Q4, Q2; auto.
  - intros u n x [Ou Zu] Vn. destruct (IX n Vn) as [i [Hi [hi Ei]]].
    destruct (svl_add _ _ _ _ _ SV2 u (N.of_nat i) x Ou ltac:(lia)) as [u' [Ea [Ou' [Zu' Au']]]].
    exists u'. rewrite Dadd, Ei. split; auto. split; [split; [auto|lia]|]. split.
    + split; auto. intros k hk. rewrite Au'. destruct (N.eqb_spec (N.of_nat i) k); auto. lia.
    + intros y Vy. unfold va. destruct (IX y Vy) as [j [Hj [hj Ej]]]. rewrite Ej, Au'.
      destruct (N.eqb_spec n y) as [<-|ne].
      * rewrite Ei in Ej. inversion Ej as [Q]. now rewrite N.eqb_refl.
      * destruct (N.eqb_spec (N.of_nat i) (N.of_nat j)) as [Q|Q]; auto. exfalso. apply ne. assert (i = j) by lia. subst. congruence.
  - apply Forall_forall. intros [x a] i. destruct (D2 x a i) as [ix _]. cbn [fst]. split; auto.
    intros m c k y im Em. eapply Into; eauto.
  - split; auto. lia.
  - exists w. split; [unfold lop_apply_to; rewrite Dzero; exact Ew|]. split; auto. split; [congruence|]. split.
    + intros k y Hy. assert (iy : In y ys) by (eapply nth_error_In; eauto). specialize (Aw y iy). unfold va in Aw. rewrite (Hf k y Hy) in Aw.
      rewrite Aw, Az, (sl_add_0 so L).
      apply (esum_basis so L _ psi _ bas (proj1 HB) D1).
      * intros x a i. apply (D2 x a i).
      * intros x nz. apply D3; auto. destruct (in_dec N.eq_dec x xs) as [i|i]; auto. exfalso. apply nz. now apply Em2.
      * intros x i. apply in_map_iff in i. destruct i as [[x' a] [<- i]]. cbn [fst]. apply HB. apply Vx. apply (D2 _ _ i).
    + intros k hk. rewrite Fw, Az; auto.
Qed.
(** the exact result has no amplitude outside of the destination *)
Lemma numbered_outside y : ~ In y ys -> ssum so (fun x => s_mul so (mel io so sq half l e y x) (psi x)) bas = s_zero so.
Proof.
  intros ny. destruct Emb as [Em1 Em2].
  assert (Z : forall x, In x bas -> s_mul so (mel io so sq half l e y x) (psi x) = s_zero so).
  { intros x _. destruct (in_dec N.eq_dec x xs) as [i|i]; [|rewrite (Em2 x i); apply (mul_0_r so L)].
    assert (M0 : mel io so sq half l e y x = s_zero so).
    { assert (G : forall e', incl e' e -> mel io so sq half l e' y x = s_zero so); [|apply G; intros q; auto].
      induction e' as [|[m c] e' IH]; intros Hin; cbn [mel]; auto. rewrite IH by (intros q Hq; apply Hin; now right).
      rewrite (sadd_0_r so L). destruct (mono_act io so sq half l m x) as [[k z]|] eqn:E; cbn [amp1].
      - destruct (N.eqb_spec z y) as [<-|]; [|apply (mul_0_r so L)]. exfalso. apply ny. eapply Into; eauto. apply Hin. now left.
      - apply (mul_0_r so L). }
    rewrite M0. apply (mul_0_l so L). }
  clear -Z L. induction bas as [|x b IH]; cbn [ssum]; auto. rewrite Z by (now left). rewrite IH, (sl_add_0 so L); auto.
  intros x' i. apply Z. now right.
Qed.
End Numbered.
