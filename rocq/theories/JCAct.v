(** Action of the Jaynes-Cummings generators on the states |n, s> *)
From Coq Require Import NArith ZArith List Bool Lia Sorted Reals Lra.
From Verif Require Import ExprModel ExprSpec ExprOrder ExprMap ExprEval ExprStd ExprThrow ExprMain ExprInst PropExpr
  ConvSpec FockSpec PropUnique BitsModel BitsSpec BitsProofs HSModel HSSpec HSEnum HSProofs HSMain PropHS LOpModel LOpSpec LOpFermion LOpSite LOpApply LOpMain LOpReal LOpFaithful
  PolySpec PolyExpr PropPoly PropCut PropParam JCModel JCExpr.
Import ListNotations.
Close Scope R_scope.
Close Scope string_scope.
Open Scope nat_scope.
Open Scope list_scope.

Section Act.
Context {I : Type} (io : index_ops I) (Hio : index_order io) (hs : hspace I) (Hr : hs_reachable io hs).
Context (kb ks : nat) (d : N) (i j : I).
Context (Eb : nth_error (spaces hs) kb = Some (ESBoson d i)) (Es : nth_error (spaces hs) ks = Some (ESSpin 2 j)).
Let l := spaces hs.
Let ob := offset l kb.
Let os := offset l ks.
Let nb := es_nbits (ESBoson d i).
Let Hi : hs_inv io hs := reachable_inv io Hio hs Hr.
Let S0 : StronglySorted (es_before io) l := proj1 Hi.
Let W : Forall es_wf l := proj1 (proj2 Hi).

Definition st (n s : N) : N := set_field (set_field 0 ob nb n) os 1 s.

Lemma d_le : (d <= 2 ^ N.of_nat nb)%N.
Proof.
  assert (we : es_wf (ESBoson d i)) by (rewrite Forall_forall in W; apply W; eapply nth_error_In; exact Eb).
  exact (dim_le _ we).
Qed.
Lemma n_lt n : (n < d)%N -> (n < 2 ^ N.of_nat nb)%N.
Proof. pose proof d_le. lia. Qed.
Lemma s_lt s : (s < 2)%N -> (s < 2 ^ N.of_nat 1)%N.
Proof. intros h. exact h. Qed.
Lemma apart : (os + 1 <= ob \/ ob + nb <= os)%nat.
Proof.
  assert (ne : kb <> ks) by (intros E; rewrite E, Es in Eb; discriminate).
  destruct (sites_disjoint l ks _ kb _ Es Eb (not_eq_sym ne)) as [h|h]; [left|right]; exact h.
Qed.
Lemma fb_st n s : (n < d)%N -> (s < 2)%N -> bit_field (st n s) ob nb = n.
Proof.
  intros hn hs_. unfold st. rewrite bit_field_set_other; [apply bit_field_set; now apply n_lt|now apply s_lt|apply apart].
Qed.
Lemma fs_st n s : (s < 2)%N -> bit_field (st n s) os 1 = s.
Proof. intros hs_. unfold st. apply bit_field_set. now apply s_lt. Qed.
Lemma setb_st n s m : (n < d)%N -> (s < 2)%N -> (m < d)%N -> set_field (st n s) ob nb m = st m s.
Proof.
  intros hn hs_ hm. unfold st. rewrite set_field_comm; [|now apply s_lt|now apply n_lt|apply apart].
  rewrite set_field_set; [reflexivity|now apply n_lt|now apply n_lt].
Qed.
Lemma sets_st n s t : (s < 2)%N -> (t < 2)%N -> set_field (st n s) os 1 t = st n t.
Proof. intros h1 h2. unfold st. apply set_field_set; now apply s_lt. Qed.
Lemma st_valid n s : (n < d)%N -> (s < 2)%N -> valid_state l (st n s).
Proof.
  intros hn h2. unfold st.
  assert (V0 : valid_state l 0).
  { split; [apply N.neq_0_lt_0, N.pow_nonzero; discriminate|]. intros k e E. rewrite bit_field_zero. apply wf_dim.
    rewrite Forall_forall in W. apply W. eapply nth_error_In; eauto. }
  apply (valid_update l ks (ESSpin 2 j)); [exact W| |exact Es|exact h2].
  apply (valid_update l kb (ESBoson d i)); [exact W|exact V0|exact Eb|exact hn].
Qed.
Lemma st_inj n s m t : (n < d)%N -> (m < d)%N -> (s < 2)%N -> (t < 2)%N -> st n s = st m t -> n = m /\ s = t.
Proof.
  intros h1 h2 h3 h4 E. split.
  - rewrite <- (fb_st n s), <- (fb_st m t); auto. now rewrite E.
  - rewrite <- (fs_st n s), <- (fs_st m t); auto. now rewrite E.
Qed.
Lemma st_sum n s : (n < d)%N -> (s < 2)%N -> (st n s = n * 2 ^ N.of_nat ob + s * 2 ^ N.of_nat os)%N.
Proof.
  intros hn h2. apply N2Z.inj. unfold st. rewrite field_shift.
  assert (Z0 : bit_field (set_field 0 ob nb n) os 1 = 0%N).
  { rewrite bit_field_set_other; [apply bit_field_zero|now apply n_lt|]. destruct apart; [right|left]; assumption. }
  rewrite Z0, field_shift, bit_field_zero. rewrite N2Z.inj_add, !N2Z.inj_mul, !N2Z.inj_pow, !nat_N_Z. change (Z.of_N 2) with 2%Z. ring.
Qed.

Lemma index_part k e m : nth_error l k = Some e -> (m < es_dim e)%N ->
    hs_basis_state_index io hs e m = Some (Some (m * 2 ^ N.of_nat (offset l k))%N).
Proof.
  intros E hm. destruct (C24_decodes io hs k e m Hio Hr E hm) as [x [Q [V F]]]. rewrite Q. do 2 f_equal.
  apply (state_ext l W); [exact V| |].
  - assert (we : es_wf e) by (rewrite Forall_forall in W; apply W; eapply nth_error_In; eauto).
    rewrite N.mul_comm, <- (set_field_0 (offset l k) (es_nbits e) m).
    apply (valid_update l k e); [exact W| |exact E|exact hm].
    split; [apply N.neq_0_lt_0, N.pow_nonzero; discriminate|]. intros k' e' E'. rewrite bit_field_zero. apply wf_dim.
    rewrite Forall_forall in W. apply W. eapply nth_error_In; eauto.
  - intros k' e' E'. unfold fld. fold l in F. rewrite (F k' e' E').
    assert (we : es_wf e) by (rewrite Forall_forall in W; apply W; eapply nth_error_In; eauto).
    pose proof (dim_le e we) as DL.
    rewrite N.mul_comm, <- (set_field_0 (offset l k) (es_nbits e) m).
    destruct (Nat.eqb_spec k' k) as [->|ne].
    + rewrite E in E'. inversion E'; subst e'. symmetry. apply bit_field_set. lia.
    + rewrite bit_field_set_other; [symmetry; apply bit_field_zero|lia|].
      destruct (sites_disjoint l k _ k' _ E E' (not_eq_sym ne)) as [h|h]; [left|right]; exact h.
Qed.
Lemma index_st n s : (n < d)%N -> (s < 2)%N -> jc_index io hs (ESBoson d i) (ESSpin 2 j) n s = Some (st n s).
Proof.
  intros hn h2. unfold jc_index. rewrite (index_part kb _ n Eb hn), (index_part ks _ s Es h2).
  fold ob os. rewrite <- (st_sum n s hn h2). f_equal. apply w64_small.
  destruct (st_valid n s hn h2) as [v _]. eapply N.lt_le_trans; [exact v|]. apply N.pow_le_mono_r; [discriminate|].
  pose proof Hi as [_ [_ [_ [_ [B _]]]]]. fold l in B. lia.
Qed.

(** actions *)
Local Open Scope R_scope.
Notation ga := (gen_act io real_ops real_sq real_half l).
Lemma ga_loc g k e x : nth_error l k = Some e -> carries io g e = true ->
  ga g x = match loc real_ops real_sq real_half g e (bit_field x (offset l k) (es_nbits e)) with
           | None => None | Some (c, n') => Some (jwf real_ops g (offset l k) x * c, set_field x (offset l k) (es_nbits e) n') end.
Proof. intros E C. apply (gen_act_loc io Hio real_ops real_sq real_half real_laws l g k e x S0 (conj E C)). Qed.
Lemma cb b : carries io (GBoson b i) (ESBoson d i) = true.
Proof. apply (carries_slot io Hio). constructor. Qed.
Lemma cs c : carries io (GSpin 2 c j) (ESSpin 2 j) = true.
Proof. apply (carries_slot io Hio). constructor. Qed.
Lemma act_An n s : (n < d)%N -> (s < 2)%N -> ga (GBoson false i) (st n s) = if N.eqb n 0 then None else Some (real_sq n, st (n - 1) s).
Proof.
  intros hn h2. rewrite (ga_loc _ kb _ _ Eb (cb false)). fold ob nb. rewrite (fb_st n s hn h2). cbn [loc].
  destruct (N.eqb n 0); [reflexivity|]. unfold jwf. cbn [is_f s_one real_ops]. rewrite setb_st by lia. f_equal. f_equal. ring.
Qed.
Lemma act_Ad n s : (n < d)%N -> (s < 2)%N -> ga (GBoson true i) (st n s) = if N.ltb (n + 1) d then Some (real_sq (n + 1), st (n + 1) s) else None.
Proof.
  intros hn h2. rewrite (ga_loc _ kb _ _ Eb (cb true)). fold ob nb. rewrite (fb_st n s hn h2). cbn [loc es_dim].
  destruct (N.ltb_spec (n + 1) d); [|reflexivity]. unfold jwf. cbn [is_f s_one real_ops]. rewrite setb_st by lia. f_equal. f_equal. ring.
Qed.
Lemma act_Sz n s : (n < d)%N -> (s < 2)%N -> ga (GSpin 2 Zcomp j) (st n s) = Some (real_half (2 * Z.of_N s - 1), st n s).
Proof.
  intros hn h2. rewrite (ga_loc _ ks _ _ Es (cs Zcomp)). change (es_nbits (ESSpin 2 j)) with 1%nat. fold os. rewrite (fs_st n s h2). cbn [loc].
  unfold jwf. cbn [is_f s_one real_ops]. rewrite sets_st by auto. f_equal. f_equal. change (Z.of_nat 2 - 1)%Z with 1%Z. ring.
Qed.
Lemma act_Sp n s : (n < d)%N -> (s < 2)%N -> ga (GSpin 2 Plus j) (st n s) = if N.eqb s 0 then Some (1, st n 1) else None.
Proof.
  intros hn h2. rewrite (ga_loc _ ks _ _ Es (cs Plus)). change (es_nbits (ESSpin 2 j)) with 1%nat. fold os. rewrite (fs_st n s h2). cbn [loc].
  destruct (N.eqb_spec s 0) as [->|n0].
  - change (N.of_nat 2) with 2%N. destruct (N.ltb_spec (0 + 1) 2) as [_|bad]; [|lia]. change ((2 - 1 - 0) * (0 + 1))%N with 1%N. change (0 + 1)%N with 1%N.
    unfold jwf. cbn [is_f s_one real_ops]. rewrite sets_st by (auto; lia). f_equal. f_equal. unfold real_sq. cbn. rewrite sqrt_1. ring.
  - change (N.of_nat 2) with 2%N. destruct (N.ltb_spec (s + 1) 2); [lia|reflexivity].
Qed.
Lemma act_Sm n s : (n < d)%N -> (s < 2)%N -> ga (GSpin 2 Minus j) (st n s) = if N.eqb s 0 then None else Some (1, st n 0).
Proof.
  intros hn h2. rewrite (ga_loc _ ks _ _ Es (cs Minus)). change (es_nbits (ESSpin 2 j)) with 1%nat. fold os. rewrite (fs_st n s h2). cbn [loc].
  destruct (N.eqb_spec s 0) as [->|n0]; [reflexivity|]. assert (E1 : s = 1%N) by lia. subst s.
  change (N.of_nat 2) with 2%N. change ((2 - 1) * 1)%N with 1%N. change (1 - 1)%N with 0%N.
  unfold jwf. cbn [is_f s_one real_ops]. rewrite sets_st by (auto; lia). f_equal. f_equal. unfold real_sq. cbn. rewrite sqrt_1. ring.
Qed.
Lemma sq_sq n : real_sq n * real_sq n = IZR (Z.of_N n).
Proof. unfold real_sq. apply sqrt_sqrt. apply IZR_le. lia. Qed.
Definition delta_ (x y : N) : R := if N.eqb x y then 1 else 0.
Lemma amp1_delta (c : R) x y : amp1 real_ops (Some (c, x)) y = c * delta_ x y.
Proof. unfold delta_. cbn. destruct (N.eqb x y); cbn; ring. Qed.

Section Mel.
Context (hb wc wa Om : R).
Notation me := (mel io real_ops real_sq real_half l (h_terms real_ops i j (1 / 2) hb wc wa Om)).
Ltac acts := repeat first [rewrite act_An by lia|rewrite act_Ad by lia|rewrite act_Sz by lia|rewrite act_Sp by lia|rewrite act_Sm by lia].
(** H |n, g> *)
Lemma mel_g n y : (n < d)%N -> me y (st n 0) =
  (hb * wc * IZR (Z.of_N n) - hb * wa / 2) * delta_ (st n 0) y +
  (if N.eqb n 0 then 0 else hb * Om / 2 * real_sq n * delta_ (st (n - 1) 1) y).
Proof.
  intros hn. cbn [mel h_terms mono_act LOpSpec.obind].
  rewrite act_Sz, act_An, act_Sm, act_Sp by lia. change (N.eqb 0 0) with true. cbn [LOpSpec.obind]. rewrite act_An by lia.
  assert (H0 : real_half (2 * Z.of_N 0 - 1) = - (1 / 2)) by (unfold real_half; cbn; field).
  rewrite H0. destruct (N.eqb_spec n 0) as [->|n0]; cbn [LOpSpec.obind].
  - cbn [amp1]. fold (amp1 real_ops). rewrite ?amp1_delta. cbn [s_mul s_one s_add s_zero real_ops]. cbn. unfold delta_. destruct (N.eqb (st 0 0) y); cbn; field.
  - rewrite act_Ad by lia. destruct (N.ltb_spec (n - 1 + 1) d); [|lia]. replace (n - 1 + 1)%N with n by lia.
    cbn [s_mul s_one s_add s_zero real_ops]. rewrite !amp1_delta. cbn [amp1 s_zero real_ops].
    replace (IZR (Z.of_N n)) with (real_sq n * real_sq n) by apply sq_sq. field.
Qed.
(** H |n, e> *)
Lemma mel_e n y : (n + 1 < d)%N -> me y (st n 1) =
  (hb * wc * IZR (Z.of_N n) + hb * wa / 2) * delta_ (st n 1) y +
  hb * Om / 2 * real_sq (n + 1) * delta_ (st (n + 1) 0) y.
Proof.
  intros hn. cbn [mel h_terms mono_act LOpSpec.obind].
  rewrite act_Sz, act_An, act_Sm, act_Sp by lia. change (N.eqb 1 0) with false. cbv iota. cbn [LOpSpec.obind]. rewrite act_Ad by lia.
  destruct (N.ltb_spec (n + 1) d); [|lia]. cbn [LOpSpec.obind].
  assert (H0 : real_half (2 * Z.of_N 1 - 1) = 1 / 2) by (unfold real_half; cbn; field).
  rewrite H0. destruct (N.eqb_spec n 0) as [->|n0]; cbn [LOpSpec.obind].
  - cbn [s_mul s_one s_add s_zero real_ops]. rewrite !amp1_delta. cbn [amp1 s_zero real_ops]. cbn [Z.of_N]. field.
  - rewrite act_Ad by lia. destruct (N.ltb_spec (n - 1 + 1) d); [|lia]. replace (n - 1 + 1)%N with n by lia.
    cbn [s_mul s_one s_add s_zero real_ops]. rewrite !amp1_delta. cbn [amp1 s_zero real_ops].
    replace (IZR (Z.of_N n)) with (real_sq n * real_sq n) by apply sq_sq. field.
Qed.
End Mel.
End Act.
