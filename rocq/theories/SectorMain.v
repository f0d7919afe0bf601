(** Proofs about N-fermion sectors: the single-sector view *)
From Coq Require Import NArith ZArith List Bool Arith Sorted Lia.
From Verif Require Import BitsModel BitsSpec BitsProofs RankModel RankSpec RankProofs ExprModel ExprSpec ExprOrder HSModel HSSpec HSEnum HSProofs HSMain PropHS
  PropRank LOpModel LOpSpec SectorModel SectorSpec SectorProofs.
Import ListNotations.
Open Scope N_scope.
Open Scope list_scope.

(** The numbering algorithm [r] agrees with combination_ranking on the sector *)
Definition rank_ok (p : sector_params) (r : N -> option N) : Prop :=
  forall x, in_sector (pM p) (pN p) x = true -> r x = cr_rank (combination_ranking_init p) x.

Lemma pow2_some k : (k <= 63)%nat -> pow2 k = Some (2 ^ N.of_nat k).
Proof. intros h. unfold pow2. destruct (Nat.ltb_spec k 64); auto. lia. Qed.
Lemma pow2_lt64 k : (k <= 63)%nat -> 2 ^ N.of_nat k < 2 ^ 64.
Proof. intros. apply N.pow_lt_mono_r; lia. Qed.

Lemma ug_reset_init p : ug_reset (unranking_generator_init p) = unranking_generator_init p.
Proof. reflexivity. Qed.
Lemma ug_total_binom p : (pM p <= 62)%nat -> (pN p <= pM p)%nat -> ug_total (unranking_generator_init p) = binom (pM p) (pN p).
Proof.
  intros hM hN. unfold unranking_generator_init. cbn [ug_total]. rewrite binomial_exact by auto.
  unfold n_counted. destruct (pN p <=? pM p / 2)%nat; auto. now apply binom_sym.
Qed.

Lemma ug_all_spec p : (pM p <= 62)%nat -> (pN p <= pM p)%nat ->
  exists us, ug_all (ug_reset (unranking_generator_init p)) = Some us /\
    N.of_nat (length us) = binom (pM p) (pN p) /\
    (forall x, In x us <-> in_sector (pM p) (pN p) x = true) /\
    (forall i x, nth_error us i = Some x -> cr_rank (combination_ranking_init p) x = Some (N.of_nat i)).
Proof.
  intros hM hN. rewrite ug_reset_init. unfold ug_all. rewrite ug_total_binom by auto.
  destruct (C42_unranking_complete p hM hN) as [g [l [E [D [ND A]]]]].
  destruct (C42_unranking_inverts_ranking p (N.to_nat (binom (pM p) (pN p))) hM hN ltac:(lia)) as [g' [l' [E' [L [D' R]]]]].
  rewrite E in E'. inversion E'; subst g' l'. rewrite E, D. exists l. repeat split; auto; try (apply A). - lia. - intros i x H. now apply R.
Qed.

Lemma add_shift_lt u nf M K : u < 2 ^ M -> nf < 2 ^ K -> u + nf * 2 ^ M < 2 ^ (M + K).
Proof. intros. rewrite N.pow_add_r. nia. Qed.
Lemma add_shift_mod u nf M : u < 2 ^ M -> (u + nf * 2 ^ M) mod 2 ^ M = u.
Proof. intros. rewrite N.mod_add by (apply N.pow_nonzero; lia). now apply N.mod_small. Qed.
Lemma add_shift_div u nf M : u < 2 ^ M -> (u + nf * 2 ^ M) / 2 ^ M = nf.
Proof. intros. rewrite N.div_add by (apply N.pow_nonzero; lia). rewrite N.div_small by auto. lia. Qed.

Lemma binom_le_pow n k : binom n k <= 2 ^ N.of_nat n.
Proof.
  revert k. induction n as [|n IH]; intros [|k]; cbn [binom].
  - cbn. lia.
  - cbn. lia.
  - pose proof (pow_pos (Datatypes.S n)). lia.
  - rewrite Nat2N.inj_succ, N.pow_succ_r'. pose proof (IH k). pose proof (IH (Datatypes.S k)). lia.
Qed.

Section Loop.
Context (p : sector_params) (K : nat).
Context (hM : (pM p <= 62)%nat) (hN : (pN p <= pM p)%nat) (hT : (pM p + K <= 63)%nat).
Notation M := (pM p).
Lemma sector_loop_spec : exists l, sector_loop p (Z.of_nat K) = SOk l /\
  N.of_nat (length l) = binom M (pN p) * 2 ^ N.of_nat K /\
  (forall x, In x l <-> x < 2 ^ N.of_nat (M + K) /\ weight (x mod 2 ^ N.of_nat M) = pN p) /\
  (forall i x, nth_error l i = Some x -> exists r, cr_rank (combination_ranking_init p) (x mod 2 ^ N.of_nat M) = Some r /\
     N.of_nat i = r * 2 ^ N.of_nat K + x / 2 ^ N.of_nat M).
Proof.
  destruct (ug_all_spec p hM hN) as [us [E [L [A R]]]]. unfold sector_loop. rewrite E. cbn [of_opt sbind].
  rewrite Nat2Z.id, pow2_some by lia. cbn [of_opt sbind].
  assert (W : forall u nf, In u us -> In nf (count_to (2 ^ N.of_nat K)) ->
     w64 (u + w64 (N.shiftl nf (N.of_nat M))) = u + nf * 2 ^ N.of_nat M /\ u < 2 ^ N.of_nat M /\ nf < 2 ^ N.of_nat K).
  { intros u nf Hu Hn. apply A in Hu. unfold in_sector in Hu. apply andb_prop in Hu. destruct Hu as [Hu _]. apply N.ltb_lt in Hu.
    apply count_to_In in Hn. rewrite N.shiftl_mul_pow2.
    pose proof (add_shift_lt u nf _ _ Hu Hn) as Q. rewrite <- Nat2N.inj_add in Q. pose proof (pow2_lt64 (M + K) ltac:(lia)) as Q2.
    rewrite (w64_small (nf * _)) by lia. rewrite w64_small by lia. auto. }
  exists (flat_map (fun u => map (fun nf => u + nf * 2 ^ N.of_nat M) (count_to (2 ^ N.of_nat K))) us). split; [|split; [|split]].
  - f_equal. rewrite !flat_map_concat_map. f_equal. apply map_ext_in. intros u Hu. apply map_ext_in. intros nf Hn. now apply W.
  - rewrite blocks_length, count_to_length. rewrite Nat2N.inj_mul, L, N2Nat.id. reflexivity.
  - intros x. rewrite blocks_In. split.
    + intros [u [nf [Hu [Hn ->]]]]. destruct (W u nf Hu Hn) as [_ [h1 h2]]. rewrite add_shift_mod by auto. split.
      * rewrite Nat2N.inj_add. now apply add_shift_lt.
      * apply A in Hu. unfold in_sector in Hu. apply andb_prop in Hu. now apply Nat.eqb_eq.
    + intros [h1 h2]. exists (x mod 2 ^ N.of_nat M), (x / 2 ^ N.of_nat M). split; [|split].
      * apply A. unfold in_sector. rewrite h2, Nat.eqb_refl, andb_true_r. apply N.ltb_lt. apply N.mod_lt. apply N.pow_nonzero; lia.
      * apply count_to_In. apply N.div_lt_upper_bound; [apply N.pow_nonzero; lia|]. rewrite <- N.pow_add_r, <- Nat2N.inj_add. auto.
      * pose proof (N.div_mod x (2 ^ N.of_nat M)) as Q. specialize (Q ltac:(apply N.pow_nonzero; lia)). lia.
  - intros i x H. destruct (blocks_nth _ _ _ _ _ H) as [r [q [u [nf [Ei [hq [Eu [En ->]]]]]]]].
    destruct (W u nf (nth_error_In _ _ Eu) (nth_error_In _ _ En)) as [_ [h1 h2]].
    rewrite add_shift_mod, add_shift_div by auto. exists (N.of_nat r). split; [now apply R|].
    rewrite count_to_length in *. rewrite count_to_nth in En. destruct (Nat.ltb_spec q (N.to_nat (2 ^ N.of_nat K))); [|lia]. inversion En; subst nf.
    subst i. rewrite Nat2N.inj_add, Nat2N.inj_mul, N2Nat.id. reflexivity.
Qed.

(** sector_map_index of a state of the list *)
Lemma sector_index_spec r l : rank_ok p r -> sector_loop p (Z.of_nat K) = SOk l ->
  forall i x, nth_error l i = Some x ->
    sector_map_index (mk_view p r (2 ^ N.of_nat M - 1) (Z.of_nat K)) x = Some (N.of_nat i).
Proof.
  intros Hr E i x H. destruct sector_loop_spec as [l' [E' [L [A R]]]]. rewrite E in E'. inversion E'; subst l'.
  destruct (R i x H) as [k [Ek Ei]]. apply nth_error_In in H as Hx. apply A in Hx. destruct Hx as [h1 h2].
  unfold sector_map_index. cbn [vw_rank vw_fmask vw_nonf vw_params].
  replace (2 ^ N.of_nat M - 1) with (N.ones (N.of_nat M)) by (rewrite N.ones_equiv; lia). rewrite N.land_ones.
  assert (S1 : in_sector M (pN p) (x mod 2 ^ N.of_nat M) = true).
  { unfold in_sector. rewrite h2, Nat.eqb_refl, andb_true_r. apply N.ltb_lt. apply N.mod_lt. apply N.pow_nonzero; lia. }
  rewrite (Hr _ S1), Ek. rewrite N.shiftl_mul_pow2, N.shiftr_div_pow2. rewrite nat_N_Z || idtac.
  replace (Z.to_N (Z.of_nat K)) with (N.of_nat K) by lia. f_equal.
  assert (Q : N.of_nat i < 2 ^ 64).
  { assert ((i < length l)%nat) by (apply nth_error_Some; congruence). pose proof (binom_le_pow M (pN p)).
    pose proof (pow2_lt64 (M + K) ltac:(lia)) as Q2. rewrite Nat2N.inj_add, N.pow_add_r in Q2. assert (0 < 2 ^ N.of_nat K) by (apply pow_pos). nia. }
  rewrite (w64_small (k * _)) by (eapply N.le_lt_trans; [|exact Q]; rewrite Ei; apply N.le_add_r). rewrite <- Ei. now apply w64_small.
Qed.
End Loop.

Section Space.
Context {I : Type} (io : index_ops I) (Hio : index_order io).
Notation nmodes h := (length (modes (spaces h))).

Lemma fresh_split h : hs_fresh io h -> exists rest, spaces h = map ESFermion (modes (spaces h)) ++ rest /\ no_fermion rest.
Proof. intros F. apply (modes_split io). apply (reachable_inv io Hio h (fresh_reachable io h F)). Qed.
Lemma reach_total h : hs_reachable io h -> hs_total_n_bits h = Z.of_nat (total_bits (spaces h)) /\ (total_bits (spaces h) <= 63)%nat.
Proof. intros R. destruct (reachable_inv io Hio h R) as [_ [_ [_ [E [B _]]]]]. unfold hs_total_n_bits. lia. Qed.

Lemma fresh_fermions h : hs_fresh io h -> alg_find (-3) (hs_algs h) =
  match modes (spaces h) with [] => None | _ => Some (0, Z.of_nat (nmodes h) - 1)%Z end.
Proof.
  intros F. rewrite (fresh_algs io Hio h F). destruct (fresh_split h F) as [rest [E N0]]. rewrite E at 1.
  rewrite seg_fermions by auto. destruct (modes (spaces h)); auto.
Qed.
Lemma fresh_m h : hs_fresh io h -> sec_init_m h = SOk (nmodes h).
Proof.
  intros F. unfold sec_init_m, hs_has_algebra, hs_algebra_bit_range. rewrite (fresh_fermions h F).
  destruct (modes (spaces h)) as [|i t]; auto. cbn [Z.eqb]. f_equal. cbn [length]. lia.
Qed.

(** membership in the sector as a property of bits *)
Lemma particles_bits l x : StronglySorted (es_before io) l ->
  particles io l x (modes l) = weight (x mod 2 ^ N.of_nat (length (modes l))).
Proof.
  intros S. pose proof (modes_nodup io Hio l S) as ND. destruct (modes_split io l S) as [rest [E N0]].
  unfold particles. rewrite <- ones_mod_length. unfold occupied.
  transitivity (length (filter (fun i => occupied_from io (map ESFermion (modes l) ++ rest) 0 x i) (modes l))).
  { f_equal. apply filter_ext. intros i. now rewrite <- E. }
  remember (modes l) as ms eqn:Q. clear Q E S l.
  assert (G : forall ms', ms = ms' -> forall is s, (forall k i, nth_error is k = Some i -> nth_error ms' (s + k)%nat = Some i) ->
    length (filter (fun i => occupied_from io (map ESFermion ms' ++ rest) 0 x i) is) = length (filter (fun k => N.testbit x (N.of_nat k)) (seq s (length is)))).
  { intros ms' -> is. induction is as [|i is IH]; intros s H; auto. cbn [filter length seq].
    rewrite (occupied_nth io Hio ms' rest s i x ND) by (rewrite <- (Nat.add_0_r s); now apply H).
    cbn [Nat.add]. destruct (N.testbit x (N.of_nat s)); cbn [length]; rewrite (IH (Datatypes.S s)); auto;
    intros k j Hk; specialize (H (Datatypes.S k) j Hk); now rewrite <- Nat.add_succ_comm in H. }
  apply (G ms eq_refl ms 0%nat). auto.
Qed.
Lemma dense_valid (l : list (espace I)) x : dense_spaces l -> (valid_state l x <-> x < 2 ^ N.of_nat (total_bits l)).
Proof.
  intros D. split; [intros [h _]; auto|]. intros h. split; auto. intros k e E. unfold dense_spaces in D. rewrite Forall_forall in D.
  rewrite (D e (nth_error_In _ _ E)). unfold bit_field. apply N.mod_lt. apply N.pow_nonzero. lia.
Qed.
Lemma in_sector_bits h n x : hs_reachable io h -> dense_spaces (spaces h) ->
  (in_nf_sector io (spaces h) n x <-> x < 2 ^ N.of_nat (total_bits (spaces h)) /\ weight (x mod 2 ^ N.of_nat (nmodes h)) = n).
Proof.
  intros R D. unfold in_nf_sector. rewrite dense_valid by auto. rewrite particles_bits; [reflexivity|].
  apply (reachable_inv io Hio h R).
Qed.
Lemma sparse_dense h : hs_reachable io h -> (hs_is_sparse h = Some false <-> dense_spaces (spaces h)) /\
  (hs_is_sparse h = Some false \/ hs_is_sparse h = Some true).
Proof.
  intros R. destruct (C20_dimensions io h Hio R) as [_ [V [_ [_ D]]]]. split; auto.
  unfold hs_is_sparse. rewrite V. cbn. destruct (_ <? _); auto.
Qed.
End Space.
