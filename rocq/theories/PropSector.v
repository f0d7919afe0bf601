(** C45, C46: sectors with fixed numbers of fermions *)
From Coq Require Import NArith ZArith List Bool Arith Sorted Lia.
From Verif Require Import BitsModel BitsSpec BitsProofs RankModel RankSpec RankProofs StaggeredProofs ExprModel ExprSpec ExprOrder HSModel HSSpec HSEnum HSProofs HSMain PropHS
  PropRank TrieModel PropTrie LOpModel LOpSpec SectorModel SectorSpec SectorProofs SectorMain.
Import ListNotations.
Open Scope N_scope.
Open Scope list_scope.

(** the ranking algorithms of the library (for chunks of more than 51 bits the
    table of staggered_ranking may have 2^64 entries or more) *)
Inductive ranking_algorithm : ranking -> Prop :=
| ra_combination : ranking_algorithm comb_ranking
| ra_staggered : forall R, (0 < R <= 51)%nat -> ranking_algorithm (stag_ranking R)
| ra_trie : forall R, (0 < R < 64)%nat -> ranking_algorithm (trie_based_ranking R).

Lemma omap_length {A B} (f : A -> option B) l r : omap f l = Some r -> length r = length l.
Proof.
  revert r. induction l as [|a l IH]; cbn; intros r E; [inversion E; auto|]. destruct (f a); [|discriminate]. cbn in E.
  destruct (omap f l); [|discriminate]. cbn in E. inversion E; subst. cbn. now rewrite (IH l0).
Qed.
Lemma flat_map_length_le {A B} (f : A -> list B) l c : (forall a, In a l -> (length (f a) <= c)%nat) -> (length (flat_map f l) <= length l * c)%nat.
Proof.
  induction l as [|a l IH]; cbn; intros H; auto. rewrite app_length. specialize (IH (fun a i => H a (or_intror i))). specialize (H a (or_introl eq_refl)). lia.
Qed.
Lemma stag_table R p s : (0 < R <= 51)%nat -> (pM p <= 63)%nat -> staggered_ranking_init R p = Some s -> N.of_nat (length (sr_lookup s)) < 2 ^ 64.
Proof.
  intros hR hM E. unfold staggered_ranking_init in E. destruct (omap _ _) as [l|] eqn:El; [|discriminate]. cbn in E. inversion E; subst. cbn [sr_lookup].
  apply omap_length in El. rewrite El.
  assert (Q : (length (flat_map (fun mp => flat_map (fun Np => map (fun r => ((mp, Np), r)) (range (2 ^ N.of_nat R))) (seq 0 (mp * R + 1))) (seq 0 (pM p / R + 1)))
     <= (pM p / R + 1) * (64 * N.to_nat (2 ^ N.of_nat R)))%nat).
  { eapply Nat.le_trans; [apply flat_map_length_le with (c := (64 * N.to_nat (2 ^ N.of_nat R))%nat)|rewrite seq_length; auto].
    intros mp Hm. apply in_seq in Hm. eapply Nat.le_trans; [apply flat_map_length_le with (c := N.to_nat (2 ^ N.of_nat R))|].
    - intros Np _. rewrite map_length. unfold range. rewrite map_length, seq_length. auto.
    - rewrite seq_length. apply Nat.mul_le_mono_r. pose proof (Nat.mul_div_le (pM p) R ltac:(lia)). nia. }
  assert (Q2 : (pM p / R + 1 <= 64)%nat). { pose proof (Nat.div_le_upper_bound (pM p) R (pM p) ltac:(lia)). nia. }
  assert (Q3 : 2 ^ N.of_nat R <= 2 ^ 51) by (apply N.pow_le_mono_r; lia). clear - Q Q2 Q3.
  set (n := length _) in *. clearbody n. set (b := 2 ^ N.of_nat R) in *. clearbody b.
  assert (N.of_nat n <= 64 * (64 * 2 ^ 51)); [|eapply N.le_lt_trans; [eassumption|reflexivity]].
  apply (f_equal N.of_nat) in Q2 || idtac. assert (N.of_nat n <= N.of_nat (pM p / R + 1) * (64 * b)).
  { rewrite <- (N2Nat.id b). clear - Q. lia. }
  assert (N.of_nat (pM p / R + 1) <= 64) by lia. nia.
Qed.

Lemma ranking_ok rk p : ranking_algorithm rk -> (pM p <= 62)%nat -> (pN p <= pM p)%nat -> exists r, rk p = Some r /\ rank_ok p r.
Proof.
  intros H hM hN. destruct H as [|R hR|R hR].
  - exists (cr_rank (combination_ranking_init p)). split; [reflexivity|]. intros x hx. reflexivity.
  - destruct (C43_staggered_constructible R p ltac:(lia)) as [s E]. exists (sr_rank s). split; [unfold stag_ranking; now rewrite E|].
    intros x hx. apply (C43_staggered_equals_combination R p s x); [lia|lia|exact hN|exact E| |exact hx]. apply (stag_table R p s); [exact hR|lia|exact E].
  - destruct (C44_trie_equals_combination R p hR hM hN) as [t [E Ht]]. exists (trie_rank t). split; [unfold trie_based_ranking; now rewrite E|].
    intros x hx. apply Ht; exact hx.
Qed.

Section C45.
Context {I : Type} (io : index_ops I) (Hio : index_order io).

(** ** C45: the N-fermion sector *)
(** For a non-sparse Hilbert space with M <= 62 fermionic modes, N <= M particles
    and at least one bit per state, n_fermion_sector_basis_states() lists exactly the basis states with N
    fermions, without repetition; n_fermion_sector_size() is their number,
    C(M,N) times the dimension of the non-fermionic part; for each ranking
    algorithm the view's map_index() is the position in that list; and
    foreach() calls its functor for the states of that list, in that order, with the
    amplitudes stored at the positions of the underlying vector, skipping zeros. *)
Theorem C45_sector : forall (h : hspace I) n,
  hs_fresh io h -> hs_is_sparse h = Some false ->
  let M := length (modes (spaces h)) in
  let T := total_bits (spaces h) in
  (M <= 62)%nat -> (n <= M)%nat -> (0 < T)%nat ->
  exists l, sector_basis_states h n = SOk l /\
    sector_size h n = SOk (N.of_nat (length l)) /\
    N.of_nat (length l) = binom M n * 2 ^ N.of_nat (T - M) /\
    NoDup l /\ (forall x, In x l <-> in_nf_sector io (spaces h) n x) /\
    forall rk, ranking_algorithm rk ->
      exists w, make_sector_view rk h n = SOk w /\
        numbering l (in_nf_sector io (spaces h) n) (sector_map_index w) /\
        forall V S (so : scalar_ops S) (sv : sv_ops V S) (v : V) (amp : N -> S),
          (forall k, k < N.of_nat (length l) -> sv_get sv v k = Some (amp k)) ->
          sector_foreach so sv w v = SOk (nonzero_pairs so amp l 0).
Proof.
  intros h n F Sp M T hM hn hT. pose proof (fresh_reachable io h F) as R.
  destruct (reach_total io Hio h R) as [ET hT63]. fold T in ET, hT63.
  assert (D : dense_spaces (spaces h)) by (now apply (sparse_dense io Hio h R)).
  assert (hMT : (M <= T)%nat) by (apply modes_le).
  set (p := {| pM := M; pmask := 2 ^ N.of_nat M - 1; pN := n |}).
  assert (Ep : sec_params h n = SOk p).
  { unfold sec_params. rewrite (fresh_m io Hio h F). cbn [sbind]. fold M. rewrite pow2_some by lia. cbn [of_opt sbind].
    unfold validated_n. destruct (Nat.ltb_spec M n); [lia|]. reflexivity. }
  assert (EK : (hs_total_n_bits h - Z.of_nat M)%Z = Z.of_nat (T - M)) by lia.
  destruct (sector_loop_spec p (T - M) hM hn ltac:(cbn [pM p]; lia)) as [l [El [L [A _]]]]. cbn [pM pN p] in L, A.
  replace (M + (T - M))%nat with T in A by lia.
  assert (A' : forall x, In x l <-> in_nf_sector io (spaces h) n x).
  { intros x. rewrite (in_sector_bits io Hio h n x R D). apply A. }
  assert (NE : (M =? 0)%nat && Z.eqb (Z.of_nat (T - M)) 0 = false).
  { destruct (Nat.eqb_spec M 0); auto. destruct (Z.eqb_spec (Z.of_nat (T - M)) 0); auto. lia. }
  exists l. split; [|split; [|split; [exact L|split; [|split; [exact A'|]]]]].
  - unfold sector_basis_states, sec_sparse. rewrite Sp. cbn [of_opt sbind]. rewrite Ep. cbn [sbind pM p]. rewrite EK, NE. exact El.
  - unfold sector_size, sec_sparse. rewrite Sp. cbn [of_opt sbind].
    destruct (Z.eqb_spec (hs_total_n_bits h) 0); [lia|].
    assert (EM : (if hs_has_algebra h (-3) then match hs_algebra_bit_range h (-3) with Some (lo, hi) => SOk (Z.to_nat (hi - lo + 1)) | None => SThrow end else SOk 0%nat) = SOk M).
    { unfold hs_has_algebra, hs_algebra_bit_range. rewrite (fresh_fermions io Hio h F). subst M.
      destruct (modes (spaces h)) as [|i t]; auto. f_equal. cbn [length]. lia. }
    rewrite EM. cbn [sbind]. rewrite EK, Nat2Z.id, pow2_some by lia. cbn [of_opt sbind]. f_equal. rewrite L, binomial_exact by auto.
    apply w64_small. pose proof (binom_le_pow M n). pose proof (pow2_lt64 T hT63) as Q2. replace T with (M + (T - M))%nat in Q2 by lia.
    rewrite Nat2N.inj_add, N.pow_add_r in Q2. eapply N.le_lt_trans; [|exact Q2]. now apply N.mul_le_mono_r.
  - destruct (ranking_ok comb_ranking p ra_combination ltac:(cbn [pM p]; lia) ltac:(cbn [pM pN p]; lia)) as [r [_ Hr]].
    eapply numbered_nodup. intros i x Hx. eapply (sector_index_spec p (T - M)) with (r := r); eauto. cbn [pM p]. lia.
  - intros rk Hrk. destruct (ranking_ok rk p Hrk ltac:(cbn [pM p]; lia) ltac:(cbn [pM pN p]; lia)) as [r [Er Hr]].
    exists (mk_view p r (2 ^ N.of_nat M - 1) (Z.of_nat (T - M))). split; [|split; [|]].
    + unfold make_sector_view. rewrite Ep. cbn [sbind]. rewrite Er. cbn [of_opt sbind pM p]. rewrite pow2_some by lia. cbn [of_opt sbind].
      unfold sec_sparse. rewrite Sp. cbn [of_opt sbind]. now rewrite EK.
    + assert (Nm : forall i x, nth_error l i = Some x -> sector_map_index (mk_view p r (2 ^ N.of_nat M - 1) (Z.of_nat (T - M))) x = Some (N.of_nat i)).
      { intros i x Hx. eapply (sector_index_spec p (T - M)); eauto. cbn [pM p]. lia. }
      split; [eapply numbered_nodup; exact Nm|]. split; [exact A'|exact Nm].
    + intros V S so sv v amp Hv. unfold sector_foreach. cbn [vw_params vw_nonf pM p]. rewrite NE. fold p. rewrite El. cbn [sbind].
      rewrite (foreach_calls_spec so sv v amp); [reflexivity|]. intros j hj. rewrite N.add_0_l. apply Hv. lia.
Qed.

(** Errors: a sparse space, or more particles than modes *)
Theorem C45_rejections : forall (h : hspace I) n rk, hs_fresh io h -> ranking_algorithm rk ->
  (length (modes (spaces h)) <= 62)%nat ->
  (hs_is_sparse h = Some true ->
     sector_size h n = SThrow /\ sector_basis_states h n = SThrow /\ make_sector_view rk h n = SThrow) /\
  (hs_is_sparse h = Some false -> (length (modes (spaces h)) < n)%nat ->
     sector_size h n = SOk 0 /\ sector_basis_states h n = SThrow /\ make_sector_view rk h n = SThrow).
Proof.
  intros h n rk F Hrk hM. pose proof (fresh_reachable io h F) as R. set (M := length (modes (spaces h))) in *.
  destruct (reach_total io Hio h R) as [ET hT63]. pose proof (modes_le (spaces h)) as hMT. fold M in hMT.
  assert (EV : (M < n)%nat -> sec_params h n = SThrow).
  { intros hn. unfold sec_params. rewrite (fresh_m io Hio h F). fold M. cbn [sbind]. rewrite pow2_some by lia. cbn [of_opt sbind].
    unfold validated_n. destruct (Nat.ltb_spec M n); [|lia]. reflexivity. }
  split; [intros Sp|intros Sp hn].
  - split; [unfold sector_size, sec_sparse; now rewrite Sp|]. split; [unfold sector_basis_states, sec_sparse; now rewrite Sp|].
    unfold make_sector_view. destruct (Nat.lt_ge_cases M n) as [hn|hn]; [now rewrite EV|].
    assert (Ep : sec_params h n = SOk {| pM := M; pmask := 2 ^ N.of_nat M - 1; pN := n |}).
    { unfold sec_params. rewrite (fresh_m io Hio h F). cbn [sbind]. fold M. rewrite pow2_some by lia. cbn [of_opt sbind].
      unfold validated_n. destruct (Nat.ltb_spec M n); [lia|]. reflexivity. }
    rewrite Ep. cbn [sbind]. destruct (ranking_ok rk {| pM := M; pmask := 2 ^ N.of_nat M - 1; pN := n |} Hrk) as [r [Er _]]; [cbn [pM]; lia|cbn [pM pN]; lia|].
    rewrite Er. cbn [of_opt sbind pM]. rewrite pow2_some by lia. cbn [of_opt sbind]. unfold sec_sparse. now rewrite Sp.
  - split; [|split].
    + unfold sector_size, sec_sparse. rewrite Sp. cbn [of_opt sbind]. destruct (Z.eqb_spec (hs_total_n_bits h) 0); auto.
      assert (EM : (if hs_has_algebra h (-3) then match hs_algebra_bit_range h (-3) with Some (lo, hi) => SOk (Z.to_nat (hi - lo + 1)) | None => SThrow end else SOk 0%nat) = SOk M).
      { unfold hs_has_algebra, hs_algebra_bit_range. rewrite (fresh_fermions io Hio h F). subst M.
        destruct (modes (spaces h)) as [|i t]; auto. f_equal. cbn [length]. lia. }
      rewrite EM. cbn [sbind]. rewrite pow2_some by lia. cbn [of_opt sbind]. f_equal. unfold binomial.
      destruct (Nat.ltb_spec M n); [|lia]. reflexivity.
    + unfold sector_basis_states, sec_sparse. rewrite Sp. cbn [of_opt sbind]. now rewrite EV.
    + unfold make_sector_view. now rewrite EV.
Qed.
End C45.
Print Assumptions C45_sector.
Print Assumptions C45_rejections.

(** The claim is false for spaces without bits: there is one basis state, index 0,
    with no fermions, but the sector is reported as empty. *)
Theorem C45_no_bits_refuted : forall I (io : index_ops I),
  hs_fresh io (@hs_empty I) /\ in_nf_sector io (spaces (@hs_empty I)) 0 0 /\
  sector_basis_states (@hs_empty I) 0 = SOk [] /\ sector_size (@hs_empty I) 0 = SOk 0.
Proof.
  intros I io. split; [apply hf_empty|]. split; [|split; reflexivity]. split; [|reflexivity]. split; [reflexivity|].
  intros [|k] e E; discriminate.
Qed.
(** It is false for 63 fermionic modes, the largest space accepted: the size is
    computed with an overflow. *)
Definition h63 : hspace Z := Eval vm_compute in fst (hs_of_vector ioZ (map (fun k => ESFermion (Z.of_nat k)) (seq 0 63))).
Theorem C45_63_modes_refuted :
  hs_fresh ioZ h63 /\ hs_is_sparse h63 = Some false /\ length (modes (spaces h63)) = 63%nat /\ total_bits (spaces h63) = 63%nat /\
  exists s, sector_size h63 31 = SOk s /\ s <> binom 63 31 * 2 ^ 0.
Proof.
  split; [|split; [|split; [|split]]].
  - eapply hf_vector with (l := map (fun k => ESFermion (Z.of_nat k)) (seq 0 63)); [|vm_compute; reflexivity].
    apply Forall_forall. intros e He. apply in_map_iff in He. destruct He as [k [<- _]]. exact Logic.I.
  - vm_compute. reflexivity.
  - vm_compute. reflexivity.
  - vm_compute. reflexivity.
  - eexists. split; [vm_compute; reflexivity|]. rewrite N.mul_1_r. intros E.
    apply (proj2 C40_binomial_63_refuted). rewrite <- E. vm_compute. reflexivity.
Qed.
(** It is false for a copy of a Hilbert space (the copy has lost its algebra bit
    ranges, C25): with two modes, the 1-particle sector of the copy cannot be
    constructed and is said to be empty, and its 0-particle sector contains all
    four states. *)
Definition h2 : hspace Z := Eval vm_compute in fst (hs_of_vector ioZ [ESFermion 0%Z; ESFermion 1%Z]).
Theorem C45_copied_space_refuted :
  hs_fresh ioZ h2 /\ spaces (hs_copy h2) = spaces h2 /\ hs_is_sparse (hs_copy h2) = Some false /\
  sector_size h2 1 = SOk 2 /\ sector_size (hs_copy h2) 1 = SOk 0 /\
  sector_basis_states h2 1 = SOk [1; 2] /\ sector_basis_states (hs_copy h2) 1 = SThrow /\
  sector_basis_states h2 0 = SOk [0] /\ sector_basis_states (hs_copy h2) 0 = SOk [0; 1; 2; 3].
Proof.
  split; [eapply hf_vector with (l := [ESFermion 0%Z; ESFermion 1%Z]); [repeat constructor|vm_compute; reflexivity]|].
  repeat split.
Qed.
Print Assumptions C45_no_bits_refuted.
Print Assumptions C45_63_modes_refuted.
Print Assumptions C45_copied_space_refuted.

(** the hypotheses are met: 3 fermions, a boson with 4 states, a spin 1/2; N = 2 *)
Definition hsec : hspace Z := Eval vm_compute in
  fst (hs_of_vector ioZ [ESSpin 2 0%Z; ESFermion 7%Z; ESBoson 4 0%Z; ESFermion 1%Z; ESFermion 3%Z]).
Example C45_ex : hs_fresh ioZ hsec /\ hs_is_sparse hsec = Some false /\ length (modes (spaces hsec)) = 3%nat /\
  total_bits (spaces hsec) = 6%nat /\ modes (spaces hsec) = [1; 3; 7]%Z /\
  sector_basis_states hsec 2 = SOk (flat_map (fun u => map (fun k => u + 8 * k) [0; 1; 2; 3; 4; 5; 6; 7]) [6; 5; 3]).
Proof.
  split; [eapply hf_vector with (l := [ESSpin 2 0%Z; ESFermion 7%Z; ESBoson 4 0%Z; ESFermion 1%Z; ESFermion 3%Z]); [repeat constructor; cbn; lia|vm_compute; reflexivity]|].
  repeat split.
Qed.
