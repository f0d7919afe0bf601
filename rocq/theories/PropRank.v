(** * Properties C40-C43: binomials, ranking and unranking of N-particle states *)
From Coq Require Import NArith List Bool Arith Lia.
From Verif Require Import BitsModel BitsSpec RankModel RankSpec RankProofs StaggeredProofs.
Import ListNotations.
Open Scope N_scope.

(** C40: detail::binomial is exact for all n <= 62 ... *)
Theorem C40_binomial_exact : forall n k : nat, (n <= 62)%nat -> binomial n k = binom n k.
Proof. exact binomial_exact. Qed.
Print Assumptions C40_binomial_exact.
Example C40_ex : binomial 62 31 = 465428353255261088 /\ binomial 10 12 = 0 /\ binomial 0 0 = 1.
Proof. vm_compute. auto. Qed.

(** ... and wrong for n = 63 although C(63,k) fits in 64 bits. *)
Theorem C40_binomial_63_refuted :
  binom 63 31 < 2 ^ 64 /\ binomial 63 31 <> binom 63 31.
Proof. exact binomial_63_31. Qed.
Print Assumptions C40_binomial_63_refuted.
(** The failing cases at n = 63 are exactly k = 29..34. *)
Theorem C40_binomial_63_exact_set : forall k : nat, (k <= 63)%nat ->
  (binomial 63 k = binom 63 k <-> ~ (29 <= k <= 34)%nat).
Proof. exact binomial_63_set. Qed.
Print Assumptions C40_binomial_63_exact_set.

(** C41: combination_ranking never reads outside of its table, and the rank of a sector
    state is its position in the (ascending, or descending if more than half of the modes
    are occupied) enumeration of the sector. *)
Theorem C41_combination_rank_is_position : forall (p : sector_params) (x : N),
  (pM p <= 63)%nat -> (pN p <= pM p)%nat -> in_sector (pM p) (pN p) x = true ->
  cr_rank (combination_ranking_init p) x = Some (sector_position (pM p) (pN p) x).
Proof. exact cr_rank_position. Qed.
Print Assumptions C41_combination_rank_is_position.

(** It is a bijection onto [0, C(M,N)). *)
Theorem C41_combination_rank_bijective : forall (p : sector_params),
  (pM p <= 63)%nat -> (pN p <= pM p)%nat ->
  (forall x, in_sector (pM p) (pN p) x = true ->
     exists r, cr_rank (combination_ranking_init p) x = Some r /\ r < binom (pM p) (pN p)) /\
  (forall x y, in_sector (pM p) (pN p) x = true -> in_sector (pM p) (pN p) y = true ->
     cr_rank (combination_ranking_init p) x = cr_rank (combination_ranking_init p) y -> x = y) /\
  (forall r, r < binom (pM p) (pN p) ->
     exists x, in_sector (pM p) (pN p) x = true /\ cr_rank (combination_ranking_init p) x = Some r).
Proof. exact cr_rank_bijective. Qed.
Print Assumptions C41_combination_rank_bijective.
Example C41_ex : let p := {| pM := 5; pmask := 31; pN := 2 |} in
  in_sector 5 2 20 = true /\ cr_rank (combination_ranking_init p) 20 = Some 8 /\ binom 5 2 = 10.
Proof. vm_compute. auto. Qed.

(** C42: the generator emits exactly C(M,N) states, the i-th of which is the sector state
    of rank i; it becomes done() exactly then, and no undefined shift or ctz(0) occurs. *)
Theorem C42_unranking_inverts_ranking : forall (p : sector_params) (k : nat),
  (pM p <= 62)%nat -> (pN p <= pM p)%nat -> N.of_nat k <= binom (pM p) (pN p) ->
  exists g l, ug_run k (unranking_generator_init p) = Some (g, l) /\ length l = k /\
    (ug_done g = true <-> N.of_nat k = binom (pM p) (pN p)) /\
    (forall i x, nth_error l i = Some x ->
       in_sector (pM p) (pN p) x = true /\
       cr_rank (combination_ranking_init p) x = Some (N.of_nat i)).
Proof. exact ug_run_inverts. Qed.
Print Assumptions C42_unranking_inverts_ranking.
(** The emitted list is a permutation-free enumeration: every sector state occurs. *)
Theorem C42_unranking_complete : forall (p : sector_params),
  (pM p <= 62)%nat -> (pN p <= pM p)%nat ->
  exists g l, ug_run (N.to_nat (binom (pM p) (pN p))) (unranking_generator_init p) = Some (g, l) /\
    ug_done g = true /\ NoDup l /\
    (forall x, In x l <-> in_sector (pM p) (pN p) x = true).
Proof. exact ug_run_complete. Qed.
Print Assumptions C42_unranking_complete.
(** init() restarts the enumeration from any state the generator can be in. *)
Theorem C42_restart : forall (p : sector_params) (k : nat) (g : unranking_generator) (l : list N),
  ug_run k (unranking_generator_init p) = Some (g, l) -> ug_reset g = unranking_generator_init p.
Proof.
  intros p k g l E.
  assert (A : forall k g0 g' l', ug_run k g0 = Some (g', l') ->
    ug_counted g' = ug_counted g0 /\ ug_total g' = ug_total g0 /\ ug_mask g' = ug_mask g0).
  { clear. induction k as [|k IH]; intros g0 g' l' E; cbn [ug_run] in E.
    - inversion E; auto.
    - destruct (ug_done g0); [inversion E; auto|].
      destruct (ug_next g0) as [[g1 x]|] eqn:N1; [|discriminate]. cbn [obind fst snd] in E.
      destruct (ug_run k g1) as [[g2 l2]|] eqn:R2; [|discriminate]. cbn [obind fst snd] in E. inversion E; subst.
      apply IH in R2. destruct R2 as [-> [-> ->]]. unfold ug_next in N1. destruct (ug_i g0 =? 0).
      + inversion N1; subst; auto.
      + destruct (next_state (ug_unranked g0)); [|discriminate]. cbn in N1. inversion N1; subst; auto. }
  destruct (A _ _ _ _ E) as [A1 [A2 A3]]. unfold ug_reset. rewrite A1, A2, A3. reflexivity.
Qed.
Print Assumptions C42_restart.
Example C42_ex : let p := {| pM := 4; pmask := 15; pN := 3 |} in
  option_map snd (ug_run 9 (unranking_generator_init p)) = Some [14; 13; 11; 7].
Proof. vm_compute. reflexivity. Qed.
(** For M = 63 (still an accepted Hilbert space) the overflow of C40 makes size() wrong. *)
Theorem C42_unranking_size_63_refuted :
  let p := {| pM := 63; pmask := 2 ^ 63 - 1; pN := 31 |} in
  ug_total (unranking_generator_init p) <> binom 63 31.
Proof. exact (proj2 binomial_63_31). Qed.
Print Assumptions C42_unranking_size_63_refuted.

(** C43: staggered_ranking<R> returns the same rank as combination_ranking, for every
    chunk size, whenever its table is addressable (fewer than 2^64 entries). *)
Theorem C43_staggered_equals_combination : forall (R : nat) (p : sector_params) (s : staggered_ranking) (x : N),
  (0 < R < 64)%nat -> (pM p <= 63)%nat -> (pN p <= pM p)%nat ->
  staggered_ranking_init R p = Some s -> N.of_nat (length (sr_lookup s)) < 2 ^ 64 ->
  in_sector (pM p) (pN p) x = true ->
  sr_rank s x = cr_rank (combination_ranking_init p) x.
Proof. exact staggered_combination. Qed.
Print Assumptions C43_staggered_equals_combination.
Theorem C43_staggered_constructible : forall (R : nat) (p : sector_params), (0 < R < 64)%nat ->
  exists s, staggered_ranking_init R p = Some s.
Proof. exact staggered_init_some. Qed.
Print Assumptions C43_staggered_constructible.
Example C43_ex : match staggered_ranking_init 2 {| pM := 5; pmask := 31; pN := 3 |} with
  | Some s => sr_rank s 19 = Some 5 /\ in_sector 5 3 19 = true /\ length (sr_lookup s) = 36%nat
  | None => False end.
Proof. vm_compute. auto. Qed.
