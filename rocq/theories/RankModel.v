(** * Model of the fermionic-state ranking / unranking algorithms
    Source: /repo/include/libcommute/loperator/n_fermion_sector_view.hpp

    [unsigned int] parameters (M, N, chunk sizes, bit positions) are [nat]
    (they are at most 64 in every accepted Hilbert space); [sv_index_type]
    values are [N] with explicit 64-bit wrap-around.  A read outside a
    std::vector, __builtin_ctzll(0) and over-long shifts are [None] (UB). *)
From Coq Require Import NArith List Bool Arith.
From Verif Require Import BitsModel.
Import ListNotations.
Open Scope N_scope.

(** std::vector::operator[] (unchecked read): [None] = out of bounds *)
Definition vec_get {A} (v : list A) (i : N) : option A := nth_error v (N.to_nat i).

Definition obind {A B} (o : option A) (f : A -> option B) : option B :=
  match o with Some a => f a | None => None end.
Notation "'do' x <- o ; e" := (obind o (fun x => e)) (at level 200, x name, o at level 100, e at level 200).

(** n_fermion_sector_view.hpp:57-58  loop of detail::binomial, iterations [i .. i+cnt-1] *)
Fixpoint binomial_loop (n cnt i : nat) (C : N) : N :=
  match cnt with
  | O => C
  | S cnt' => binomial_loop n cnt' (S i) (w64 (C * N.of_nat (n - i)) / N.of_nat (i + 1))
  end.
(** n_fermion_sector_view.hpp:53-61  detail::binomial(n, k) *)
Definition binomial (n k : nat) : N :=
  if (n <? k)%nat then 0
  else
    let k := if (n / 2 <? k)%nat then (n - k)%nat else k in
    binomial_loop n k 0 1.

(** n_fermion_sector_view.hpp:63-84  n_fermion_sector_params_t (fields) *)
Record sector_params := { pM : nat; pmask : N; pN : nat }.

(** the N_counted initialiser shared by combination_ranking (l.142),
    trie_ranking (l.363-364) and unranking_generator (l.406) *)
Definition n_counted (M N : nat) : nat := if (N <=? M / 2)%nat then N else (M - N)%nat.

(** the XOR mask [pow2(M) - 1] of lines 145, 210, 350, 410 *)
Definition full_mask (M : nat) : N := 2 ^ N.of_nat M - 1.

(** ** combination_ranking, lines 129-166 *)
Record combination_ranking :=
  { cr_counted : nat; cr_table : list N; cr_mask : N }.

(** lines 141-151: constructor *)
Definition combination_ranking_init (p : sector_params) : combination_ranking :=
  let Nc := n_counted (pM p) (pN p) in
  {| cr_counted := Nc;
     cr_table := flat_map (fun m => map (fun n => binomial m n) (seq 1 Nc)) (seq 0 (pM p));
     cr_mask := if (pN p =? Nc)%nat then 0 else full_mask (pM p) |}.

(** lines 158-163: the while loop; [fuel] bounds the number of set bits *)
Fixpoint cr_loop (fuel : nat) (cr : combination_ranking) (index i : N) (k : nat) : option N :=
  if index =? 0 then Some i
  else match fuel with
       | O => None
       | S f =>
           do c <- ctz index;
           do b <- vec_get (cr_table cr) (N.of_nat (c * cr_counted cr + k));
           cr_loop f cr (clear_lowest index) (w64 (i + b)) (S k)
       end.
(** lines 154-165: operator() *)
Definition cr_rank (cr : combination_ranking) (index : N) : option N :=
  cr_loop 64 cr (N.lxor index (cr_mask cr)) 0 0.

(** ** staggered_ranking<R>, lines 169-249 *)
Record staggered_ranking :=
  { sr_R : nat; sr_heads : list N; sr_lookup : list N; sr_pop : list nat; sr_mask : N }.

(** lines 192-204: rank(alpha, M', N') *)
Fixpoint sr_rank_loop (fuel : nat) (r : N) (Mp Np k : nat) (i : N) : option N :=
  if r =? 0 then Some i
  else match fuel with
       | O => None
       | S f =>
           do c <- ctz r;
           sr_rank_loop f (clear_lowest r) Mp Np (S k) (w64 (i + binomial (Mp + c) (Np + k)))
       end.
Definition sr_rank_entry (r : N) (Mp Np : nat) : option N := sr_rank_loop 64 r Mp Np 1 0.

Fixpoint omap {A B} (f : A -> option B) (l : list A) : option (list B) :=
  match l with
  | [] => Some []
  | a :: l' => do b <- f a; do bs <- omap f l'; Some (b :: bs)
  end.

(** all values 0, 1, .., n-1 of a 64-bit loop counter *)
Definition range (n : N) : list N := map N.of_nat (seq 0 (N.to_nat n)).

(** lines 207-234: constructor.  [mp + R*(mp*mp-mp)/2] is computed in unsigned int
    (small), the product with rdim in 64 bits. *)
Definition staggered_ranking_init (R : nat) (p : sector_params) : option staggered_ranking :=
  let rdim := 2 ^ N.of_nat R in
  let mpmax := (pM p / R)%nat in
  do lookup <- omap (fun t => sr_rank_entry (snd t) (fst (fst t) * R) (snd (fst t)))
     (flat_map (fun mp => flat_map (fun Np => map (fun r => ((mp, Np), r)) (range rdim))
                                   (seq 0 (mp * R + 1)))
               (seq 0 (mpmax + 1)));
  Some {| sr_R := R;
          sr_heads := map (fun mp => w64 (N.of_nat (mp + R * (mp * mp - mp) / 2) * rdim)) (seq 0 (mpmax + 1));
          sr_lookup := lookup;
          sr_pop := map popcount (range rdim);
          sr_mask := if (pN p <=? pM p / 2)%nat then 0 else full_mask (pM p) |}.

(** lines 237-248: operator() *)
Fixpoint sr_loop (fuel : nat) (s : staggered_ranking) (mp Np : nat) (index i : N) : option N :=
  if index =? 0 then Some i
  else match fuel with
       | O => None
       | S f =>
           let rdim := 2 ^ N.of_nat (sr_R s) in
           let r := N.land index (rdim - 1) in
           do h <- vec_get (sr_heads s) (N.of_nat mp);
           do v <- vec_get (sr_lookup s) (w64 (h + N.of_nat Np * rdim + r));
           do c <- vec_get (sr_pop s) r;
           sr_loop f s (S mp) (Np + c) (N.shiftr index (N.of_nat (sr_R s))) (w64 (i + v))
       end.
Definition sr_rank (s : staggered_ranking) (index : N) : option N :=
  sr_loop 64 s 0 0 (N.lxor index (sr_mask s)) 0.

(** ** next bit pattern with the same number of set bits:
    trie_ranking::next_state, lines 268-274, and unranking_generator::next, lines 425-429 *)
Definition next_state (st : N) : option N :=
  let b := w64 (N.lor st (sub64 st 1) + 1) in
  let l := N.land st (not64 b) in
  do z <- ctz st;
  if (64 <=? z + 1)%nat then None
  else Some (N.lor b (N.shiftr l (N.of_nat (z + 1)))).

(** ** unranking_generator, lines 387-439.  The mutable members [i], [unranked] are
    part of the state threaded through [ug_next]. *)
Record unranking_generator :=
  { ug_counted : nat; ug_total : N; ug_i : N; ug_unranked : N; ug_mask : N }.

(** lines 405-410 *)
Definition unranking_generator_init (p : sector_params) : unranking_generator :=
  let Nc := n_counted (pM p) (pN p) in
  {| ug_counted := Nc; ug_total := binomial (pM p) Nc; ug_i := 0; ug_unranked := full_mask Nc;
     ug_mask := if (pN p =? Nc)%nat then 0 else full_mask (pM p) |}.

(** lines 413-416: init() *)
Definition ug_reset (g : unranking_generator) : unranking_generator :=
  {| ug_counted := ug_counted g; ug_total := ug_total g; ug_i := 0;
     ug_unranked := full_mask (ug_counted g); ug_mask := ug_mask g |}.

(** lines 419-432: next() *)
Definition ug_next (g : unranking_generator) : option (unranking_generator * N) :=
  if ug_i g =? 0 then
    Some ({| ug_counted := ug_counted g; ug_total := ug_total g; ug_i := 1;
             ug_unranked := ug_unranked g; ug_mask := ug_mask g |},
          N.lxor (ug_unranked g) (ug_mask g))
  else
    do u <- next_state (ug_unranked g);
    Some ({| ug_counted := ug_counted g; ug_total := ug_total g; ug_i := w64 (ug_i g + 1);
             ug_unranked := u; ug_mask := ug_mask g |},
          N.lxor u (ug_mask g)).

(** line 435: done() *)
Definition ug_done (g : unranking_generator) : bool := ug_i g =? ug_total g.

(** [while(!g.done()) out.push_back(g.next())], stopped after [n] iterations *)
Fixpoint ug_run (n : nat) (g : unranking_generator) : option (unranking_generator * list N) :=
  match n with
  | O => Some (g, [])
  | S n' =>
      if ug_done g then Some (g, [])
      else do gv <- ug_next g;
           do r <- ug_run n' (fst gv);
           Some (fst r, snd gv :: snd r)
  end.
