(** * Exceptions (std::bad_alloc) in the middle of hilbert_space::add() and of
    the copy assignment
    Source: /repo/include/libcommute/loperator/hilbert_space.hpp

    As in CrashModel.v, the crash point [k] is the number of allocating calls
    that succeed before one throws.  A result [(h, None)] means that the
    exception leaves the function with the object in state [h];
    [(h, Some o)] means that the function ends with outcome [o] (which may be one
    of the library's own exceptions) and state [h].  The constructors are not
    modelled here: if they throw, no object exists. *)
From Coq Require Import NArith ZArith List Bool Arith.
From Verif Require Import BitsModel ExprModel HSModel.
Import ListNotations.
Open Scope N_scope.

Section HC.
Context {I : Type} (io : index_ops I).
Notation es := (espace I).

(** recompute_bit_ranges(), the loop: l.390-409.  es.second = range (l.396) comes
    before the allocating emplace (l.401), bit_range_end_ += n_bits (l.409) after it *)
Fixpoint recompute_loop_c (k : nat) (l : list (es * (Z * Z))) (algs : list (Z * (Z * Z))) (e : Z) {struct l}
  : list (es * (Z * Z)) * list (Z * (Z * Z)) * Z * option nat :=
  match l with
  | [] => ([], algs, e, Some k)
  | (x, _) :: t =>
      let nb := Z.of_nat (es_nbits x) in
      let range := ((e + 1)%Z, (e + nb)%Z) in
      match alg_find (es_alg x) algs with
      | None =>
          match k with
          | O => ((x, range) :: t, algs, e, None)
          | S k' =>
              let '(t', algs'', e', r) := recompute_loop_c k' t (alg_set (es_alg x) range algs) (e + nb)%Z in
              ((x, range) :: t', algs'', e', r)
          end
      | Some (lo, hi) =>
          let '(t', algs'', e', r) :=
            recompute_loop_c k t (alg_set (es_alg x)
              (if (fst range <? lo)%Z then fst range else lo,
               if (hi <? snd range)%Z then snd range else hi) algs) (e + nb)%Z in
          ((x, range) :: t', algs'', e', r)
      end
  end.
(** l.389-412 with the check at the end; the flag tells whether
    hilbert_space_too_big is thrown *)
Definition recompute_c (k : nat) (h : hspace I) : hspace I * option (nat * bool) :=
  let '(l, algs, e, r) := recompute_loop_c k (hs_es h) [] (-1)%Z in
  (mk_hs l algs e (hs_dim_ h) (hs_fa h),
   match r with None => None | Some k' => Some (k', (max_n_bits <=? e)%Z) end).

(** n allocating calls during which the object does not change *)
Definition ticks {A} (k n : nat) (h : hspace I) (go : nat -> hspace I * option A) : hspace I * option A :=
  if Nat.ltb k n then (h, None) else go (k - n)%nat.

(** init_foreach_alg(): l.416-441.  sizes.reserve() allocates (push_back stays
    within the capacity); make_unique allocates the object, a copy of sizes
    (l.73, passed by value), jumps_ and indices_; foreach_alg_ is set last *)
Definition init_fa_c (k : nat) (h : hspace I) : hspace I * option outcome :=
  ticks k 1 h (fun k1 =>
    match init_foreach_alg (hs_es h) with
    | None => (h, Some OBad)
    | Some None => (mk_hs (hs_es h) (hs_algs h) (hs_end h) (hs_dim_ h) None, Some ODone)
    | Some (Some s) =>
        ticks k1 4 h (fun _ => (mk_hs (hs_es h) (hs_algs h) (hs_end h) (hs_dim_ h) (Some s), Some ODone))
    end).

(** add(es): l.286-292.  es.clone() and the node of the map are allocated before
    anything changes; the exception objects allocate, too *)
Definition hs_add_c (k : nat) (h : hspace I) (e : es) : hspace I * option outcome :=
  ticks k 2 h (fun k1 =>
    let (l, is_new) := es_emplace io e (hs_es h) in
    if negb is_new then ticks k1 1 h (fun _ => (h, Some OExists))
    else
      let (h1, r) := recompute_c k1 (mk_hs l (hs_algs h) (hs_end h) (hs_dim_ h) (hs_fa h)) in
      match r with
      | None => (h1, None)
      | Some (k2, true) => ticks k2 1 h1 (fun _ => (h1, Some (OTooBig (hs_end h1 + 1))))
      | Some (k2, false) =>
          init_fa_c k2 (mk_hs (hs_es h1) (hs_algs h1) (hs_end h1) (w64 (hs_dim_ h1 * es_dim e)) (hs_fa h1))
      end).

(** d = s, the loop of l.252-256: two allocations (clone, node) per element *)
Fixpoint assign_loop_c (k : nat) (acc l : list (es * (Z * Z))) {struct l} : list (es * (Z * Z)) * option nat :=
  match l with
  | [] => (acc, Some k)
  | x :: t => if Nat.ltb k 2 then (acc, None) else assign_loop_c (k - 2) (acc ++ [x]) t
  end.
(** d = s, different objects: l.249-263.  bit_range_end_ first, then the
    elementary spaces, dim_, foreach_alg_ (object and three vectors) *)
Definition hs_assign_c (k : nat) (d s : hspace I) : hspace I * option unit :=
  let (l, r) := assign_loop_c k [] (hs_es s) in
  match r with
  | None => (mk_hs l (hs_algs d) (hs_end s) (hs_dim_ d) (hs_fa d), None)
  | Some k1 =>
      let h1 := mk_hs l (hs_algs d) (hs_end s) (hs_dim_ s) (hs_fa d) in
      ticks k1 (match hs_fa s with None => 0 | Some _ => 4 end) h1
        (fun _ => (mk_hs l (hs_algs d) (hs_end s) (hs_dim_ s) (hs_fa s), Some tt))
  end.

End HC.
