(** * Model of elementary spaces and Hilbert spaces
    Sources: /repo/include/libcommute/loperator/{elementary_space,
    elementary_space_fermion,elementary_space_boson,elementary_space_spin,
    es_constructor,hilbert_space}.hpp

    sv_index_type = uint64_t values are [N] (wrapped by [w64] where the code
    could overflow), [int] bit positions are [Z], numbers of bits are [nat].
    [None] is undefined behaviour unless stated otherwise. *)
From Coq Require Import NArith ZArith List Bool.
From Verif Require Import BitsModel ExprModel.
Import ListNotations.
Open Scope N_scope.
Open Scope list_scope.

(** ** Elementary spaces *)
(** elementary_space_fermion.hpp l.28-61, elementary_space_boson.hpp l.31-74,
    elementary_space_spin.hpp l.31-99 *)
Inductive espace (I : Type) : Type :=
| ESFermion (i : I)
| ESBoson (dim : N) (i : I)
| ESSpin (mult : nat) (i : I).
Arguments ESFermion {I} _.
Arguments ESBoson {I} _ _.
Arguments ESSpin {I} _ _.

Section ES.
Context {I : Type} (io : index_ops I).

(** algebra_id(): algebra_ids.hpp l.24-26 *)
Definition es_alg (e : espace I) : Z :=
  match e with ESFermion _ => -3 | ESBoson _ _ => -2 | ESSpin _ _ => -1 end%Z.
Definition es_index (e : espace I) : I :=
  match e with ESFermion i => i | ESBoson _ i => i | ESSpin _ i => i end.

(** dim(): elementary_space_fermion.hpp l.56, _boson.hpp l.62, _spin.hpp l.63 *)
Definition es_dim (e : espace I) : N :=
  match e with ESFermion _ => 2 | ESBoson d _ => d | ESSpin m _ => N.of_nat m end.

(** n_bits(): elementary_space_fermion.hpp l.60, _boson.hpp l.42 and l.66,
    _spin.hpp l.42 and l.67: ceil(log2(dim)).
    Simplification: the double precision std::log2 is taken to be exact (this is
    justified for dimensions up to 2^48 in PropNBits.v, C74_model). *)
Definition es_nbits (e : espace I) : nat :=
  match e with
  | ESFermion _ => 1%nat
  | ESBoson d _ => N.to_nat (N.log2_up d)
  | ESSpin m _ => N.to_nat (N.log2_up (N.of_nat m))
  end.

(** operator==: elementary_space.hpp l.55-58, l.96-98; _spin.hpp l.79-82.
    The dimension of a bosonic space is not compared. *)
Definition es_eqb (e f : espace I) : bool :=
  match e, f with
  | ESSpin m i, ESSpin n j => Nat.eqb m n && i_eq io i j
  | _, _ => Z.eqb (es_alg e) (es_alg f) && i_eq io (es_index e) (es_index f)
  end.
(** operator<: elementary_space.hpp l.63-69, l.100-102; _spin.hpp l.85-91 *)
Definition es_ltb (e f : espace I) : bool :=
  if negb (Z.eqb (es_alg e) (es_alg f)) then Z.ltb (es_alg e) (es_alg f)
  else
    match e, f with
    | ESSpin m i, ESSpin n j =>
        if negb (Nat.eqb m n) then Nat.ltb m n else i_lt io i j
    | _, _ => i_lt io (es_index e) (es_index f)
    end.

(** default_es_constructor (es_constructor<fermion, spin>) and
    boson_es_constructor (es_constructor<fermion, boson, spin>):
    es_constructor.hpp l.55-183.  [None]: es_construction_failure is thrown. *)
Definition default_es_constructor (g : gen I) : option (espace I) :=
  match g with
  | GFermion _ i => Some (ESFermion i)
  | GBoson _ _ => None
  | GSpin m _ i => Some (ESSpin m i)
  end.
Definition boson_es_constructor (dim : N) (g : gen I) : option (espace I) :=
  match g with
  | GFermion _ i => Some (ESFermion i)
  | GBoson _ i => Some (ESBoson dim i)
  | GSpin m _ i => Some (ESSpin m i)
  end.
End ES.

(** ** sparse_foreach_basis_state: hilbert_space.hpp l.46-110 *)

(** init_jumps: hilbert_space.hpp l.58-70 *)
Fixpoint init_jumps_loop (sizes : list N) (stride : N) : option (list N) :=
  match sizes with
  | [] | [_] => Some []
  | size :: rest =>
      match next_pow2 size with
      | None => None
      | Some p =>
          match init_jumps_loop rest (w64 (stride * p)) with
          | None => None
          | Some js => Some (w64 (stride * (p - size)) :: js)
          end
      end
  end.
Definition init_jumps (sizes : list N) : option (list N) := init_jumps_loop sizes 1.

(** std::accumulate(begin, end, 1, std::multiplies<sv_index_type>()):
    hilbert_space.hpp l.75-80.  The accumulator has the type of the initial
    value, int: every product (computed in 64 bits) is truncated to 32 bits and
    sign-extended when it is used again. *)
Definition to_int32 (n : N) : Z :=
  let r := Z.of_N (n mod 2 ^ 32) in if (r <? 2 ^ 31)%Z then r else (r - 2 ^ 32)%Z.
Definition z_to_u64 (z : Z) : N := Z.to_N (z mod 2 ^ 64)%Z.
Definition int_accumulate (sizes : list N) : Z :=
  fold_left (fun acc s => to_int32 (w64 (z_to_u64 acc * s))) sizes 1%Z.

Record sfe : Type := mk_sfe { sfe_sizes : list N; sfe_n : N; sfe_jumps : list N }.

(** constructor: hilbert_space.hpp l.73-82 *)
Definition sfe_make (sizes : list N) : option sfe :=
  match init_jumps sizes with
  | None => None
  | Some js =>
      Some (mk_sfe sizes (match sizes with [] => 0 | _ => z_to_u64 (int_accumulate sizes) end) js)
  end.

(** the carry loop: hilbert_space.hpp l.101-107 (d = 0, 1, ...) *)
Fixpoint sfe_carry (indices sizes jumps : list N) (state : N) : list N * N :=
  match indices, sizes, jumps with
  | i0 :: i1 :: rest, s0 :: sizes', j0 :: jumps' =>
      if i0 =? s0 then
        let (ind, st) := sfe_carry (i1 + 1 :: rest) sizes' jumps' (w64 (state + j0)) in
        (0 :: ind, st)
      else (indices, state)
  | _, _, _ => (indices, state)
  end.

(** operator()(f): hilbert_space.hpp l.93-109.  The callback may itself change
    the mutable member indices_ (by iterating over the same object), so it is a
    function of the state index, of indices_ and of its own data [A]. *)
Fixpoint sfe_loop {A} (f : N -> list N -> A -> A * list N) (sizes jumps : list N)
  (k : nat) (indices : list N) (state : N) (acc : A) : A * list N :=
  match k with
  | O => (acc, indices)
  | S k' =>
      let (acc1, ind1) := f state indices acc in
      match ind1 with
      | [] => (acc1, ind1) (* not reached: indices_ has as many elements as sizes_ *)
      | i0 :: r =>
          let (ind2, st2) := sfe_carry (i0 + 1 :: r) sizes jumps (w64 (state + 1)) in
          sfe_loop f sizes jumps k' ind2 st2 acc1
      end
  end.
Definition sfe_run {A} (f : N -> list N -> A -> A * list N) (s : sfe) (acc : A) : A * list N :=
  sfe_loop f (sfe_sizes s) (sfe_jumps s) (N.to_nat (sfe_n s)) (map (fun _ => 0) (sfe_sizes s)) 0 acc.

(** ** hilbert_space *)
Record hspace (I : Type) : Type := mk_hs {
  hs_es : list (espace I * (Z * Z));   (* std::map elementary_spaces_ *)
  hs_algs : list (Z * (Z * Z));        (* std::map algebra_bit_ranges_ *)
  hs_end : Z;                          (* bit_range_end_ *)
  hs_dim_ : N;                         (* dim_ *)
  hs_fa : option sfe                   (* foreach_alg_ *)
}.
Arguments mk_hs {I} _ _ _ _ _.
Arguments hs_es {I} _.
Arguments hs_algs {I} _.
Arguments hs_end {I} _.
Arguments hs_dim_ {I} _.
Arguments hs_fa {I} _.

Section HS.
Context {I : Type} (io : index_ops I).
Notation es := (espace I).

(** std::map::emplace and std::map::find with the comparator [less]:
    hilbert_space.hpp l.131-135 *)
Fixpoint es_emplace (e : es) (l : list (es * (Z * Z))) : list (es * (Z * Z)) * bool :=
  match l with
  | [] => ([(e, (0, 0)%Z)], true)
  | (x, r) :: t =>
      if es_ltb io x e then let (t', b) := es_emplace e t in ((x, r) :: t', b)
      else if es_ltb io e x then ((e, (0, 0)%Z) :: l, true)
      else (l, false)
  end.
Fixpoint es_find (e : es) (l : list (es * (Z * Z))) : option (nat * es * (Z * Z)) :=
  match l with
  | [] => None
  | (x, r) :: t =>
      if es_ltb io x e then
        match es_find e t with Some (k, y, s) => Some (S k, y, s) | None => None end
      else if es_ltb io e x then None else Some (0%nat, x, r)
  end.

(** std::map<int, bit_range_t>::find / emplace / update *)
Fixpoint alg_find (a : Z) (l : list (Z * (Z * Z))) : option (Z * Z) :=
  match l with
  | [] => None
  | (b, r) :: t => if Z.eqb a b then Some r else alg_find a t
  end.
Fixpoint alg_set (a : Z) (r : Z * Z) (l : list (Z * (Z * Z))) : list (Z * (Z * Z)) :=
  match l with
  | [] => [(a, r)]
  | (b, s) :: t => if Z.eqb a b then (b, r) :: t else (b, s) :: alg_set a r t
  end.

(** recompute_bit_ranges: hilbert_space.hpp l.390-413 (the loop) *)
Fixpoint recompute_loop (l : list (es * (Z * Z))) (algs : list (Z * (Z * Z))) (e : Z)
  : list (es * (Z * Z)) * list (Z * (Z * Z)) * Z :=
  match l with
  | [] => ([], algs, e)
  | (x, _) :: t =>
      let nb := Z.of_nat (es_nbits x) in
      let range := ((e + 1)%Z, (e + nb)%Z) in
      let algs' :=
        match alg_find (es_alg x) algs with
        | None => alg_set (es_alg x) range algs
        | Some (lo, hi) =>
            alg_set (es_alg x)
              (if (fst range <? lo)%Z then fst range else lo,
               if (hi <? snd range)%Z then snd range else hi) algs
        end in
      let '(t', algs'', e') := recompute_loop t algs' (e + nb)%Z in
      ((x, range) :: t', algs'', e')
  end.
Definition max_n_bits : Z := 63.

(** init_foreach_alg: hilbert_space.hpp l.416-441; outer [None] = UB *)
Fixpoint merge_dims (l : list (es * (Z * Z))) (merged : N) : option (list N) :=
  match l with
  | [] => Some (if merged =? 1 then [] else [merged])
  | (x, _) :: t =>
      let m := w64 (merged * es_dim x) in
      match pow2 (es_nbits x) with
      | None => None
      | Some p =>
          if es_dim x =? p then merge_dims t m
          else match merge_dims t 1 with None => None | Some s => Some (m :: s) end
      end
  end.
Definition init_foreach_alg (l : list (es * (Z * Z))) : option (option sfe) :=
  match merge_dims l 1 with
  | None => None
  | Some sizes =>
      if Nat.leb (length sizes) 1 then Some None
      else match sfe_make sizes with None => None | Some s => Some (Some s) end
  end.

(** default constructor: hilbert_space.hpp l.186, l.444-457 *)
Definition hs_empty : hspace I := mk_hs [] [] (-1)%Z 1 None.

(** What a modifying operation can do: succeed, throw elementary_space_exists,
    hilbert_space_too_big or es_construction_failure, or undefined behaviour *)
Inductive outcome : Type := ODone | OExists | OTooBig (n_bits : Z) | OFailure | OBad.

(** recompute_bit_ranges() with the final check, on a whole object *)
Definition recompute (h : hspace I) : hspace I * bool :=
  let '(l, algs, e) := recompute_loop (hs_es h) [] (-1)%Z in
  (mk_hs l algs e (hs_dim_ h) (hs_fa h), (max_n_bits <=? e)%Z).

Definition init_fa (h : hspace I) : hspace I * outcome :=
  match init_foreach_alg (hs_es h) with
  | None => (h, OBad)
  | Some fa => (mk_hs (hs_es h) (hs_algs h) (hs_end h) (hs_dim_ h) fa, ODone)
  end.

(** add(es): hilbert_space.hpp l.286-292.  The state is what is left in the
    object, also when an exception is thrown. *)
Definition hs_add (h : hspace I) (e : es) : hspace I * outcome :=
  let (l, is_new) := es_emplace e (hs_es h) in
  if negb is_new then (h, OExists)
  else
    let (h1, too_big) := recompute (mk_hs l (hs_algs h) (hs_end h) (hs_dim_ h) (hs_fa h)) in
    if too_big then (h1, OTooBig (hs_end h1 + 1))
    else
      init_fa (mk_hs (hs_es h1) (hs_algs h1) (hs_end h1) (w64 (hs_dim_ h1 * es_dim e)) (hs_fa h1)).

(** hilbert_space(es1, es2, ...): hilbert_space.hpp l.138-143, l.189-194 *)
Fixpoint hs_add_all (h : hspace I) (l : list es) : hspace I * outcome :=
  match l with
  | [] => (h, ODone)
  | e :: t => match hs_add h e with (h', ODone) => hs_add_all h' t | r => r end
  end.
Definition hs_of_args (l : list es) : hspace I * outcome := hs_add_all hs_empty l.

(** hilbert_space(vector of pointers): hilbert_space.hpp l.197-206 *)
Fixpoint emplace_list (l : list es) (m : list (es * (Z * Z))) (d : N)
  : option (list (es * (Z * Z)) * N) :=
  match l with
  | [] => Some (m, d)
  | e :: t => let (m', b) := es_emplace e m in
              if b then emplace_list t m' (w64 (d * es_dim e)) else None (* exists *)
  end.
Definition hs_of_vector (l : list es) : hspace I * outcome :=
  match emplace_list l [] 1 with
  | None => (hs_empty, OExists)
  | Some (m, d) =>
      let (h1, too_big) := recompute (mk_hs m [] (-1)%Z d None) in
      if too_big then (h1, OTooBig (hs_end h1 + 1)) else init_fa h1
  end.

(** hilbert_space(expression, es_constructor): hilbert_space.hpp l.211-232;
    [gens] are the generators of all monomials, in iteration order *)
Fixpoint emplace_gens (esc : gen I -> option es) (gens : list (gen I)) (m : list (es * (Z * Z)))
  : option (list (es * (Z * Z))) :=
  match gens with
  | [] => Some m
  | g :: t => match esc g with
              | None => None
              | Some e => emplace_gens esc t (fst (es_emplace e m))
              end
  end.
Definition hs_of_gens (esc : gen I -> option es) (gens : list (gen I)) : hspace I * outcome :=
  match emplace_gens esc gens [] with
  | None => (hs_empty, OFailure)
  | Some m =>
      let (h1, too_big) := recompute (mk_hs m [] (-1)%Z 1 None) in
      if too_big then (h1, OTooBig (hs_end h1 + 1))
      else
        let d := fold_left (fun d x => w64 (d * es_dim (fst x))) (hs_es h1) 1 in
        init_fa (mk_hs (hs_es h1) (hs_algs h1) (hs_end h1) (w64 (hs_dim_ h1 * d)) (hs_fa h1))
  end.
Definition hs_of_expr {S} (esc : gen I -> option es) (e : list (list (gen I) * S)) : hspace I * outcome :=
  hs_of_gens esc (concat (map fst e)).

(** copy constructor: hilbert_space.hpp l.235-247.  algebra_bit_ranges_ is not
    in the initializer list, so it is default-constructed (empty). *)
Definition hs_copy (h : hspace I) : hspace I :=
  mk_hs (hs_es h) [] (hs_end h) (hs_dim_ h) (hs_fa h).
(** copy assignment d = s, d and s different objects: hilbert_space.hpp
    l.249-263; algebra_bit_ranges_ of d is kept *)
Definition hs_assign (d s : hspace I) : hspace I :=
  mk_hs (hs_es s) (hs_algs d) (hs_end s) (hs_dim_ s) (hs_fa s).
(** h = h: elementary_spaces_ is cleared before it is copied *)
Definition hs_assign_self (h : hspace I) : hspace I :=
  mk_hs [] (hs_algs h) (hs_end h) (hs_dim_ h) (hs_fa h).

(** operator==: hilbert_space.hpp l.269-279 *)
Fixpoint es_list_eqb (a b : list (es * (Z * Z))) : bool :=
  match a, b with
  | (x, r) :: a', (y, s) :: b' =>
      es_eqb io x y && (Z.eqb (fst r) (fst s) && Z.eqb (snd r) (snd s)) && es_list_eqb a' b'
  | [], _ => true
  | _, [] => false
  end.
Definition hs_eqb (a b : hspace I) : bool :=
  Nat.eqb (length (hs_es a)) (length (hs_es b)) && es_list_eqb (hs_es a) (hs_es b).

(** queries: hilbert_space.hpp l.295-366; [None] = exception *)
Definition hs_has (h : hspace I) (e : es) : bool :=
  match es_find e (hs_es h) with Some _ => true | None => false end.
Definition hs_index (h : hspace I) (e : es) : option nat :=
  option_map (fun r => fst (fst r)) (es_find e (hs_es h)).
Definition hs_es_dim (h : hspace I) (e : es) : option N :=
  option_map (fun r => es_dim (snd (fst r))) (es_find e (hs_es h)).
Definition hs_bit_range (h : hspace I) (e : es) : option (Z * Z) :=
  option_map (fun r => snd r) (es_find e (hs_es h)).
Definition hs_has_algebra (h : hspace I) (a : Z) : bool :=
  match alg_find a (hs_algs h) with Some _ => true | None => false end.
Definition hs_algebra_bit_range (h : hspace I) (a : Z) : option (Z * Z) := alg_find a (hs_algs h).
Definition hs_size (h : hspace I) : nat := length (hs_es h).
Definition hs_total_n_bits (h : hspace I) : Z := hs_end h + 1.
Definition hs_vec_size (h : hspace I) : option N := pow2 (Z.to_nat (hs_total_n_bits h)).
Definition hs_dim (h : hspace I) : N := hs_dim_ h.
Definition hs_is_sparse (h : hspace I) : option bool :=
  option_map (fun v => hs_dim h <? v) (hs_vec_size h).

(** foreach(hs, f): hilbert_space.hpp l.369-378; generic callback as in
    [sfe_run]; the dense loop has no internal state *)
Fixpoint dense_loop {A} (f : N -> A -> A) (k : nat) (i : N) (acc : A) : A :=
  match k with O => acc | S k' => dense_loop f k' (i + 1) (f i acc) end.
Definition hs_foreach {A} (h : hspace I) (f : N -> A -> A) (acc : A) : A :=
  match hs_fa h with
  | Some s => fst (sfe_run (fun st ind a => (f st a, ind)) s acc)
  | None => dense_loop f (N.to_nat (hs_dim h)) 0 acc
  end.

(** basis_state_index(es, n): hilbert_space.hpp l.382-386 (inner [None]: es not
    found, outer: assertion failure) *)
Definition hs_basis_state_index (h : hspace I) (e : es) (n : N) : option (option N) :=
  match pow2 (es_nbits e) with
  | None => None
  | Some p =>
      if n <? p then
        Some (option_map (fun r => w64 (N.shiftl n (Z.to_N (fst r)))) (hs_bit_range h e))
      else None
  end.
End HS.
