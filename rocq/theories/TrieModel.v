(** * Model of trie_ranking<R>
    Source: /repo/include/libcommute/loperator/n_fermion_sector_view.hpp, lines 251-384

    [unsigned int] values (chunk sizes, M, M_subtree) are [nat]; [sv_index_type] values are
    [N] with explicit 64-bit wrap-around; [std::int64_t] table entries are [Z].  Reads and
    writes outside a std::vector, over-long shifts and a failing assert() give [None]. *)
From Coq Require Import NArith ZArith List Bool Arith.
From Verif Require Import BitsModel RankModel.
Import ListNotations.
Open Scope N_scope.

(** std::vector::operator[] (unchecked write): [None] = out of bounds *)
Definition vec_set {A} (v : list A) (i : N) (x : A) : option (list A) :=
  if i <? N.of_nat (length v)
  then Some (firstn (N.to_nat i) v ++ x :: skipn (S (N.to_nat i)) v)
  else None.

(** static_cast<std::int64_t> of a 64-bit unsigned value (two's complement) and back *)
Definition to_i64 (n : N) : Z := if n <? 2 ^ 63 then Z.of_N n else (Z.of_N n - 2 ^ 64)%Z.
Definition to_u64 (z : Z) : N := Z.to_N (z mod 2 ^ 64)%Z.

(** the values that make_trie() passes down by value and returns as a tuple (rank, st, k),
    l.276-281 and l.342, plus the member [trie] it updates *)
Record tstate := { ts_rank : N; ts_st : N; ts_k : N; ts_mem : list Z }.

(** lines 294-321: the while loop of make_trie.  [child] is [None] at the last level (the
    leaf branch, l.296-300) and [Some (chunk_sizes[level + 1], make_trie(level + 1, ..))]
    otherwise (l.301-320).  [sh] is M_subtree - chunk_size.  [fuel] bounds the number of
    iterations; running out of it is [None], so every [Some] result is a terminating run. *)
Fixpoint trie_while (fuel : nat) (child : option (nat * (tstate -> option tstate)))
         (P p C kp : N) (sh : nat) (c : N) (s : tstate) : option (N * tstate) :=
  match fuel with
  | O => None
  | S fuel' =>
      if negb (N.land (ts_st s) P =? p) then Some (c, s)                            (* l.294 *)
      else
        let c := N.land (N.shiftr (ts_st s) (N.of_nat sh)) C in                     (* l.295 *)
        match child with
        | None =>
            do mem <- vec_set (ts_mem s) (w64 (kp + c)) (- to_i64 (ts_rank s))%Z;   (* l.297 *)
            if ts_st s =? 0
            then Some (c, {| ts_rank := ts_rank s; ts_st := ts_st s; ts_k := ts_k s; ts_mem := mem |})
            else do st' <- next_state (ts_st s);                                    (* l.299-300 *)
                 trie_while fuel' child P p C kp sh c
                   {| ts_rank := w64 (ts_rank s + 1); ts_st := st'; ts_k := ts_k s; ts_mem := mem |}
        | Some (cs', mk) =>
            do pc' <- pow2 cs';
            let f := N.land (N.shiftr (ts_st s) (N.of_nat (sh - cs'))) (pc' - 1) in (* l.304-308 *)
            let k := if f <=? ts_k s then sub64 (ts_k s) f else ts_k s in           (* l.309-311 *)
            if negb (kp <? k) then None                                             (* l.312 assert *)
            else
              do mem <- vec_set (ts_mem s) (w64 (kp + c)) (to_i64 k);               (* l.314 *)
              do r <- mk {| ts_rank := ts_rank s; ts_st := ts_st s; ts_k := k; ts_mem := mem |};
              if ts_st r =? 0 then Some (c, r)                                      (* l.319 *)
              else trie_while fuel' child P p C kp sh c r
        end
  end.

(** lines 331-333: for(kpp = ..; kpp < k; ++kpp) trie[kpp] = trie[kpp + l]; [n] iterations *)
Fixpoint trie_copy (n : nat) (kpp l : N) (mem : list Z) : option (list Z) :=
  match n with
  | O => Some mem
  | S n' => do v <- vec_get mem (w64 (kpp + l));
            do mem' <- vec_set mem kpp v;
            trie_copy n' (w64 (kpp + 1)) l mem'
  end.

(** lines 335-339: for(kpp = ..; kpp < k; ++kpp) if(trie[kpp] > 0) trie[kpp] -= l;
    the subtraction int64 - uint64 is done in unsigned arithmetic *)
Definition trie_dec (l : N) (v : Z) : Z := if (0 <? v)%Z then to_i64 (sub64 (to_u64 v) l) else v.
Fixpoint trie_shift (n : nat) (kpp l : N) (mem : list Z) : option (list Z) :=
  match n with
  | O => Some mem
  | S n' => do v <- vec_get mem kpp;
            do mem' <- vec_set mem kpp (trie_dec l v);
            trie_shift n' (w64 (kpp + 1)) l mem'
  end.

(** lines 276-343: make_trie(level, rank, st, k, M_subtree); [chunks] is the tail of
    chunk_sizes that starts at [level] (chunk_sizes and pext_masks have the same length, so
    the leaf test level == pext_masks.size() - 1 is "no chunks left"). *)
Fixpoint make_trie (chunks : list nat) (Msub : nat) (s : tstate) : option tstate :=
  match chunks with
  | [] => None
  | cs :: rest =>
      do pm <- pow2 Msub;
      do pc <- pow2 cs;
      let P := not64 (pm - 1) in
      let p := N.land (ts_st s) P in
      let C := pc - 1 in
      let kp := ts_k s in
      let sh := (Msub - cs)%nat in
      let c0 := N.land (N.shiftr (ts_st s) (N.of_nat sh)) C in
      let child := match rest with [] => None | cs' :: _ => Some (cs', make_trie rest sh) end in
      do cr <- trie_while (S (N.to_nat pc)) child P p C kp sh C
                 {| ts_rank := ts_rank s; ts_st := ts_st s; ts_k := w64 (kp + pc); ts_mem := ts_mem s |};
      let l := sub64 C (fst cr) in
      let r := snd cr in
      let table_head := w64 (kp + c0) in
      let table_size := sub64 (sub64 pc c0) l in
      let k := sub64 (ts_k r) l in
      do mem <- (if 0 <? l
                 then do mem1 <- trie_copy (N.to_nat (k - w64 (table_head + table_size)))
                                           (w64 (table_head + table_size)) l (ts_mem r);
                      trie_shift (N.to_nat (k - table_head)) table_head l mem1
                 else Some (ts_mem r));
      Some {| ts_rank := ts_rank r; ts_st := ts_st r; ts_k := k; ts_mem := mem |}
  end.

(** members, lines 256-266 (chunk_sizes is used by the constructor only) *)
Record trie_ranking := { tr_masks : list N; tr_trie : list Z; tr_mask : N }.

(** l.347 and l.352: chunk_sizes *)
Definition trie_chunks (R M : nat) : list nat :=
  repeat R (M / R) ++ (if (M mod R =? 0)%nat then [] else [(M mod R)%nat]).

(** lines 354-360: pext_masks; [shift] is pext_mask_shift *)
Fixpoint trie_masks (chunks : list nat) (shift : nat) : list N :=
  match chunks with
  | [] => []
  | s :: rest => w64 (N.shiftl (2 ^ N.of_nat s - 1) (N.of_nat (shift - s))) :: trie_masks rest (shift - s)
  end.

(** std::vector<int64_t>::resize(n) *)
Definition vec_resize (v : list Z) (n : N) : list Z :=
  firstn (N.to_nat n) v ++ repeat 0%Z (N.to_nat n - length v).

(** lines 346-373: constructor *)
Definition trie_ranking_init (R : nat) (p : sector_params) : option trie_ranking :=
  do size <- pow2 (pM p + 1);
  let chunks := trie_chunks R (pM p) in
  let mem := repeat 0%Z (N.to_nat size) in
  do mem' <-
    (if (0 <? pM p)%nat then
       do pn <- pow2 (n_counted (pM p) (pN p));
       do r <- make_trie chunks (pM p) {| ts_rank := 0; ts_st := pn - 1; ts_k := 0; ts_mem := mem |};
       Some (map (fun v => if (v <? 0)%Z then (- v)%Z else v) (vec_resize (ts_mem r) (ts_k r)))
     else Some mem);
  Some {| tr_masks := trie_masks chunks (pM p); tr_trie := mem';
          tr_mask := if (pN p <=? pM p / 2)%nat then 0 else full_mask (pM p) |}.

(** lines 375-383: operator() *)
Fixpoint trie_lookup (trie : list Z) (masks : list N) (a i : N) : option N :=
  match masks with
  | [] => Some i
  | m :: masks' =>
      do r <- extract_bits a m;
      do v <- vec_get trie (w64 (i + r));
      trie_lookup trie masks' a (to_u64 v)
  end.
Definition trie_rank (t : trie_ranking) (a : N) : option N :=
  trie_lookup (tr_trie t) (tr_masks t) (N.lxor a (tr_mask t)) 0.
