(** * Model of mapped and compressed views of state vectors
    Sources: /repo/include/libcommute/loperator/{mapped_basis_view,
    compressed_state_view}.hpp
    The vector adapted by a view is any implementation [sv] of the StateVector
    interface (LOpModel.v). *)
From Coq Require Import NArith ZArith List Bool Permutation.
From Verif Require Import BitsModel ExprModel HSModel LOpModel.
Import ListNotations.
Open Scope N_scope.
Open Scope list_scope.

(** ** std::unordered_map<sv_index_type, sv_index_type>: pairs with different
    keys; a traversal may visit them in any order. *)
Definition imap : Type := list (N * N).
(** map.at(n); [None]: std::out_of_range *)
Definition im_at (m : imap) (n : N) : option N := sp_find n m.
(** map.emplace(n, map.size()) / inserting make_pair(n, map.size()): nothing
    happens if the key n is present *)
Definition im_number (m : imap) (n : N) : imap :=
  match im_at m n with Some _ => m | None => m ++ [(n, N.of_nat (length m))] end.
(** map.insert(p) *)
Definition im_insert (m : imap) (p : N * N) : imap :=
  match im_at m (fst p) with Some _ => m | None => m ++ [p] end.

(** ** mapped_basis_view: mapped_basis_view.hpp l.41-125 *)

(** A view is Live, or an operation on it has thrown std::out_of_range; [v] is
    the adapted vector (after the throw: as the exception leaves it). *)
Inductive vstate (V : Type) : Type := Live (v : V) | Thrown (v : V).
Arguments Live {V} _.
Arguments Thrown {V} _.
Definition vs_vec {V} (s : vstate V) : V := match s with Live v | Thrown v => v end.

Section Mapped.
Context {S V : Type} (so : scalar_ops S) (sv : sv_ops V S) (m : imap).

(** get_element: l.64-69.  Inner [None]: out_of_range; outer: access outside of
    the adapted vector. *)
Definition mv_get (v : V) (n : N) : option (option S) :=
  match im_at m n with None => Some None | Some k => option_map Some (sv_get sv v k) end.

(** update_add_element: l.73-78.  Once an exception has been thrown nothing more
    is executed. *)
Definition mv_add (s : vstate V) (n : N) (x : S) : option (vstate V) :=
  match s with
  | Thrown v => Some (Thrown v)
  | Live v =>
      match im_at m n with
      | None => Some (Thrown v)
      | Some k => option_map Live (sv_add sv v k x)
      end
  end.

(** foreach: l.109-123, the pairs of the map being visited in the order [ps];
    [None]: access outside of the adapted vector *)
Fixpoint mv_calls (v : V) (ps : imap) : option (list (N * S)) :=
  match ps with
  | [] => Some []
  | (n, k) :: t =>
      match sv_get sv v k with
      | None => None
      | Some a => option_map (fun l => if s_is_zero so a then l else (n, a) :: l) (mv_calls v t)
      end
  end.
Definition mv_foreach (v : V) (l : list (N * S)) : Prop :=
  exists ps, Permutation ps m /\ mv_calls v ps = Some l.

(** the view as a state vector; set_zeros: l.96-99 *)
Definition mapped_sv : sv_ops (vstate V) S :=
  mk_sv (fun s l => mv_foreach (vs_vec s) l)
        (fun s n => match mv_get (vs_vec s) n with Some (Some a) => Some a | _ => None end)
        mv_add
        (fun s => match s with Live v => Live (sv_zero sv v) | Thrown v => Thrown v end).
End Mapped.

(** ** basis_mapper: mapped_basis_view.hpp l.128-253 *)

(** basis_mapper(basis_state_indices): l.169-175 *)
Definition mapper_of_list (l : list N) : imap := fold_left im_number l [].

Section Mapper.
Context {S : Type} (so : scalar_ops S) (sq : N -> S) (half : Z -> S).
Notation vec := (@sparse S).

(** foreach(st, [](out_index, ...) { map_.emplace(out_index, map_.size()); }) *)
Definition collect (st : vec) (m m' : imap) : Prop :=
  exists l, Permutation l (sp_data st) /\ m' = fold_left im_number (map fst l) m.

(** vac: l.184-186, l.209-210; [dim] = get_vec_size(hs) *)
Definition vac (dim : N) : vec := sparse_assign (mk_sparse dim []) 0 (s_one so).

(** basis_mapper(O, hs): l.179-192 *)
Definition mapper_of_op (L : lop S) (dim : N) (m' : imap) : Prop :=
  exists ent st, sv_entries (sparse_sv so) (vac dim) ent /\
    lop_apply so sq half (sparse_sv so) L (vac dim) ent = Some st /\ collect st [] m'.

(** compositions_constructor_impl: l.134-164.  [Ls] = O_list[m], O_list[m+1],
    ...; [k] = N - sum_n. *)
Fixpoint compositions (Ls : list (lop S)) (k : nat) (st : vec) (m m' : imap) : Prop :=
  exists m1, (if (k =? 0)%nat then collect st m m1 else m1 = m) /\
  match Ls with
  | [] => m' = m1
  | L :: Ls' =>
      exists m2, compositions Ls' k st m1 m2 /\
      (fix loop (k : nat) (from to : vec) (m m' : imap) : Prop :=
         match k with
         | O => m' = m
         | Datatypes.S k' =>
             exists ent to', sv_entries (sparse_sv so) from ent /\
               lop_apply_to so sq half (sparse_sv so) L ent to = Some to' /\
               (if (sparse_n_nonzeros to' =? 0)%nat then m' = m
                else exists m3, compositions Ls' k' to' m m3 /\ loop k' to' to' m3 m')
         end) k st (sparse_zero st) m2 m'
  end.

(** basis_mapper(O_list, hs, N): l.198-212.  The parameter N of
    compositions_constructor_impl is an int: from 2^31 on it is negative,
    sum_n == N and sum_n < N are false, and nothing is collected. *)
Definition mapper_of_ops (Ls : list (lop S)) (dim : N) (n : N) (m' : imap) : Prop :=
  if (n =? 0) || (match Ls with [] => true | _ => false end) then m' = [(0, 0)]
  else if 2 ^ 31 <=? n then m' = []
  else compositions Ls (N.to_nat n) (vac dim) [] m'.
End Mapper.

(** size(): l.215 *)
Definition mapper_size (m : imap) : N := N.of_nat (length m).
(** inverse_map(): l.223-235; [ps]: order of the traversal of map_ *)
Definition inverse_map (ps : imap) : imap := fold_left im_insert (map (fun p => (snd p, fst p)) ps) [].

(** ** compressed_state_view: compressed_state_view.hpp l.35-114 *)
Section Compressed.
Context {I : Type} (io : index_ops I).

(** members masks, strides, foreach_alg: l.42-48 *)
Record comp_view : Type := mk_cv { cv_masks : list N; cv_strides : list N; cv_fa : sfe }.

(** the lambda of init(), l.78-97, and l.98-101: pairs (sizes[d], masks[d]);
    [None]: undefined shift, or std::runtime_error of bit_range() *)
Fixpoint cv_init_loop (h : hspace I) (l : list (espace I * (Z * Z))) (dim mask : N) : option (list (N * N)) :=
  match l with
  | [] => Some (if dim =? 1 then [] else [(dim, mask)])
  | (x, _) :: t =>
      match pow2 (es_nbits x), hs_bit_range io h x with
      | Some p, Some (lo, _) =>
          let dim' := w64 (dim * es_dim x) in
          let mask' := w64 (mask + w64 (N.shiftl (sub64 p 1) (Z.to_N lo))) in
          if es_dim x =? p then cv_init_loop h t dim' mask'
          else option_map (cons (dim', mask')) (cv_init_loop h t 1 0)
      | _, _ => None
      end
  end.
(** strides[d] = strides[d-1] * sizes[d-1]: l.104-110 *)
Fixpoint cv_strides_from (sizes : list N) (s : N) : list N :=
  match sizes with [] => [] | d :: t => s :: cv_strides_from t (w64 (s * d)) end.
(** constructor: l.53-56, init: l.67-113 *)
Definition comp_view_make (h : hspace I) : option comp_view :=
  match cv_init_loop h (hs_es h) 1 0 with
  | None => None
  | Some sm =>
      match sfe_make (map fst sm) with
      | None => None
      | Some fa => Some (mk_cv (map snd sm) (cv_strides_from (map fst sm) 1) fa)
      end
  end.

(** map_index: l.58-64 *)
Fixpoint cv_index_loop (masks strides : list N) (index res : N) : option N :=
  match masks, strides with
  | k :: masks', s :: strides' =>
      match extract_bits index k with
      | None => None
      | Some e => cv_index_loop masks' strides' index (w64 (res + w64 (e * s)))
      end
  | _, _ => Some res
  end.
Definition comp_map_index (w : comp_view) (index : N) : option N :=
  cv_index_loop (cv_masks w) (cv_strides w) index 0.

(** get_element l.124-129, update_add_element l.132-139 *)
Definition comp_get {V S} (sv : sv_ops V S) (w : comp_view) (v : V) (n : N) : option S :=
  match comp_map_index w n with None => None | Some k => sv_get sv v k end.
Definition comp_add {V S} (sv : sv_ops V S) (w : comp_view) (v : V) (n : N) (x : S) : option V :=
  match comp_map_index w n with None => None | Some k => sv_add sv v k x end.

(** foreach: l.172-190; the accumulator is (n, the calls of f so far); the functor
    is assumed not to iterate over the same view object (see C57) *)
Definition comp_foreach {V S} (so : scalar_ops S) (sv : sv_ops V S) (w : comp_view) (v : V) : option (list (N * S)) :=
  snd (fst (sfe_run (fun st ind (a : N * option (list (N * S))) =>
    ((w64 (fst a + 1),
      match snd a, sv_get sv v (fst a) with
      | Some l, Some x => Some (if s_is_zero so x then l else l ++ [(st, x)])
      | _, _ => None
      end), ind)) (cv_fa w) (0, Some []))).
(** the view as a state vector; set_zeros l.157-161 *)
Definition comp_sv {V S} (so : scalar_ops S) (sv : sv_ops V S) (w : comp_view) : sv_ops V S :=
  mk_sv (fun v l => comp_foreach so sv w v = Some l) (comp_get sv w) (comp_add sv w) (sv_zero sv).
End Compressed.
