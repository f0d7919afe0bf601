(** * Exceptions in the constructor of space_partition and in merge_subspaces()
    Source: /repo/include/libcommute/loperator/space_partition.hpp

    As in CrashModel.v, the crash point [k] is the number of calls that succeed
    before one throws.  Calls that can throw: the insertion into [in_state],
    the application of an operator, [std::multimap::insert], [std::map::operator[]],
    [std::map::emplace] and the copy of the returned maps (allocation failure, or
    an exception of the operator / of the scalar type).  Calls of disjoint_sets
    do not allocate (disjoint_sets.hpp:67-126); [set_zeros] and [clear] release memory.
    Results: [None] = assertion failure or out-of-bounds access (as in SPModel.v);
    [Some (object, None)] = an exception left the function, with the state of the
    object; [Some (object, Some r)] = normal return. *)
From Coq Require Import List Bool Arith.
From Verif Require Import DSModel SPModel.
Import ListNotations.

Section PC.
  Context {A : Type}.

  (** one call that may throw *)
  Definition tick {B C} (k : nat) (crash : B) (go : nat -> option (B * option C)) : option (B * option C) :=
    match k with O => Some (crash, None) | S k' => go k' end.

  (** :155-166 fill_conn: find_root, then insert (:162) and elem[...] = a (:163) *)
  Fixpoint fill_conn_c (store : bool) (k : nat) (ds : dsets) (conn : list (nat * nat)) (me : me_map A)
      (inx insub : nat) (outs : list (nat * A)) {struct outs}
      : option (dsets * option (nat * list (nat * nat) * me_map A)) :=
    match outs with
    | [] => Some (ds, Some (k, conn, me))
    | (o, a) :: outs' =>
        dlet r <- find_root ds o;
        tick k (fst r) (fun k1 =>
          if store then
            tick k1 (fst r) (fun k2 =>
              fill_conn_c store k2 (fst r) (mm_insert insub (snd r) conn) (me_set me (o, inx) a) inx insub outs')
          else fill_conn_c store k1 (fst r) (mm_insert insub (snd r) conn) me inx insub outs')
    end.

  (** :151-171: in_state[in_index] = 1 (:152), Cd(in_state, out_state) and
      C(in_state, out_state) (:158) *)
  Fixpoint fill_all_c (store : bool) (k : nat) (Cd C : lop A) (ds : dsets) (cd_conn c_conn : list (nat * nat))
      (cd_me c_me : me_map A) (states : list nat) {struct states}
      : option (dsets * option (nat * list (nat * nat) * list (nat * nat) * me_map A * me_map A)) :=
    match states with
    | [] => Some (ds, Some (k, cd_conn, c_conn, cd_me, c_me))
    | i :: st =>
        tick k ds (fun k1 =>
        dlet r <- find_root ds i;
        tick k1 (fst r) (fun k2 =>
        dlet f1 <- fill_conn_c store k2 (fst r) cd_conn cd_me i (snd r) (Cd i);
        match snd f1 with
        | None => Some (fst f1, None)
        | Some (k3, cd_conn', cd_me') =>
            tick k3 (fst f1) (fun k4 =>
            dlet f2 <- fill_conn_c store k4 (fst f1) c_conn c_me i (snd r) (C i);
            match snd f2 with
            | None => Some (fst f2, None)
            | Some (k5, c_conn', c_me') =>
                fill_all_c store k5 Cd C (fst f2) cd_conn' c_conn' cd_me' c_me' st
            end)
        end))
    end.

  (** :298-301: the loop of update_root_to_subspace(); std::map::emplace allocates
      the node before it looks for the key, so every call may throw *)
  Fixpoint number_roots_c (k : nat) (ds : dsets) (m : list (nat * nat)) (states : list nat) {struct states}
      : option (dsets * list (nat * nat) * option nat) :=
    match states with
    | [] => Some (ds, m, Some k)
    | n :: st =>
        dlet r <- find_root ds n;
        match k with
        | O => Some (fst r, m, None)
        | S k' => number_roots_c k' (fst r) (r2s_emplace m (snd r)) st
        end
    end.
  (** :293-301 update_root_to_subspace() of a partition: :297 clear() comes first *)
  Definition update_c (k : nat) (states : list nat) (ds : dsets) : option (space_partition * option nat) :=
    dlet ds1 <- compress_sets ds;
    dlet ds2 <- normalize_sets ds1;
    dlet r <- number_roots_c k ds2 [] states;
    Some ({| sp_states := states; sp_ds := fst (fst r); sp_r2s := snd (fst r) |}, snd r).

  (** :131-213 merge_subspaces; the last call that may throw is the copy in
      [return {Cd_elements, C_elements}] (:212) *)
  Definition merge_subspaces_c (k : nat) (sp : space_partition) (Cd C : lop A) (store : bool)
      : option (space_partition * option (me_map A * me_map A)) :=
    dlet f <- fill_all_c store k Cd C (sp_ds sp) [] [] [] [] (sp_states sp);
    match snd f with
    | None => Some ({| sp_states := sp_states sp; sp_ds := fst f; sp_r2s := sp_r2s sp |}, None)
    | Some (k1, cdc, cc, cdm, cm) =>
        dlet ds' <- merge_until (S (n_sets (fst f))) (fst f) cdc cc;
        dlet u <- update_c k1 (sp_states sp) ds';
        match snd u with
        | None => Some (fst u, None)
        | Some k2 => tick k2 (fst u) (fun _ => Some (fst u, Some (cdm, cm)))
        end
    end.

  (** number of calls of the first phase that may throw *)
  Definition fill_calls (store : bool) (Cd C : lop A) (states : list nat) : nat :=
    list_sum (map (fun i => 3 + (if store then 2 else 1) * (length (Cd i) + length (C i))) states).

  (** :101-124 the constructor that stores matrix elements; if it throws, the object
      does not exist, only the caller's map remains *)
  Fixpoint link_targets_c (k : nat) (ds : dsets) (me : me_map A) (inx : nat) (outs : list (nat * A)) {struct outs}
      : option (me_map A * option (nat * dsets)) :=
    match outs with
    | [] => Some (me, Some (k, ds))
    | (o, a) :: outs' =>
        dlet r <- set_union ds inx o;
        tick k me (fun k1 => link_targets_c k1 (fst r) (me_set me (o, inx) a) inx outs')
    end.
  Fixpoint phase1_c (k : nat) (h : lop A) (ds : dsets) (me : me_map A) (states : list nat) {struct states}
      : option (me_map A * option (nat * dsets)) :=
    match states with
    | [] => Some (me, Some (k, ds))
    | i :: st =>
        tick k me (fun k1 => tick k1 me (fun k2 =>
        dlet f <- link_targets_c k2 ds me i (h i);
        match snd f with
        | None => Some (fst f, None)
        | Some (k3, ds') => phase1_c k3 h ds' (fst f) st
        end))
    end.
  Definition sp_construct_c (k d : nat) (states : list nat) (h : lop A) (me : me_map A)
      : option (me_map A * option space_partition) :=
    match k with
    | O => Some (me, None)    (* allocation in the constructor of disjoint_sets, :105 *)
    | S k0 =>
        dlet f <- phase1_c k0 h (ds_init d) me states;
        match snd f with
        | None => Some (fst f, None)
        | Some (k1, ds) =>
            dlet u <- update_c k1 states ds;
            Some (fst f, match snd u with None => None | Some _ => Some (fst u) end)
        end
    end.
  (** number of calls of the loop of the constructor that may throw (:111-120) *)
  Definition phase1_calls (h : lop A) (st : list nat) : nat := list_sum (map (fun i => 2 + length (h i)) st).
  (** the matrix elements of h in the order in which they are computed (:111-120) *)
  Definition elements (h : lop A) (st : list nat) : list ((nat * nat) * A) :=
    flat_map (fun i => map (fun p => ((fst p, i), snd p)) (h i)) st.
End PC.
