(** * Model of space_partition
    Source: /repo/include/libcommute/loperator/space_partition.hpp

    The class is generic in the Hilbert space: all it uses is [foreach(hs, f)], given
    here by the list [states] of visited basis state indices, and [get_vec_size(hs)],
    given by [d].  A linear operator is given by the content of the sparse vector
    [out_state] after [op(in_state, out_state)] for in_state = |in>: the list of
    (index, non-zero amplitude) pairs in the iteration order of the unordered_map
    (any order; the theorems quantify over it).  PartLModel.v instantiates this by the
    model of loperator.  Methods that are [const] in C++ but call
    disjoint_sets::find_root (which compresses paths in a [mutable] member) thread the
    disjoint_sets explicitly.  [None] = assertion failure, out-of-bounds access,
    C++ exception, or exhausted fuel.
    Simplification: in expressions such as [find_root(a) == find_root(b)] the two calls are
    evaluated left to right. *)
From Coq Require Import List Bool Arith.
From Verif Require Import DSModel.
Import ListNotations.

Definition pair_eqb (a b : nat * nat) : bool := (fst a =? fst b) && (snd a =? snd b).

Section SP.
  Context {A : Type}.    (* amplitudes *)
  Definition lop := nat -> list (nat * A).

  (** std::map operator[] assignment and find; the order of std::map is not modelled
      (space_partition.hpp:36-38 matrix_elements_map) *)
  Definition me_map := list ((nat * nat) * A).
  Fixpoint me_set (m : me_map) (k : nat * nat) (a : A) : me_map :=
    match m with
    | [] => [(k, a)]
    | (k', a') :: m' => if pair_eqb k k' then (k, a) :: m' else (k', a') :: me_set m' k a
    end.
  Fixpoint me_find (m : me_map) (k : nat * nat) : option A :=
    match m with
    | [] => None
    | (k', a') :: m' => if pair_eqb k k' then Some a' else me_find m' k
    end.

  (** std::map<root, subspace> as association list *)
  Fixpoint r2s_find (m : list (nat * nat)) (r : nat) : option nat :=
    match m with [] => None | (r', k) :: m' => if r =? r' then Some k else r2s_find m' r end.
  (** map::emplace(key, size()): no effect if the key is present *)
  Definition r2s_emplace (m : list (nat * nat)) (r : nat) : list (nat * nat) :=
    match r2s_find m r with Some _ => m | None => m ++ [(r, length m)] end.

  Record space_partition := { sp_states : list nat; sp_ds : dsets; sp_r2s : list (nat * nat) }.

  (** :84-86 / :115-118 inner loop over the non-zero amplitudes of h|in> *)
  Fixpoint link_targets (ds : dsets) (inx : nat) (outs : list (nat * A)) : option dsets :=
    match outs with
    | [] => Some ds
    | (o, _) :: outs' => dlet r <- set_union ds inx o; link_targets (fst r) inx outs'
    end.
  Fixpoint me_store (me : me_map) (inx : nat) (outs : list (nat * A)) : me_map :=
    match outs with
    | [] => me
    | (o, a) :: outs' => me_store (me_set me (o, inx) a) inx outs'
    end.
  (** :79-88 / :111-120 outer loop, :79-81 *)
  Fixpoint phase1 (h : lop) (ds : dsets) (me : me_map) (states : list nat) : option (dsets * me_map) :=
    match states with
    | [] => Some (ds, me)
    | i :: st => dlet ds' <- link_targets ds i (h i); phase1 h ds' (me_store me i (h i)) st
    end.

  (** :293-301 update_root_to_subspace() *)
  Fixpoint number_roots (ds : dsets) (m : list (nat * nat)) (states : list nat) : option (dsets * list (nat * nat)) :=
    match states with
    | [] => Some (ds, m)
    | n :: st => dlet r <- find_root ds n; number_roots (fst r) (r2s_emplace m (snd r)) st
    end.
  Definition update_root_to_subspace (states : list nat) (ds : dsets) : option space_partition :=
    dlet ds1 <- compress_sets ds;
    dlet ds2 <- normalize_sets ds1;
    dlet r <- number_roots ds2 [] states;
    Some {| sp_states := states; sp_ds := fst r; sp_r2s := snd r |}.

  (** :71-91 and :101-124 constructors; the first discards the matrix elements *)
  Definition sp_construct (d : nat) (states : list nat) (h : lop) (me : me_map) : option (space_partition * me_map) :=
    dlet r <- phase1 h (ds_init d) me states;
    dlet sp <- update_root_to_subspace states (fst r);
    Some (sp, snd r).

  (** multimap::insert: after all elements with an equivalent key *)
  Fixpoint mm_insert (k v : nat) (l : list (nat * nat)) : list (nat * nat) :=
    match l with
    | [] => [(k, v)]
    | (k', v') :: l' => if k <? k' then (k, v) :: l else (k', v') :: mm_insert k v l'
    end.

  (** :155-166 fill_conn *)
  Fixpoint fill_conn (store : bool) (ds : dsets) (conn : list (nat * nat)) (me : me_map)
      (inx insub : nat) (outs : list (nat * A)) : option (dsets * list (nat * nat) * me_map) :=
    match outs with
    | [] => Some (ds, conn, me)
    | (o, a) :: outs' =>
        dlet r <- find_root ds o;
        fill_conn store (fst r) (mm_insert insub (snd r) conn)
                  (if store then me_set me (o, inx) a else me) inx insub outs'
    end.
  (** :148-171 *)
  Fixpoint fill_all (store : bool) (Cd C : lop) (ds : dsets) (cd_conn c_conn : list (nat * nat))
      (cd_me c_me : me_map) (states : list nat)
      : option (dsets * list (nat * nat) * list (nat * nat) * me_map * me_map) :=
    match states with
    | [] => Some (ds, cd_conn, c_conn, cd_me, c_me)
    | i :: st =>
        dlet r <- find_root ds i;
        dlet f1 <- fill_conn store (fst r) cd_conn cd_me i (snd r) (Cd i);
        dlet f2 <- fill_conn store (fst (fst f1)) c_conn c_me i (snd r) (C i);
        fill_all store Cd C (fst (fst f2)) (snd (fst f1)) (snd (fst f2)) (snd f1) (snd f2) st
    end.

  (** :175-199 merge_conn_targets, loop body :183-196 *)
  Fixpoint merge_loop (ds : dsets) (insub outsub : nat) (linked : bool) (conn : list (nat * nat))
      : option (dsets * bool) :=
    match conn with
    | [] => Some (ds, linked)
    | (f, s) :: conn' =>
        dlet r1 <- find_root ds f;
        dlet r2 <- find_root (fst r1) insub;
        if snd r1 =? snd r2 then
          dlet o1 <- find_root (fst r2) outsub;
          dlet o2 <- find_root (fst o1) s;
          if negb (snd o1 =? snd o2) then
            dlet u <- root_union (fst o2) (snd o1) (snd o2);
            merge_loop (fst u) insub outsub true conn'
          else merge_loop (fst o2) insub outsub linked conn'
        else
          dlet i1 <- find_root (fst r2) f;
          dlet o1 <- find_root (fst i1) s;
          merge_loop (fst o1) (snd i1) (snd o1) linked conn'
    end.
  Definition merge_conn_targets (ds : dsets) (conn : list (nat * nat)) : option (dsets * bool) :=
    match conn with
    | [] => Some (ds, false)
    | (f, s) :: conn' =>
        dlet i1 <- find_root ds f;
        dlet o1 <- find_root (fst i1) s;
        merge_loop (fst o1) (snd i1) (snd o1) false conn'
    end.

  (** :201-208 do-while *)
  Fixpoint merge_until (fuel : nat) (ds : dsets) (cd_conn c_conn : list (nat * nat)) : option dsets :=
    match fuel with
    | O => None
    | S f =>
        dlet m1 <- merge_conn_targets ds cd_conn;
        dlet m2 <- merge_conn_targets (fst m1) c_conn;
        if snd m1 || snd m2 then merge_until f (fst m2) cd_conn c_conn else Some (fst m2)
    end.

  (** :131-213 merge_subspaces *)
  Definition merge_subspaces (sp : space_partition) (Cd C : lop) (store : bool)
      : option (space_partition * me_map * me_map) :=
    dlet f <- fill_all store Cd C (sp_ds sp) [] [] [] [] (sp_states sp);
    let '(ds, cdc, cc, cdm, cm) := f in
    dlet ds' <- merge_until (S (n_sets ds)) ds cdc cc;
    dlet sp' <- update_root_to_subspace (sp_states sp) ds';
    Some (sp', cdm, cm).

  (** :219 n_subspaces() *)
  Definition n_subspaces (sp : space_partition) : nat := length (sp_r2s sp).

  (** :222-229 operator[]; also returns the path-compressed structure *)
  Definition sp_index (sp : space_partition) (x : nat) : option (space_partition * nat) :=
    dlet r <- find_root (sp_ds sp) x;
    dlet k <- r2s_find (sp_r2s sp) (snd r);
    Some ({| sp_states := sp_states sp; sp_ds := fst r; sp_r2s := sp_r2s sp |}, k).

  (** the subspace index returned by sp[x] ([None]: operator[] throws std::out_of_range) *)
  Definition label (sp : space_partition) (x : nat) : option nat := option_map snd (sp_index sp x).

  (** std::set::emplace *)
  Definition set_emplace (c : list (nat * nat)) (p : nat * nat) : list (nat * nat) :=
    if existsb (pair_eqb p) c then c else c ++ [p].

  (** :232-261 find_connections *)
  Fixpoint conn_inner (sp : space_partition) (c : list (nat * nat)) (insub : nat) (outs : list (nat * A))
      : option (space_partition * list (nat * nat)) :=
    match outs with
    | [] => Some (sp, c)
    | (o, _) :: outs' => dlet r <- sp_index sp o; conn_inner (fst r) (set_emplace c (insub, snd r)) insub outs'
    end.
  Fixpoint conn_outer (op : lop) (sp : space_partition) (c : list (nat * nat)) (states : list nat)
      : option (space_partition * list (nat * nat)) :=
    match states with
    | [] => Some (sp, c)
    | i :: st =>
        dlet r <- sp_index sp i;
        dlet q <- conn_inner (fst r) c (snd r) (op i);
        conn_outer op (fst q) (snd q) st
    end.
  Definition find_connections (sp : space_partition) (op : lop) : option (space_partition * list (nat * nat)) :=
    conn_outer op sp [] (sp_states sp).

  (** :264-272 subspace_basis *)
  Fixpoint basis_loop (sp : space_partition) (index : nat) (acc : list nat) (states : list nat)
      : option (space_partition * list nat) :=
    match states with
    | [] => Some (sp, acc)
    | n :: st => dlet r <- sp_index sp n;
                 basis_loop (fst r) index (if snd r =? index then acc ++ [n] else acc) st
    end.
  Definition subspace_basis (sp : space_partition) (index : nat) : option (space_partition * list nat) :=
    if n_subspaces sp <=? index then None else basis_loop sp index [] (sp_states sp).

  (** :275-282 subspace_bases *)
  Fixpoint bases_loop (sp : space_partition) (acc : list (list nat)) (states : list nat)
      : option (space_partition * list (list nat)) :=
    match states with
    | [] => Some (sp, acc)
    | n :: st => dlet r <- sp_index sp n;
                 dlet b <- nth_error acc (snd r);
                 bases_loop (fst r) (upd acc (snd r) (b ++ [n])) st
    end.
  Definition subspace_bases (sp : space_partition) : option (space_partition * list (list nat)) :=
    bases_loop sp (repeat [] (n_subspaces sp)) (sp_states sp).
End SP.
Arguments lop : clear implicits.
Arguments me_map : clear implicits.
