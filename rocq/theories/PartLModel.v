(** * space_partition applied to linear operators
    SPModel.v takes an operator as the list of what foreach(out_state) visits
    after op(in_state, out_state), for each basis state; here is what that list
    is for a loperator.
    Source: /repo/include/libcommute/loperator/space_partition.hpp *)
From Coq Require Import NArith ZArith List Bool.
From Verif Require Import ExprModel HSModel LOpModel.
Import ListNotations.
Open Scope N_scope.
Open Scope list_scope.

(** One turn of the loops of space_partition.hpp l.79-88, l.110-121, l.152-171,
    l.239-258: in_state (no elements: l.77 and the set_zeros of l.87, l.120, l.170,
    l.257) gets in_state[x] = make_const(1); op(in_state, out_state), where
    out_state has the elements [prev] of the previous turn; foreach(out_state)
    then visits [l]. *)
Definition visited {S} (so : scalar_ops S) (sq : N -> S) (half : Z -> S) (Lp : lop S) (d x : N) (l : list (N * S)) : Prop :=
  exists prev ent w,
    sv_entries (sparse_sv so) (sparse_assign (mk_sparse d []) x (s_one so)) ent /\
    lop_apply_to so sq half (sparse_sv so) Lp ent (mk_sparse d prev) = Some w /\
    sv_entries (sparse_sv so) w l.

(** the operator as SPModel.v sees it (indices as nat), on the basis states of
    the list [states] *)
Definition nat_entries {S} (l : list (N * S)) : list (nat * S) := map (fun p => (N.to_nat (fst p), snd p)) l.
Definition seen_as {S} (so : scalar_ops S) (sq : N -> S) (half : Z -> S) (Lp : lop S) (d : N) (states : list N)
  (op : nat -> list (nat * S)) : Prop :=
  forall x, In x states -> exists l, visited so sq half Lp d x l /\ op (N.to_nat x) = nat_entries l.
