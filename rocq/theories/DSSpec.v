(** * Independent specification of a dynamic equivalence relation *)
From Coq Require Import List Bool Arith Relations.
Import ListNotations.

(** [a] and [b] are connected by the undirected edges [E]. *)
Definition connected (E : list (nat * nat)) : nat -> nat -> Prop :=
  clos_refl_sym_trans nat (fun a b => In (a, b) E).

(** [k] is the number of classes of [connected E] on {0,..,n-1}: there are k pairwise
    unconnected representatives to which everything is connected. *)
Definition n_classes (n : nat) (E : list (nat * nat)) (k : nat) : Prop :=
  exists reps : list nat,
    length reps = k /\ NoDup reps /\ (forall r, In r reps -> r < n) /\
    (forall x, x < n -> exists r, In r reps /\ connected E x r) /\
    (forall r r', In r reps -> In r' reps -> connected E r r' -> r = r').
