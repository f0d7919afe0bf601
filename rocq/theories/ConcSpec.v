(** Specification vocabulary for C76 *)
From Coq Require Import List Bool Arith.
From Verif Require Import DSModel DSSpec DSProofs ConcModel.
Import ListNotations.

(** the arguments are elements of a structure of n elements *)
Definition query_ok (n : nat) (q : query) : Prop :=
  match q with QFind x => x < n | QSame x y => x < n /\ y < n end.
(** the answer of one thread working alone on [d], whose merged pairs are [E] *)
Definition right_answer (d : dsets) (E : list (nat * nat)) (q : query) (a : answer) : Prop :=
  match q, a with
  | QFind x, ARoot r => exists d', find_root d x = Some (d', r)
  | QSame x y, ASame b => (exists d', in_same_set d x y = Some (d', b)) /\ (b = true <-> connected E x y)
  | _, _ => False
  end.
(** number of steps after which the calls are surely finished *)
Definition steps_enough (n : nat) (qs : list query) : nat := length qs * (6 * n + 1).
(** the structure with its mutable member as the threads have left it *)
Definition with_parents (d : dsets) (ps : list nat) : dsets :=
  {| parents := ps; ranks := ranks d; n_sets := n_sets d |}.
