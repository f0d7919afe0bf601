(** Vocabulary of C95 (independent of the model). *)
From Coq Require Import List.
From Verif Require Import ExprModel ExprSpec.
Import ListNotations.

(** coordinates that differ by one; sites of the N x N lattice one step apart.
    The lattice has no bonds across its edges (finding F45) *)
Definition one_step (a b : nat) : Prop := a = b + 1 \/ b = a + 1.
Definition is_site (N : nat) (i : nat * nat) : Prop := fst i < N /\ snd i < N.
Definition adjacent (i j : nat * nat) : Prop :=
  (one_step (fst i) (fst j) /\ snd i = snd j) \/ (fst i = fst j /\ one_step (snd i) (snd j)).
(** [l] lists the elements of [P], each of them once *)
Definition lists {A} (l : list A) (P : A -> Prop) : Prop := NoDup l /\ forall a, In a l <-> P a.
(** sums in a ring *)
Definition rsum {R A} (ro : ring_ops R) (v : A -> R) (l : list A) : R := fold_right (fun a x => radd ro (v a) x) (r0 ro) l.
