(** Vocabulary of C96 (independent of the model); lists and rsum are in HolSpec. *)
From Coq Require Import List Arith.
From Verif Require Import ExprModel ExprSpec HolSpec.
Import ListNotations.

(** neighbors on a ring of N points *)
Definition ring_step (N a b : nat) : Prop := (a + 1) mod N = b \/ (b + 1) mod N = a.
(** sites of an Nx x Ny lattice; neighbors with periodic boundaries in both directions *)
Definition rect_site (Nx Ny : nat) (i : nat * nat) : Prop := fst i < Nx /\ snd i < Ny.
Definition torus_adjacent (Nx Ny : nat) (i j : nat * nat) : Prop :=
  (ring_step Nx (fst i) (fst j) /\ snd i = snd j) \/ (fst i = fst j /\ ring_step Ny (snd i) (snd j)).
