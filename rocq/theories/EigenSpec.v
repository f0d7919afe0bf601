(** Specification for EigenModel.v. *)
From Coq Require Import NArith ZArith List Bool.
From Verif Require Import ExprModel LOpModel EigenModel.
Import ListNotations.
Open Scope N_scope.

(** all elements of the view are in the memory, and they are different *)
Definition ev_fits (w : ev) (size : nat) : Prop :=
  (0 < ev_stride w)%nat /\ forall n, n < ev_len w -> (ev_addr w n < size)%nat.
(** the cell k belongs to the view *)
Definition ev_has (w : ev) (k : nat) : Prop := exists n, n < ev_len w /\ k = ev_addr w n.
Definition ev_disjoint (w w' : ev) : Prop := forall k, ev_has w k -> ev_has w' k -> False.
(** the n-th amplitude, zero outside of the view *)
Definition ev_amp {S} (so : scalar_ops S) (w : ev) (m : list S) (n : N) : S :=
  if n <? ev_len w then nth (ev_addr w n) m (s_zero so) else s_zero so.
(** position of the element (i, j) of a matrix with R rows and C columns *)
Definition mat_pos (o : storage) (R C i j : nat) : nat :=
  match o with ColMajor => j * R + i | RowMajor => i * C + j end%nat.
