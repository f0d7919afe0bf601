(** Specification of sectors with a fixed number of fermions, independent of the
    algorithms in SectorModel.v *)
From Coq Require Import NArith ZArith List Bool Arith.
From Verif Require Import BitsSpec RankSpec ExprModel HSModel HSSpec.
(* from SectorModel only the data type sector_desc is used *)
From Verif Require Import SectorModel.
Import ListNotations.
Open Scope N_scope.
Open Scope list_scope.

Section Spec.
Context {I : Type} (io : index_ops I).

(** the indices of the fermionic modes of a space, in order *)
Definition modes (l : list (espace I)) : list I :=
  flat_map (fun e => match e with ESFermion i => [i] | _ => [] end) l.
(** is the fermionic mode i occupied in the basis state x? *)
Fixpoint occupied_from (l : list (espace I)) (start : nat) (x : N) (i : I) : bool :=
  match l with
  | [] => false
  | e :: t =>
      match e with
      | ESFermion j => if i_eq io i j then N.testbit x (N.of_nat start) else occupied_from t (start + es_nbits e) x i
      | _ => occupied_from t (start + es_nbits e) x i
      end
  end.
Definition occupied (l : list (espace I)) (x : N) (i : I) : bool := occupied_from l 0 x i.
(** number of particles in a set of modes *)
Definition particles (l : list (espace I)) (x : N) (is : list I) : nat := length (filter (occupied l x) is).

(** the basis states of the N-fermion sector *)
Definition in_nf_sector (l : list (espace I)) (n : nat) (x : N) : Prop :=
  valid_state l x /\ particles l x (modes l) = n.
(** the basis states of a multisector *)
Definition in_multisector (l : list (espace I)) (ss : list (@sector_desc I)) (x : N) : Prop :=
  valid_state l x /\ forall s, In s ss -> particles l x (sd_indices s) = sd_N s.
(** every elementary space fills all its bits, i.e. the space is not sparse *)
Definition dense_spaces (l : list (espace I)) : Prop :=
  Forall (fun e => es_dim e = 2 ^ N.of_nat (es_nbits e)) l.

(** By how much a product of generators changes the number of fermions in the
    modes selected by [sel]: +1 for every creation operator, -1 for every
    annihilation operator *)
Fixpoint charge (sel : I -> bool) (m : list (gen I)) : Z :=
  match m with
  | [] => 0
  | GFermion dagger i :: t => (if sel i then (if dagger then 1 else -1) else 0) + charge sel t
  | _ :: t => charge sel t
  end%Z.
Definition all_modes : I -> bool := fun _ => true.
Definition modes_of (s : @sector_desc I) : I -> bool := fun i => existsb (i_eq io i) (sd_indices s).
End Spec.

(** [xs] lists the states of a set [P], and a numbering [f] gives each of them
    its position in the list. *)
Definition numbering (xs : list N) (P : N -> Prop) (f : N -> option N) : Prop :=
  NoDup xs /\ (forall x, In x xs <-> P x) /\
  (forall i x, nth_error xs i = Some x -> f x = Some (N.of_nat i)).

(** the pairs (x_k, amp k), for the non-zero amplitudes amp k *)
Fixpoint nonzero_pairs {S} (so : scalar_ops S) (amp : N -> S) (xs : list N) (k : N) : list (N * S) :=
  match xs with
  | [] => []
  | x :: t => if s_is_zero so (amp k) then nonzero_pairs so amp t (k + 1) else (x, amp k) :: nonzero_pairs so amp t (k + 1)
  end.

(** The vector of the whole space that has the amplitudes [a 0], [a 1], ... in the
    states x_0, x_1, ... and is zero otherwise *)
Definition embeds {S} (so : scalar_ops S) (a : N -> S) (xs : list N) (psi : N -> S) : Prop :=
  (forall k x, nth_error xs k = Some x -> psi x = a (N.of_nat k)) /\
  (forall x, ~ In x xs -> psi x = s_zero so).
