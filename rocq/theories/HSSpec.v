(** Specification vocabulary for Hilbert spaces: what a product of elementary
    spaces is, independent of the algorithms in HSModel.v (only the data types,
    the dimensions and bit counts of elementary spaces are used). *)
From Coq Require Import NArith ZArith List Bool Sorted.
From Verif Require Import ExprModel ExprSpec HSModel.
Import ListNotations.
Open Scope N_scope.
Open Scope list_scope.

Section Spec.
Context {I : Type} (io : index_ops I).
Notation es := (espace I).

(** order of the elementary spaces in the product: fermions, bosons, spins;
    within an algebra by index (spins: by multiplicity, then index) *)
Inductive es_before : es -> es -> Prop :=
| eb_fb : forall i d j, es_before (ESFermion i) (ESBoson d j)
| eb_fs : forall i m j, es_before (ESFermion i) (ESSpin m j)
| eb_bs : forall d i m j, es_before (ESBoson d i) (ESSpin m j)
| eb_f : forall i j, idx_lt io i j -> es_before (ESFermion i) (ESFermion j)
| eb_b : forall d i d' j, idx_lt io i j -> es_before (ESBoson d i) (ESBoson d' j)
| eb_m : forall m i m' j, (m < m')%nat -> es_before (ESSpin m i) (ESSpin m' j)
| eb_s : forall m i j, idx_lt io i j -> es_before (ESSpin m i) (ESSpin m j).

(** the same degree of freedom (possibly with different boson truncations) *)
Inductive same_slot : es -> es -> Prop :=
| ss_f : forall i, same_slot (ESFermion i) (ESFermion i)
| ss_b : forall d d' i, same_slot (ESBoson d i) (ESBoson d' i)
| ss_s : forall m i, same_slot (ESSpin m i) (ESSpin m i).

(** admissible parameters (asserted by the constructors) *)
Definition es_wf (e : es) : Prop :=
  match e with ESFermion _ => True | ESBoson d _ => 0 < d | ESSpin m _ => (0 < m)%nat end.

Fixpoint total_bits (l : list es) : nat :=
  match l with [] => 0%nat | e :: t => (es_nbits e + total_bits t)%nat end.
(** first bit of the k-th elementary space *)
Definition offset (l : list es) (k : nat) : nat := total_bits (firstn k l).
Fixpoint product_dim (l : list es) : N :=
  match l with [] => 1 | e :: t => es_dim e * product_dim t end.

(** bits [off, off+n) of x *)
Definition bit_field (x : N) (off n : nat) : N := N.shiftr x (N.of_nat off) mod 2 ^ N.of_nat n.

(** x is the index of a basis state of the product of [l] *)
Definition valid_state (l : list es) (x : N) : Prop :=
  x < 2 ^ N.of_nat (total_bits l) /\
  forall k e, nth_error l k = Some e -> bit_field x (offset l k) (es_nbits e) < es_dim e.

(** the elementary spaces of a Hilbert space object, in order *)
Definition spaces (h : hspace I) : list es := map fst (hs_es h).

(** Hilbert spaces that a program can obtain without an exception *)
Inductive hs_reachable : hspace I -> Prop :=
| hr_empty : hs_reachable hs_empty
| hr_add : forall h e h', hs_reachable h -> es_wf e -> hs_add io h e = (h', ODone) -> hs_reachable h'
| hr_vector : forall l h', Forall es_wf l -> hs_of_vector io l = (h', ODone) -> hs_reachable h'
| hr_gens : forall esc gens h', (forall g e, In g gens -> esc g = Some e -> es_wf e) ->
    hs_of_gens io esc gens = (h', ODone) -> hs_reachable h'
| hr_copy : forall h, hs_reachable h -> hs_reachable (hs_copy h)
| hr_assign : forall d s, hs_reachable d -> hs_reachable s -> hs_reachable (hs_assign d s).

(** reachable without using the copy operations *)
Inductive hs_fresh : hspace I -> Prop :=
| hf_empty : hs_fresh hs_empty
| hf_add : forall h e h', hs_reachable h -> es_wf e -> hs_add io h e = (h', ODone) -> hs_fresh h'
| hf_vector : forall l h', Forall es_wf l -> hs_of_vector io l = (h', ODone) -> hs_fresh h'
| hf_gens : forall esc gens h', (forall g e, In g gens -> esc g = Some e -> es_wf e) ->
    hs_of_gens io esc gens = (h', ODone) -> hs_fresh h'.
End Spec.
