(** The ring of spins of examples/spin1_heisenberg.cpp: its Hamiltonian. *)
From Coq Require Import List Arith.
From Verif Require Import ExprModel HolModel.
Import ListNotations.

Section Programs.
(** [m]: the multiplicity 2S+1 of the spins (3 in the program); [half]: the
    literal 0.5; [idx i]: the index of the spin i. *)
Context {I T : Type} (io : index_ops I) (so : scalar_ops T) (m : nat) (half : T) (idx : nat -> I).
Notation go := (std_gen_ops io).
Notation expr := (list (list (gen I) * T)).

(** spin1_heisenberg.cpp l.49-51, one pass of the loop; S_z<3>, S_p<3>, S_m<3>:
    are made by factories.hpp; j: l.49 *)
Definition sr_term (N i : nat) : res expr :=
  let j := (i + 1) mod N in
  rbind (factory go so (GSpin m Zcomp (idx i))) (fun z_i =>
  rbind (factory go so (GSpin m Zcomp (idx j))) (fun z_j =>
  rbind (factory go so (GSpin m Plus (idx i))) (fun p_i =>
  rbind (factory go so (GSpin m Minus (idx j))) (fun m_j =>
  rbind (factory go so (GSpin m Minus (idx i))) (fun m_i =>
  rbind (factory go so (GSpin m Plus (idx j))) (fun p_j =>
  rbind (e_mul go so z_i z_j) (fun zz =>
  rbind (e_mul go so p_i m_j) (fun pm =>
  rbind (e_mul go so m_i p_j) (fun mp =>
  Ok (e_add go so zz (e_mul_const_pre so half (e_add go so pm mp)))))))))))).
(** H: l.48-52 *)
Definition spin_ring (N : nat) : res expr := accumulate io so (seq 0 N) (sr_term N) [].
(** The projection of the total spin, the sum of S_z(i).  Not in the program:
    the conserved quantity of its Hamiltonian. *)
Definition total_sz (N : nat) : res expr := accumulate io so (seq 0 N) (fun i => factory go so (GSpin m Zcomp (idx i))) [].
End Programs.
