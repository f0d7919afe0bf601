(** The Hubbard-Holstein model on a square lattice: examples/hubbard_holstein.cpp. *)
From Coq Require Import List Bool Arith.
From Verif Require Import ExprModel HolModel.
Import ListNotations.

(** loops "for(int ix = 0; ix < Nx; ++ix) for(int iy = 0; iy < Ny; ++iy)": e.g. l.96-97 *)
Definition hh_lattice (Nx Ny : nat) : list (nat * nat) :=
  flat_map (fun ix => map (fun iy => (ix, iy)) (seq 0 Ny)) (seq 0 Nx).
(** neighbors_x(i, j) and neighbors_y(i, j), the same function of the linear
    size: l.68-75.  The size is positive, as l - 1 below is not truncated then. *)
Definition hh_neighbors (N i j : nat) : bool := Nat.eqb (distance i j) 1 || Nat.eqb (distance i j) (N - 1).
(** the condition of l.84-85 *)
Definition hh_bonded (Nx Ny : nat) (i j : nat * nat) : bool :=
  (hh_neighbors Nx (fst i) (fst j) && Nat.eqb (snd i) (snd j)) || (Nat.eqb (fst i) (fst j) && hh_neighbors Ny (snd i) (snd j)).
(** the values of (spin, ix, iy, jx, jy) for which l.87 is executed, in the order
    of the loops of l.77-81 *)
Definition hh_bonds (Nx Ny : nat) : list (label * ((nat * nat) * (nat * nat))) :=
  flat_map (fun s => flat_map (fun i => flat_map (fun j => if hh_bonded Nx Ny i j then [(s, (i, j))] else [])
    (hh_lattice Nx Ny)) (hh_lattice Nx Ny)) [Up; Down].
(** the values of (spin, ix, iy) in the loops of the electron-phonon coupling: l.109-111 *)
Definition hh_orbitals (Nx Ny : nat) : list (label * (nat * nat)) := flat_map (fun s => map (pair s) (hh_lattice Nx Ny)) [Up; Down].

Section Programs.
(** [idx x y s]: the tuple of indices (x, y, s), see HolModel *)
Context {I T : Type} (io : index_ops I) (so : scalar_ops T) (idx : nat -> nat -> label -> I).
Notation go := (std_gen_ops io).
Notation expr := (list (list (gen I) * T)).

(** U * n(ix, iy, "up") * n(ix, iy, "down"): l.98 *)
Definition coulomb (U : T) (i : nat * nat) : res expr :=
  rbind (factory_n io so (at_ idx Up i)) (fun n_up =>
  rbind (factory_n io so (at_ idx Down i)) (fun n_dn =>
  e_mul go so (e_mul_const_pre so U n_up) n_dn)).
(** a_dag(ix, iy, "") * a(ix, iy, ""): l.105 *)
Definition hh_phonon (i : nat * nat) : res expr :=
  rbind (factory go so (GBoson true (at_ idx NoLabel i))) (fun a_dag =>
  rbind (factory go so (GBoson false (at_ idx NoLabel i))) (fun a =>
  e_mul go so a_dag a)).
(** H: l.77-115, one expression to which the four groups of loops add *)
Definition hubbard_holstein (t U g : T) (Nx Ny : nat) : res expr :=
  rbind (accumulate io so (hh_bonds Nx Ny) (hopping io so idx t) []) (fun H1 =>
  rbind (accumulate io so (hh_lattice Nx Ny) (coulomb U) H1) (fun H2 =>
  rbind (accumulate io so (hh_lattice Nx Ny) hh_phonon H2) (fun H3 =>
  accumulate io so (hh_orbitals Nx Ny) (coupling io so idx g) H3))).
(** N: l.126, n(ix, iy, "up") + n(ix, iy, "down") *)
Definition hh_number (Nx Ny : nat) : res expr :=
  accumulate io so (hh_lattice Nx Ny) (fun i =>
    rbind (factory_n io so (at_ idx Up i)) (fun n_up =>
    rbind (factory_n io so (at_ idx Down i)) (fun n_dn => Ok (e_add go so n_up n_dn)))) [].
(** S_z: l.127, [half] * (n(ix, iy, "up") - n(ix, iy, "down")) with half = 0.5 *)
Definition hh_spin (half : T) (Nx Ny : nat) : res expr :=
  accumulate io so (hh_lattice Nx Ny) (fun i =>
    rbind (factory_n io so (at_ idx Up i)) (fun n_up =>
    rbind (factory_n io so (at_ idx Down i)) (fun n_dn => Ok (e_mul_const_pre so half (e_sub go so n_up n_dn))))) [].
End Programs.
