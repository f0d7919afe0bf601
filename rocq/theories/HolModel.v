(** The Holstein model on a square lattice: examples/holstein.cpp. *)
From Coq Require Import List Bool Arith.
From Verif Require Import ExprModel.
Import ListNotations.

(** the third index: "up", "down" or "" (l.54, l.93) *)
Inductive label := Up | Down | NoLabel.

(** loops "for(int ix = 0; ix < N; ++ix) for(int iy = 0; iy < N; ++iy)" *)
Definition lattice (N : nat) : list (nat * nat) :=
  flat_map (fun ix => map (fun iy => (ix, iy)) (seq 0 N)) (seq 0 N).
(** std::abs(i - j) *)
Definition distance (i j : nat) : nat := (i - j) + (j - i).
(** neighbors(i, j): holstein.cpp l.49-51 *)
Definition neighbors (N i j : nat) : bool := Nat.eqb (distance i j) 1 || Nat.eqb (distance i j) N.
(** the condition of l.64-65 *)
Definition bonded (N : nat) (i j : nat * nat) : bool :=
  (neighbors N (fst i) (fst j) && Nat.eqb (snd i) (snd j)) || (Nat.eqb (fst i) (fst j) && neighbors N (snd i) (snd j)).
(** the values of (spin, ix, iy, jx, jy) for which l.67 is executed, in the order
    of the loops of l.54-60 *)
Definition bonds (N : nat) : list (label * ((nat * nat) * (nat * nat))) :=
  flat_map (fun s => flat_map (fun i => flat_map (fun j => if bonded N i j then [(s, (i, j))] else []) (lattice N)) (lattice N)) [Up; Down].
(** the values of (spin, ix, iy) in the loops of l.109-112 and l.130-132 *)
Definition orbitals (N : nat) : list (label * (nat * nat)) := flat_map (fun s => map (pair s) (lattice N)) [Up; Down].

Section Programs.
(** [idx x y s]: the tuple of indices (x, y, s).  Simplification: the index type is
    any type I with an order, and idx any function. *)
Context {I T : Type} (io : index_ops I) (so : scalar_ops T) (idx : nat -> nat -> label -> I).
Notation go := (std_gen_ops io).
Notation expr := (list (list (gen I) * T)).
Definition at_ (s : label) (i : nat * nat) : I := idx (fst i) (snd i) s.

(** a loop that executes "h += term(a)" *)
Fixpoint accumulate {A} (l : list A) (term : A -> res expr) (h : expr) : res expr :=
  match l with
  | [] => Ok h
  | a :: t => rbind (term a) (fun x => accumulate t term (e_add_assign go so h x))
  end.

(** -t * c_dag(ix, iy, spin) * c(jx, jy, spin): l.67 *)
Definition hopping (t : T) (b : label * ((nat * nat) * (nat * nat))) : res expr :=
  rbind (factory go so (GFermion true (at_ (fst b) (fst (snd b))))) (fun c_dag =>
  rbind (factory go so (GFermion false (at_ (fst b) (snd (snd b))))) (fun c =>
  e_mul go so (e_mul_const_pre so (s_neg so t) c_dag) c)).
(** w0 * a_dag(ix, iy, "") * a(ix, iy, ""): l.93 *)
Definition phonon (w0 : T) (i : nat * nat) : res expr :=
  rbind (factory go so (GBoson true (at_ NoLabel i))) (fun a_dag =>
  rbind (factory go so (GBoson false (at_ NoLabel i))) (fun a =>
  e_mul go so (e_mul_const_pre so w0 a_dag) a)).
(** g * n(ix, iy, spin) * (a_dag(ix, iy, "") + a(ix, iy, "")): l.114 *)
Definition coupling (g : T) (o : label * (nat * nat)) : res expr :=
  rbind (factory_n io so (at_ (fst o) (snd o))) (fun n =>
  rbind (factory go so (GBoson true (at_ NoLabel (snd o)))) (fun a_dag =>
  rbind (factory go so (GBoson false (at_ NoLabel (snd o)))) (fun a =>
  e_mul go so (e_mul_const_pre so g n) (e_add go so a_dag a)))).

(** H_H = H_e + H_ph + H_e_ph: l.41-120; default constructed expressions are empty *)
Definition holstein (t w0 g : T) (N : nat) : res expr :=
  rbind (accumulate (bonds N) (hopping t) []) (fun H_e =>
  rbind (accumulate (lattice N) (phonon w0) []) (fun H_ph =>
  rbind (accumulate (orbitals N) (coupling g) []) (fun H_e_ph =>
  Ok (e_add go so (e_add go so H_e H_ph) H_e_ph)))).
(** N_e: l.129-136 *)
Definition electrons (N : nat) : res expr :=
  accumulate (orbitals N) (fun o => factory_n io so (at_ (fst o) (snd o))) [].
End Programs.
