(** The Hubbard-Holstein chain of examples/hubbard_holstein_1d.cpp: its Hamiltonian. *)
From Coq Require Import List Bool Arith.
From Verif Require Import ExprModel HolModel.
Import ListNotations.

(** the values of (spin, i) for which l.63 is executed: loops of l.61-62 *)
Definition ch_links (L : nat) : list (label * nat) := flat_map (fun s => map (pair s) (seq 0 (L - 1))) [Up; Down].

Section Programs.
(** [idx i s]: the tuple of indices (i, s).  Simplification: the index type is any
    type I with an order, and idx any function. *)
Context {I T : Type} (io : index_ops I) (so : scalar_ops T) (idx : nat -> label -> I).
Notation go := (std_gen_ops io).
Notation expr := (list (list (gen I) * T)).

(** -t * (c_dag(i, spin) * c(i + 1, spin) + hc): l.63 *)
Definition ch_hopping (t : T) (o : label * nat) : res expr :=
  rbind (factory go so (GFermion true (idx (snd o) (fst o)))) (fun c_dag =>
  rbind (factory go so (GFermion false (idx (snd o + 1) (fst o)))) (fun c =>
  rbind (e_mul go so c_dag c) (fun e =>
  rbind (e_plus_hc go so e) (fun h => Ok (e_mul_const_pre so (s_neg so t) h))))).
(** -mu * (n(i, "up") + n(i, "down")): l.68 *)
Definition ch_chemical (mu : T) (i : nat) : res expr :=
  rbind (factory_n io so (idx i Up)) (fun n_up =>
  rbind (factory_n io so (idx i Down)) (fun n_dn => Ok (e_mul_const_pre so (s_neg so mu) (e_add go so n_up n_dn)))).
(** U * n(i, "up") * n(i, "down"): l.71 *)
Definition ch_coulomb (U : T) (i : nat) : res expr :=
  rbind (factory_n io so (idx i Up)) (fun n_up =>
  rbind (factory_n io so (idx i Down)) (fun n_dn => e_mul go so (e_mul_const_pre so U n_up) n_dn)).
(** w * a_dag(i, "") * a(i, ""): l.74 *)
Definition ch_phonon (w : T) (i : nat) : res expr :=
  rbind (factory go so (GBoson true (idx i NoLabel))) (fun a_dag =>
  rbind (factory go so (GBoson false (idx i NoLabel))) (fun a => e_mul go so (e_mul_const_pre so w a_dag) a)).
(** g * (n(i, "up") + n(i, "down")) * (a_dag(i, "") + a(i, "")): l.77 *)
Definition ch_coupling (g : T) (i : nat) : res expr :=
  rbind (factory_n io so (idx i Up)) (fun n_up =>
  rbind (factory_n io so (idx i Down)) (fun n_dn =>
  rbind (factory go so (GBoson true (idx i NoLabel))) (fun a_dag =>
  rbind (factory go so (GBoson false (idx i NoLabel))) (fun a =>
  e_mul go so (e_mul_const_pre so g (e_add go so n_up n_dn)) (e_add go so a_dag a))))).
(** H: l.60-77, the five groups of loops *)
Definition hubbard_holstein_1d (t mu U w g : T) (L : nat) : res expr :=
  rbind (accumulate io so (ch_links L) (ch_hopping t) []) (fun H1 =>
  rbind (accumulate io so (seq 0 L) (ch_chemical mu) H1) (fun H2 =>
  rbind (accumulate io so (seq 0 L) (ch_coulomb U) H2) (fun H3 =>
  rbind (accumulate io so (seq 0 L) (ch_phonon w) H3) (fun H4 =>
  accumulate io so (seq 0 L) (ch_coupling g) H4)))).
(** The number of electrons with the spin projection s, sum of n(i, s) over the
    chain.  Not in the program: the quantity whose conservation lets it
    diagonalize one sector of n_fermion_sector_view (l.89-117). *)
Definition ch_number (s : label) (L : nat) : res expr :=
  accumulate io so (seq 0 L) (fun i => factory_n io so (idx i s)) [].
End Programs.
