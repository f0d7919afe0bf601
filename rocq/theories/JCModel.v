(** The Jaynes-Cummings model: examples/jaynes_cummings.cpp. *)
From Coq Require Import NArith List Bool Reals.
From Verif Require Import ExprModel BitsModel HSModel LOpModel.
Import ListNotations.
Close Scope R_scope.
Close Scope string_scope.
Open Scope nat_scope.
Open Scope list_scope.

Section Programs.
Context {I T : Type} (io : index_ops I) (so : scalar_ops T).
Notation go := (std_gen_ops io).
(** a_dag(), a(), S_p(), S_m(), S_z(): factories.hpp l.96-200; spin 1/2, so the
    multiplicity is 2.  In the program all of them have the empty index tuple;
    here the boson has the index i and the spin the index j (which may be equal). *)
Definition jf (g : gen I) : res (list (list (gen I) * T)) := e_mono go so (s_one so) [g].

(** auto H = hbar * w_c * a_dag() * a() + hbar * w_a * S_z() +
             hbar * 0.5 * Omega * (a() * S_p() + a_dag() * S_m());
    jaynes_cummings.cpp l.50-51.  [hf] is the number 0.5. *)
Definition jc_hamiltonian (hf hbar w_c w_a Omega : T) (i j : I) : res (list (list (gen I) * T)) :=
  rbind (jf (GBoson true i)) (fun a_dag => rbind (jf (GBoson false i)) (fun a =>
  rbind (e_mul go so (e_mul_const_pre so (s_mul so hbar w_c) a_dag) a) (fun t1 =>
  rbind (jf (GSpin 2 Zcomp j)) (fun s_z =>
  rbind (jf (GSpin 2 Plus j)) (fun s_p => rbind (jf (GSpin 2 Minus j)) (fun s_m =>
  rbind (e_mul go so a s_p) (fun t2 => rbind (e_mul go so a_dag s_m) (fun t3 =>
  Ok (e_add go so (e_add go so t1 (e_mul_const_pre so (s_mul so hbar w_a) s_z))
        (e_mul_const_pre so (s_mul so (s_mul so hbar hf) Omega) (e_add go so t2 t3))))))))))).

(** auto N = a_dag() * a() + S_z(); l.54 *)
Definition jc_number (i j : I) : res (list (list (gen I) * T)) :=
  rbind (jf (GBoson true i)) (fun a_dag => rbind (jf (GBoson false i)) (fun a =>
  rbind (e_mul go so a_dag a) (fun t1 =>
  rbind (jf (GSpin 2 Zcomp j)) (fun s_z => Ok (e_add go so t1 s_z))))).

(** H * N - N * H; l.55 *)
Definition jc_commutator (H N : list (list (gen I) * T)) : res (list (list (gen I) * T)) :=
  rbind (e_mul go so H N) (fun x => rbind (e_mul go so N H) (fun y => Ok (e_sub go so x y))).

(** hs.basis_state_index(es_boson, n) + hs.basis_state_index(es_spin, s);
    l.99-100, l.119-123.  sv_index_type is a 64-bit unsigned type. *)
Definition jc_index (h : hspace I) (eb es : espace I) (n s : N) : option N :=
  match hs_basis_state_index io h eb n, hs_basis_state_index io h es s with
  | Some (Some x), Some (Some y) => Some (w64 (N.add x y))
  | _, _ => None
  end.
End Programs.

(** l.44, l.68-74: detuning, energies and mixing angle, computed with doubles in
    the program; here they are real numbers.  pm is 1 or -1. *)
Local Open Scope R_scope.
Definition jc_energy (hbar w_c w_a Omega pm : R) (n : N) : R :=
  let delta := w_a - w_c in
  hbar * w_c * (IZR (Z.of_N n) - 1 / 2) +
  pm * (1 / 2) * hbar * sqrt (delta * delta + IZR (Z.of_N n) * Omega * Omega).
Definition jc_alpha (w_c w_a Omega : R) (n : N) : R :=
  atan (Omega * sqrt (IZR (Z.of_N n)) / (w_a - w_c)).
