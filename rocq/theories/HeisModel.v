(** * Model of the example program examples/heisenberg_chain.cpp (l.35-125):
    the periodic spin-1/2 Heisenberg chain, its total spin and its higher
    charges Q_3, Q_4, Q_5, and the nine printed commutators.  The number of
    spins [N] (l.65: N = 20) and the exchange constant [g] (l.67: g = 2) are
    parameters here. *)
From Coq Require Import ZArith QArith Qcanon List.
From Verif Require Import ExprModel PropHS.
Import ListNotations.
Close Scope Qc_scope.
Close Scope Q_scope.
Open Scope nat_scope.
Open Scope list_scope.

(** expr_t: heisenberg_chain.cpp l.35 (expr_complex<int>; std::complex<double>
    is taken to be exact) *)
Definition expr_t : Type := list (list (gen Z) * cx).
Notation hgo := (std_gen_ops ioZ).
Notation hso := cx_scalar_ops.

(** vector_expr_t: heisenberg_chain.cpp l.39 (std::array<expr_t, 3>) *)
Record vec : Type := mk_vec { v0 : expr_t; v1 : expr_t; v2 : expr_t }.

(** operator+ of vectors: heisenberg_chain.cpp l.42-44 *)
Definition vec_add (a b : vec) : vec :=
  mk_vec (e_add hgo hso (v0 a) (v0 b)) (e_add hgo hso (v1 a) (v1 b)) (e_add hgo hso (v2 a) (v2 b)).

(** dot: heisenberg_chain.cpp l.47-49 *)
Definition dot (a b : vec) : res expr_t :=
  rbind (e_mul hgo hso (v0 a) (v0 b)) (fun x =>
  rbind (e_mul hgo hso (v1 a) (v1 b)) (fun y =>
  rbind (e_mul hgo hso (v2 a) (v2 b)) (fun z =>
  Ok (e_add hgo hso (e_add hgo hso x y) z)))).

(** one component of the vector product *)
Definition minor (a b c d : expr_t) : res expr_t :=
  rbind (e_mul hgo hso a b) (fun x =>
  rbind (e_mul hgo hso c d) (fun y =>
  Ok (e_sub hgo hso x y))).

(** cross: heisenberg_chain.cpp l.52-56 *)
Definition cross (a b : vec) : res vec :=
  rbind (minor (v1 a) (v2 b) (v2 a) (v1 b)) (fun x =>
  rbind (minor (v2 a) (v0 b) (v0 a) (v2 b)) (fun y =>
  rbind (minor (v0 a) (v1 b) (v1 a) (v0 b)) (fun z =>
  Ok (mk_vec x y z)))).

(** {S_x(i), S_y(i), S_z(i)}: heisenberg_chain.cpp l.73 *)
Definition spin_vec (i : Z) : res vec :=
  rbind (factory_Sx ioZ 2 i) (fun x =>
  rbind (factory_Sy ioZ 2 i) (fun y =>
  rbind (factory hgo hso (GSpin 2 Zcomp i)) (fun z =>
  Ok (mk_vec x y z)))).

(** a for loop over a list of indices *)
Fixpoint rloop {A X : Type} (f : A -> X -> res A) (l : list X) (a : A) : res A :=
  match l with
  | [] => Ok a
  | x :: l' => rbind (f a x) (rloop f l')
  end.

(** the list S of spin operators: heisenberg_chain.cpp l.70-73 *)
Definition spins (N : nat) : res (list vec) :=
  rloop (fun l i => rbind (spin_vec (Z.of_nat i)) (fun v => Ok (l ++ [v]))) (seq 0 N) [].

(** S[i]; an access out of range would be undefined behaviour *)
Definition at_ (Sl : list vec) (i : nat) : res vec :=
  match nth_error Sl i with Some v => Ok v | None => Bad end.

(** a multiplication by a real constant from the left *)
Definition scale (x : Qc) (e : expr_t) : expr_t := e_mul_const_pre hso (x, Q2Qc 0) e.

Section Chain.
Context (N : nat) (Sl : list vec).
(** S[(i + d) % N] *)
Definition nb (i d : nat) : res vec := at_ Sl ((i + d) mod N).

(** one turn of the loop for H: heisenberg_chain.cpp l.79 *)
Definition h_step (g : Qc) (H : expr_t) (i : nat) : res expr_t :=
  rbind (at_ Sl i) (fun a => rbind (nb i 1) (fun b =>
  rbind (dot a b) (fun d => Ok (e_add hgo hso H (scale g d))))).

(** one turn of the loop for S_tot: heisenberg_chain.cpp l.85 *)
Definition s_step (St : vec) (i : nat) : res vec :=
  rbind (at_ Sl i) (fun a => Ok (vec_add St a)).

(** one turn of the loop for Q3: heisenberg_chain.cpp l.95 *)
Definition q3_step (Q : expr_t) (i : nat) : res expr_t :=
  rbind (at_ Sl i) (fun a => rbind (nb i 1) (fun b => rbind (nb i 2) (fun c =>
  rbind (cross a b) (fun ab => rbind (dot ab c) (fun d =>
  Ok (e_add hgo hso Q d)))))).

(** one turn of the loop for Q4: heisenberg_chain.cpp l.102-104 *)
Definition q4_step (Q : expr_t) (i : nat) : res expr_t :=
  rbind (at_ Sl i) (fun a => rbind (nb i 1) (fun b => rbind (nb i 2) (fun c => rbind (nb i 3) (fun d =>
  rbind (cross a b) (fun ab => rbind (cross ab c) (fun abc => rbind (dot abc d) (fun x =>
  let Q1 := e_add hgo hso Q (scale (Q2Qc 4) x) in
  rbind (dot a c) (fun y => Ok (e_add hgo hso Q1 y))))))))).

(** one turn of the loop for Q5: heisenberg_chain.cpp l.111-115 *)
Definition q5_step (Q : expr_t) (i : nat) : res expr_t :=
  rbind (at_ Sl i) (fun a => rbind (nb i 1) (fun b => rbind (nb i 2) (fun c => rbind (nb i 3) (fun d =>
  rbind (nb i 4) (fun e =>
  rbind (cross a b) (fun ab => rbind (cross ab c) (fun abc => rbind (cross abc d) (fun abcd =>
  rbind (dot abcd e) (fun x =>
  let Q1 := e_add hgo hso Q (scale (Q2Qc 4) x) in
  rbind (cross a c) (fun ac => rbind (dot ac d) (fun y =>
  let Q2 := e_add hgo hso Q1 y in
  rbind (cross a b) (fun ab' => rbind (dot ab' d) (fun z =>
  Ok (e_add hgo hso Q2 z)))))))))))))).
End Chain.

(** (A * B - B * A): heisenberg_chain.cpp l.88-90, l.97, l.106, l.117, l.120-122 *)
Definition comm (a b : expr_t) : res expr_t := minor a b b a.

(** what main() prints, in the order of the output, named: heisenberg_chain.cpp
    l.58-125 *)
Record printed : Type := mk_printed {
  p_H_Sx : expr_t; p_H_Sy : expr_t; p_H_Sz : expr_t;
  p_H_Q3 : expr_t; p_H_Q4 : expr_t; p_H_Q5 : expr_t;
  p_Q3_Q4 : expr_t; p_Q3_Q5 : expr_t; p_Q4_Q5 : expr_t }.

(** H, S_tot, Q3, Q4 and Q5 as built by main(): heisenberg_chain.cpp l.76-80,
    l.83-85, l.93-96, l.100-105, l.109-116 *)
Definition build_H (N : nat) (g : Qc) (Sl : list vec) : res expr_t := rloop (h_step N Sl g) (seq 0 N) [].
Definition build_S (N : nat) (Sl : list vec) : res vec := rloop (s_step Sl) (seq 0 N) (mk_vec [] [] []).
Definition build_Q3 (N : nat) (Sl : list vec) : res expr_t := rloop (q3_step N Sl) (seq 0 N) [].
Definition build_Q4 (N : nat) (Sl : list vec) : res expr_t := rloop (q4_step N Sl) (seq 0 N) [].
Definition build_Q5 (N : nat) (Sl : list vec) : res expr_t := rloop (q5_step N Sl) (seq 0 N) [].

Definition heisenberg_main (N : nat) (g : Qc) : res printed :=
  rbind (spins N) (fun Sl =>
  rbind (build_H N g Sl) (fun H =>
  rbind (build_S N Sl) (fun St =>
  rbind (comm H (v0 St)) (fun c1 =>
  rbind (comm H (v1 St)) (fun c2 =>
  rbind (comm H (v2 St)) (fun c3 =>
  rbind (build_Q3 N Sl) (fun Q3 =>
  rbind (comm H Q3) (fun c4 =>
  rbind (build_Q4 N Sl) (fun Q4 =>
  rbind (comm H Q4) (fun c5 =>
  rbind (build_Q5 N Sl) (fun Q5 =>
  rbind (comm H Q5) (fun c6 =>
  rbind (comm Q3 Q4) (fun c7 =>
  rbind (comm Q3 Q5) (fun c8 =>
  rbind (comm Q4 Q5) (fun c9 =>
  Ok (mk_printed c1 c2 c3 c4 c5 c6 c7 c8 c9)))))))))))))))).
