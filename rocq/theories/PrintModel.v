(** Model of stream output: operator<<, to_string().  std::to_string(int) and
    ostream << int write the decimal representation (no locale grouping). *)
From Coq Require Import ZArith Bool Ascii String List DecimalString.
From Verif Require Import ExprModel.
Import ListNotations.
Open Scope nat_scope.
Open Scope string_scope.
Open Scope list_scope.

(** std::to_string(int) *)
Definition int_str (z : Z) : string := NilZero.string_of_int (Z.to_int z).

(** detail::to_string_impl: utility.hpp l.125-132 *)
Definition index_str (i : dyn_index) : string :=
  match i with DInt z => int_str z | DStr s => s end.

(** to_string(dyn_indices_generic): dyn_indices.hpp l.109-118; tuple_to_string
    (utility.hpp l.134-158) does the same for a static tuple of integers and
    strings, and tuple_to_string(std::tuple<dyn_indices>) calls it *)
Fixpoint indices_str (l : list dyn_index) : string :=
  match l with
  | [] => ""
  | x :: l' => index_str x ++ match l' with [] => "" | _ => "," ++ indices_str l' end
  end%string.

(** generator_fermion::to_string: generator_fermion.hpp l.85-90;
    generator_boson::to_string: generator_boson.hpp l.74-79;
    generator_spin::to_string: generator_spin.hpp l.147-165.  [m - 1] is computed
    with C++ ints (Z); for odd m the division by 2 is exact. *)
Definition mult_str (m : nat) : string :=
  if Nat.eqb m 2 then ""
  else if Nat.even m then int_str (Z.of_nat m - 1) ++ "/2"
  else int_str (Z.quot (Z.of_nat m - 1) 2).
Definition comp_str (c : spin_component) : string :=
  match c with Plus => "+" | Minus => "-" | Zcomp => "z" end.
Definition gen_str (g : gen (list dyn_index)) : string :=
  match g with
  | GFermion d i => "C" ++ (if d then "+" else "") ++ "(" ++ indices_str i ++ ")"
  | GBoson d i => "A" ++ (if d then "+" else "") ++ "(" ++ indices_str i ++ ")"
  | GSpin m c i => "S" ++ mult_str m ++ comp_str c ++ "(" ++ indices_str i ++ ")"
  end%string.

Section Print.
Context {G : Type} (go : gen_ops G) (gstr : G -> string).
(** operator<<(ostream, monomial): monomial.hpp l.186-199.  [it], [next] are the
    positions of the iterators it, next_it; the result is what has been written
    and the final position of next_it.  [k] counts the remaining iterations. *)
Fixpoint mono_loop (m : list G) (k it next power : nat) (os : string) : string * nat :=
  match k with
  | O => (os, next)
  | S k' =>
      match nth_error m it with
      | None => (os, next) (* it == end_it *)
      | Some g =>
          if match nth_error m next with None => true (* next_it == end_it *) | Some h => negb (g_eq go h g) end
          then mono_loop m k' (it + 1) (next + 1) 1
                 (os ++ (if Nat.ltb 1 power then "[" else "") ++ gstr g ++
                  (if Nat.ltb 1 power then "]^" ++ int_str (Z.of_nat power) else ""))
          else mono_loop m k' (it + 1) (next + 1) (power + 1) os
      end
  end%string.
Definition mono_print (m : list G) : string * nat := mono_loop m (length m) 0 1 1 "".
Definition mono_str (m : list G) : string := fst (mono_print m).

(** operator<<(ostream, expression): expression.hpp l.424-436, with integer
    coefficients *)
Fixpoint terms_str (e : list (list G * Z)) (print_plus : bool) : string :=
  match e with
  | [] => ""
  | (m, c) :: e' =>
      (if print_plus then " + " else "") ++ int_str c ++ (match m with [] => "" | _ => "*" end) ++ mono_str m ++
      terms_str e' true
  end%string.
Definition expr_str (e : list (list G * Z)) : string :=
  match e with [] => int_str 0 | _ => terms_str e false end.
End Print.
