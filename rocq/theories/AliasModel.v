(** * Scalar arguments that are references into the expression itself
    Source: /repo/include/libcommute/expression/expression.hpp

    Dereferencing an expression iterator gives references to a monomial and to its
    coefficient (l.943-948, l.989); such a reference can be passed to the compound
    assignments, which take [S const& alpha] (l.377-418).  The argument is the
    position [n] of the referenced coefficient; every use of [alpha] reads the
    current value stored there.  A scalar [x *= x] is x * x. *)
From Coq Require Import List Bool.
From Verif Require Import ExprModel.
Import ListNotations.

Section ALIAS.
  Context {G S : Type} (go : gen_ops G) (so : scalar_ops S).

  (** current value of the referenced coefficient *)
  Definition read_ref (a : list (list G * S)) (n : nat) : option S := option_map snd (nth_error a n).
  (** p.second of the [i]-th map element is assigned *)
  Fixpoint write_coeff (a : list (list G * S)) (i : nat) (x : S) : list (list G * S) :=
    match a, i with
    | [], _ => []
    | p :: a', O => (fst p, x) :: a'
    | p :: a', Datatypes.S i' => p :: write_coeff a' i' x
    end.

  (** l.381-384: for(auto& p : monomials_) mul_assign(p.second, alpha) *)
  Fixpoint mul_alias_loop (cnt i n : nat) (a : list (list G * S)) : option (list (list G * S)) :=
    match cnt with
    | O => Some a
    | Datatypes.S c =>
        match read_ref a i, read_ref a n with
        | Some x, Some alpha => mul_alias_loop c (Datatypes.S i) n (write_coeff a i (s_mul so x alpha))
        | _, _ => None
        end
    end.
  (** l.378-386: operator*=(S const& alpha); [None]: dangling reference *)
  Definition mul_const_alias (a : list (list G * S)) (n : nat) : option (list (list G * S)) :=
    match read_ref a n with
    | None => None
    | Some alpha => if s_is_zero so alpha then Some [] else mul_alias_loop (length a) 0 n a
    end.

  (** l.389-404: operator+=(S const& alpha); alpha is read by is_zero (l.391) and
      by add_assign (l.395 or l.398) *)
  Definition add_const_alias (a : list (list G * S)) (n : nat) : option (list (list G * S)) :=
    match read_ref a n with
    | None => None
    | Some alpha =>
        if s_is_zero so alpha then Some a
        else
          match map_find go [] a with
          | None => match read_ref a n with
                    | None => None
                    | Some alpha' => Some (fst (map_emplace go [] (s_add so (s_zero so) alpha') a))
                    end
          | Some v => match read_ref a n with
                      | None => None
                      | Some alpha' =>
                          let v' := s_add so v alpha' in
                          let a' := map_assign go [] v' a in
                          Some (if s_is_zero so v' then map_erase go [] a' else a')
                      end
          end
    end.
  (** l.407-418: operator-=(S const& alpha) *)
  Definition sub_const_alias (a : list (list G * S)) (n : nat) : option (list (list G * S)) :=
    match read_ref a n with
    | None => None
    | Some alpha =>
        if s_is_zero so alpha then Some a
        else
          match map_find go [] a with
          | None => match read_ref a n with
                    | None => None
                    | Some alpha' => Some (fst (map_emplace go [] (s_sub so (s_zero so) alpha') a))
                    end
          | Some v => match read_ref a n with
                      | None => None
                      | Some alpha' =>
                          let v' := s_sub so v alpha' in
                          let a' := map_assign go [] v' a in
                          Some (if s_is_zero so v' then map_erase go [] a' else a')
                      end
          end
    end.
End ALIAS.
