(** * A user-defined coefficient type: polynomials
    examples/parametric_loperator.cpp: class polynomial (l.34-109),
    scalar_traits<polynomial> (l.115-126) and the Hamiltonian of the program
    (l.130-152).

    Simplifications: the coefficients have any scalar type in place of double
    (exact arithmetic); a polynomial has at least one coefficient, so it is a
    pair of the first one and the list of the others (polynomial{} would have
    none, and its degree() would be SIZE_MAX; the program makes no such object).
    The class has no unary minus, and the traits no conj(): expressions that need
    them do not compile.  The model has the two operations nevertheless: 0 - p,
    and the identity. *)
From Coq Require Import ZArith List Bool.
From Verif Require Import ExprModel.
Import ListNotations.
Open Scope nat_scope.
Open Scope list_scope.

Section Poly.
Context {T : Type} (bo : scalar_ops T).
Notation "0" := (s_zero bo).

Definition poly : Type := (T * list T)%type.
(** coeffs(): l.52 *)
Definition coeffs (p : poly) : list T := fst p :: snd p.
(** polynomial(initializer_list): l.45-46 (of a non-empty list) *)
Definition poly_of (l : list T) : poly := match l with [] => (0, []) | c :: t => (c, t) end.
(** degree(): l.49 *)
Definition degree (p : poly) : nat := length (coeffs p) - 1.

(** operator()(x): l.55-63; the loop with its variables sum and x_n *)
Fixpoint eval_loop (l : list T) (x sum x_n : T) : T :=
  match l with
  | [] => sum
  | c :: t => eval_loop t x (s_add bo sum (s_mul bo c x_n)) (s_mul bo x_n x)
  end.
Definition poly_eval (p : poly) (x : T) : T := eval_loop (coeffs p) x 0 (s_one bo).

(** coefficients[i] *)
Definition at_ (p : poly) (i : nat) : T := nth i (coeffs p) 0.
(** operator+: l.66-74, operator-: l.77-85; every element of the result is assigned once *)
Definition zip_with (op : T -> T -> T) (p q : poly) : poly :=
  poly_of (map (fun i => op (if i <=? degree p then at_ p i else 0) (if i <=? degree q then at_ q i else 0))
               (seq 0 (Nat.max (degree p) (degree q) + 1))).
Definition poly_add : poly -> poly -> poly := zip_with (s_add bo).
Definition poly_sub : poly -> poly -> poly := zip_with (s_sub bo).

(** result.coefficients[k] += x (an index out of range: ignored here, never used) *)
Fixpoint add_at (r : list T) (k : nat) (x : T) : list T :=
  match r, k with
  | [], _ => []
  | a :: t, O => s_add bo a x :: t
  | a :: t, Datatypes.S k' => a :: add_at t k' x
  end.
(** operator*(polynomial): l.88-96 *)
Definition poly_mul (p q : poly) : poly :=
  poly_of (fold_left (fun r i => fold_left (fun r j => add_at r (i + j) (s_mul bo (at_ p i) (at_ q j)))
                                           (seq 0 (degree q + 1)) r)
                     (seq 0 (degree p + 1)) (repeat 0 (degree p + degree q + 1))).
(** operator*(double), l.99-105, and the prefix form, l.108: c *= x *)
Definition poly_scale (x : T) (p : poly) : poly := poly_of (map (fun c => s_mul bo c x) (coeffs p)).

(** scalar_traits<polynomial>::is_zero: l.117-121; make_const: l.123-125 *)
Definition poly_is_zero (p : poly) : bool := forallb (s_is_zero bo) (coeffs p).
Definition poly_const (x : T) : poly := poly_of [x].

Definition poly_ops : scalar_ops poly :=
  mk_scalar_ops poly (poly_const 0) (poly_const (s_one bo)) poly_add poly_sub poly_mul
    (fun p => poly_sub (poly_const 0) p) poly_is_zero (fun v => option_map poly_const (s_make bo v)) (fun p => p).

(** H of the displaced oscillator: l.135-144, for all polynomials w0 and g, and
    any index i of the boson (the program uses none).  [half]: the number 0.5 *)
Context {I : Type} (io : index_ops I).
Notation go := (std_gen_ops io).
Definition oscillator (half : T) (w0 g : poly) (i : I) : res (list (list (gen I) * poly)) :=
  rbind (factory go poly_ops (GBoson true i)) (fun a_dag =>
  rbind (factory go poly_ops (GBoson false i)) (fun a =>
  rbind (e_mul go poly_ops (e_mul_const_pre poly_ops w0 (e_sub_const go poly_ops a_dag g)) (e_sub_const go poly_ops a g)) (fun x =>
  Ok (e_add_const go poly_ops x (poly_scale half w0))))).
(** the coefficients of an expression at a point: what an operator made of it by
    make_param_loperator() uses when it is called with x (C36) *)
Definition expr_at (x : T) (e : list (list (gen I) * poly)) : list (list (gen I) * T) :=
  map (fun p => (fst p, poly_eval (snd p) x)) e.
End Poly.
