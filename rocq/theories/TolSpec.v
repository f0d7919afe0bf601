(** Vocabulary of C60. *)
From Coq Require Import ZArith Bool QArith Qcanon Qcabs List Sorted.
From Verif Require Import ExprModel TolModel.
Import ListNotations.
Close Scope Qc_scope.
Close Scope Q_scope.
Open Scope nat_scope.
Open Scope list_scope.

Section Sums.
Context {S : Type} (so : scalar_ops S).
(** the two coefficients of a monomial, if present, are added; a sum that the
    zero test accepts is removed *)
Definition merged (op : S -> S -> S) (neg : S -> S) (x y : option S) : option S :=
  match x, y with
  | Some v, Some w => if s_is_zero so (op v w) then None else Some (op v w)
  | Some v, None => Some v
  | None, Some w => Some (neg w)
  | None, None => None
  end.
End Sums.

(** the number of generators in the monomials of a product, and how many times
    normalizing a monomial with n generators can drop or round off a
    coefficient at most: each of at most n^2 exchanges leaves at most two
    shorter monomials behind *)
Fixpoint drops (n : nat) : nat :=
  match n with 0 => 1 | Datatypes.S k => 1 + (n * n) * (2 * drops k) end.
Fixpoint drops_row {G S} (m : list G) (b : list (list G * S)) : nat :=
  match b with [] => 0 | (m2, _) :: b' => drops (length m + length m2) + drops_row m b' end.
Fixpoint drops_all {G S} (a b : list (list G * S)) : nat :=
  match a with [] => 0 | (m1, _) :: a' => drops_row m1 b + drops_all a' b end.

(** swap_with and simplify_prod leave at most one linear term behind, and
    reduce_power only ever says that a power is zero (true of the built-in
    algebras) *)
Record few_terms {G} (go : gen_ops G) : Prop := {
  ft_swap : forall a b c f, g_swap go a b = (c, f) -> length (terms f) <= 1;
  ft_simplify : forall a b f, g_simplify go a b = Some f -> length (terms f) <= 1;
  ft_reduce : forall g p f, g_reduce go g p = Some f -> lf_vanishing f = true
}.

(** the same scalar type with another zero test *)
Definition with_zero_test {S} (so : scalar_ops S) (z : S -> bool) : scalar_ops S :=
  mk_scalar_ops _ (s_zero so) (s_one so) (s_add so) (s_sub so) (s_mul so) (s_neg so) z (s_make so) (s_conj so).

(** what an expression stores for a monomial *)
Definition entry {G S} (e : list (list G * S)) (m : list G) (o : option S) : Prop :=
  match o with Some v => In (m, v) e | None => forall v, ~ In (m, v) e end.
(** monomials in strictly increasing order (the invariant of std::map) *)
Definition keys_sorted {G S} (go : gen_ops G) (e : list (list G * S)) : Prop :=
  StronglySorted (fun m n => mono_lt go m n = true) (map fst e).
(** integer coefficients read as floating point numbers *)
Definition embed {G S} (phi : Z -> S) (e : list (list G * Z)) : list (list G * S) :=
  map (fun p => (fst p, phi (snd p))) e.
