(** Vocabulary of C88: sums and products of expressions whose coefficients are
    floating point numbers. *)
From Coq Require Import Reals ZArith List.
From Verif Require Import ExprModel.
Import ListNotations.
Local Open Scope R_scope.

(** The operations [fo] of a floating point type approximate the exact ones,
    [so]: one operation makes a relative error of at most [u] (the unit
    roundoff), and the test for zero accepts only numbers up to [tol]. *)
Record float_ops {S} (so fo : scalar_ops S) (nrm : S -> R) (u tol : R) : Prop := {
  fl_u : 0 <= u;
  fl_t : 0 <= tol;
  fl_0 : s_zero fo = s_zero so;
  fl_add : forall x y, nrm (s_sub so (s_add fo x y) (s_add so x y)) <= u * nrm (s_add so x y);
  fl_sub : forall x y, nrm (s_sub so (s_sub fo x y) (s_sub so x y)) <= u * nrm (s_sub so x y);
  fl_mul : forall x y, nrm (s_sub so (s_mul fo x y) (s_mul so x y)) <= u * nrm (s_mul so x y);
  fl_zero : s_is_zero fo (s_zero so) = true;
  fl_tol : forall x, s_is_zero fo x = true -> nrm x <= tol;
  fl_sep : forall x, nrm x <= 0 -> x = s_zero so
}.

(** the structure constants of the algebra are floating point numbers *)
Definition const_same {G S} (so fo : scalar_ops S) (f : linfun G) : Prop :=
  s_make fo (const_term f) = s_make so (const_term f) /\
  forall g v, In (g, v) (terms f) -> s_make fo v = s_make so v.
Record constants_exact {G S} (go : gen_ops G) (so fo : scalar_ops S) : Prop := {
  ce_swap : forall a b c f, g_swap go a b = (c, f) -> s_make fo c = s_make so c /\ const_same so fo f;
  ce_simplify : forall a b f, g_simplify go a b = Some f -> const_same so fo f
}.

(** Magnitudes: the same computation with the absolute values of all
    coefficients and structure constants, in which nothing cancels. *)
Definition magnitude_ops {S} (so : scalar_ops S) (nrm : S -> R) : scalar_ops R :=
  mk_scalar_ops R 0 1 Rplus Rplus Rmult (fun x => x)
    (fun x => if Req_EM_T x 0 then true else false) (fun v => option_map nrm (s_make so v)) (fun x => x).
Definition magnitudes {G S} (nrm : S -> R) (e : list (list G * S)) : list (list G * R) :=
  map (fun p => (fst p, nrm (snd p))) e.

(** how many roundings and tests can affect a coefficient of the normal form of
    a monomial with n generators: each of at most n^2 exchanges multiplies the
    coefficient and leaves at most two shorter monomials behind *)
Fixpoint steps (n : nat) : nat :=
  match n with 0%nat => 1%nat | Datatypes.S k => (1 + (n * n) * (2 * (steps k + 1) + 1))%nat end.
Fixpoint steps_row {G S} (m : list G) (b : list (list G * S)) : nat :=
  match b with [] => 0%nat | (m2, _) :: b' => (steps (length m + length m2) + 1 + steps_row m b')%nat end.
Fixpoint steps_all {G S} (a b : list (list G * S)) : nat :=
  match a with [] => 0%nat | (m1, _) :: a' => (steps_row m1 b + steps_all a' b)%nat end.

(** the error after n roundings and tests of a coefficient of magnitude M *)
Definition coef_error (u tol : R) (n : nat) (M : R) : R := ((1 + u) ^ n - 1) * M + tol * INR n * (1 + u) ^ n.

(** the structure constants are not large: a factor of an exchange is at most
    one, the absolute values of the terms left behind add up to at most two
    (true of the built-in algebras) *)
Definition weight {G S} (so : scalar_ops S) (nrm : S -> R) (f : linfun G) : R :=
  fold_right (fun v w => match s_make so v with Some x => nrm x | None => 0 end + w) 0 (const_term f :: map snd (terms f)).
Record small_constants {G S} (go : gen_ops G) (so : scalar_ops S) (nrm : S -> R) : Prop := {
  sm_factor : forall a b c f x, g_swap go a b = (c, f) -> s_make so c = Some x -> nrm x <= 1;
  sm_swap : forall a b c f, g_swap go a b = (c, f) -> weight so nrm f <= 2;
  sm_simplify : forall a b f, g_simplify go a b = Some f -> weight so nrm f <= 2
}.
(** the sum over pairs of terms c1 m1 of a and c2 m2 of b of |c1| |c2| times the
    number of monomials in the normal form of m1 m2 (counted with weights) *)
Fixpoint size_row {G S} (drops : nat -> nat) (nrm : S -> R) (m : list G) (c : S) (b : list (list G * S)) : R :=
  match b with [] => 0 | (m2, c2) :: b' => nrm c * nrm c2 * INR (drops (length m + length m2)%nat) + size_row drops nrm m c b' end.
Fixpoint size_all {G S} (drops : nat -> nat) (nrm : S -> R) (a b : list (list G * S)) : R :=
  match a with [] => 0 | (m1, c1) :: a' => size_row drops nrm m1 c1 b + size_all drops nrm a' b end.
