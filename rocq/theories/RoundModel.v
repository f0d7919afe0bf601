(** * Floating point scalars
    Sources: /repo/include/libcommute/scalar_traits.hpp l.77-114 (zero test,
    make_const), and the constants created in
    /repo/include/libcommute/loperator/monomial_action_{boson,spin}.hpp.

    LOpModel.v is a model for any operations on scalars; here these are the
    operations of double and of std::complex<double>.  A double is a real number;
    every operation rounds its exact result to 53 binary digits, to the nearest,
    ties to even.  Simplification: the exponent range is unbounded (no overflow
    and no underflow, hence no infinities and NaNs). *)
From Coq Require Import Reals Qreals NArith ZArith Bool.
From Flocq Require Import Core.
From Verif Require Import ExprModel LOpModel.
Local Open Scope R_scope.

Definition dbl_rnd (x : R) : R := round radix2 (FLX_exp 53) ZnearestE x.

(** LIBCOMMUTE_FLOATING_POINT_TOL_EPS * std::numeric_limits<double>::epsilon():
    scalar_traits.hpp l.28-32 and l.83-84; the product is exact *)
Definition dbl_tol : R := 100 * / 2 ^ 52.

(** double(vn): utility.hpp l.229-236; a rational is converted by a division
    of two doubles *)
Definition dbl_make (v : var_number) : option R :=
  match v with
  | VInt z => Some (dbl_rnd (IZR z))
  | VRat p q => if Z.eqb q 0 then None else Some (dbl_rnd (dbl_rnd (IZR p) / dbl_rnd (IZR q)))
  | VReal x => Some (dbl_rnd (Q2R x))
  end.

(** double: scalar_traits.hpp l.80-94 *)
Definition dbl_ops : scalar_ops R := mk_scalar_ops R 0 1
  (fun x y => dbl_rnd (x + y)) (fun x y => dbl_rnd (x - y)) (fun x y => dbl_rnd (x * y)) Ropp
  (fun x => if Rlt_dec (Rabs x) dbl_tol then true else false)
  dbl_make (fun x => x).

(** std::complex<double>: scalar_traits.hpp l.99-113.  The product of
    (a, b) and (c, d) is (a c - b d, a d + b c), each operation rounded. *)
Definition cdbl_ops : scalar_ops (R * R) := mk_scalar_ops (R * R) (0, 0) (1, 0)
  (fun x y => (dbl_rnd (fst x + fst y), dbl_rnd (snd x + snd y)))
  (fun x y => (dbl_rnd (fst x - fst y), dbl_rnd (snd x - snd y)))
  (fun x y => (dbl_rnd (dbl_rnd (fst x * fst y) - dbl_rnd (snd x * snd y)),
               dbl_rnd (dbl_rnd (fst x * snd y) + dbl_rnd (snd x * fst y))))
  (fun x => (- fst x, - snd x))
  (fun x => s_is_zero dbl_ops (fst x) && s_is_zero dbl_ops (snd x))
  (fun v => option_map (fun r => (r, 0)) (dbl_make v))
  (fun x => (fst x, - snd x)).

(** std::sqrt(double(n)), n a 64 bit unsigned integer: monomial_action_boson.hpp
    l.66-71 and l.130, monomial_action_spin.hpp l.67-72 and l.122; make_const:
    scalar_traits.hpp l.87 and l.106 *)
Definition dbl_sq (n : N) : R := dbl_rnd (sqrt (dbl_rnd (IZR (Z.of_N n)))).
Definition cdbl_sq (n : N) : R * R := (dbl_sq n, 0).
(** double(n) - double(s2) / 2 = (2 n - s2) / 2: monomial_action_spin.hpp l.154.
    (n and s2 are below 2^31: the difference is exact, one rounding is allowed
    here.)  std::pow is modelled by repeated multiplication (LOpModel.spow). *)
Definition dbl_half (z : Z) : R := dbl_rnd (IZR z / 2).
Definition cdbl_half (z : Z) : R * R := (dbl_half z, 0).
