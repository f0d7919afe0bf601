(** Floating point scalar types with the zero test of the library, but exact
    arithmetic: scalar_traits.hpp l.80-93 (floating point), l.98-111 (complex).
    Simplified: the values are rationals and every operation is exact; only
    is_zero is approximate.  [tol] is LIBCOMMUTE_FLOATING_POINT_TOL_EPS *
    epsilon() (100 * 2^-52 for double). *)
From Coq Require Import ZArith Bool QArith Qcanon Qcabs List.
From Verif Require Import ExprModel.
Import ListNotations.
Close Scope Qc_scope.
Close Scope Q_scope.
Open Scope nat_scope.

(** std::abs(x) < tol *)
Definition qc_ltb (x y : Qc) : bool := negb (Qle_bool (this y) (this x)).
Definition qc_abs_ltb (x tol : Qc) : bool := qc_ltb (Qcabs x) tol.

(** scalar_traits<floating point>: scalar_traits.hpp l.80-93 *)
Definition tol_scalar_ops (tol : Qc) : scalar_ops Qc :=
  mk_scalar_ops _ (Q2Qc 0) (Q2Qc 1) Qcplus Qcminus Qcmult Qcopp (fun x => qc_abs_ltb x tol)
    qc_of_vn (fun x => x).

(** scalar_traits<std::complex>: scalar_traits.hpp l.98-111 *)
Definition tol_cx_scalar_ops (tol : Qc) : scalar_ops cx :=
  mk_scalar_ops _ (s_zero cx_scalar_ops) (s_one cx_scalar_ops) (s_add cx_scalar_ops)
    (s_sub cx_scalar_ops) (s_mul cx_scalar_ops) (s_neg cx_scalar_ops)
    (fun x => qc_abs_ltb (fst x) tol && qc_abs_ltb (snd x) tol)
    (s_make cx_scalar_ops) (s_conj cx_scalar_ops).

(** 100 * std::numeric_limits<double>::epsilon() *)
Definition double_tol : Qc := Q2Qc (100 # 4503599627370496).
