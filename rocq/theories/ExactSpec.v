(** Specification for ExactModel.v: integer and rational scalars among the real
    numbers. *)
From Coq Require Import NArith ZArith List Bool QArith Qcanon Qreals Reals.
From Verif Require Import ExprModel LOpModel LOpReal ExactModel.
Close Scope Qc_scope.
Close Scope Q_scope.
Local Open Scope R_scope.

(** the number a double stands for *)
Definition dreal (d : dval) : R :=
  match d with DSqrt n => sqrt (IZR (Z.of_N n)) | DHalf z p => (IZR z / 2) ^ p end.
Definition is_int (x : R) : Prop := exists z, x = IZR z.

(** [phi] embeds a type of exact scalars into the real numbers; [mk] is
    make_const(double) *)
Record exact_scalars {S} (so : scalar_ops S) (mk : dval -> option S) (phi : S -> R) : Prop := {
  ex_0 : phi (s_zero so) = 0;
  ex_1 : phi (s_one so) = 1;
  ex_add : forall x y, phi (s_add so x y) = phi x + phi y;
  ex_mul : forall x y, phi (s_mul so x y) = phi x * phi y;
  ex_neg : forall x, phi (s_neg so x) = - phi x;
  ex_inj : forall x y, phi x = phi y -> x = y;
  (* the constant is exact, or there is an exception *)
  ex_mk : forall d s, mk d = Some s -> phi s = dreal d;
  (* there is no exception for integers, and for nothing else *)
  ex_int : forall d, mk d <> None <-> is_int (dreal d)
}.

(** integral types and mpz_class; mpq_class and boost::rational *)
Definition int_phi (z : Z) : R := IZR z.
Definition rat_mk (d : dval) : option Qc := option_map (fun z => Q2Qc (inject_Z z)) (int_const d).
Definition rat_phi (q : Qc) : R := Q2R q.

(** an expression with its coefficients taken as real numbers *)
Definition real_expr {I S} (phi : S -> R) (e : list (list (gen I) * S)) : list (list (gen I) * R) :=
  map (fun p => (fst p, phi (snd p))) e.

(** generators all of whose matrix elements are integers: fermions, S+ and S- of
    spin 1/2, Sz of integer spins *)
Definition int_gen {I} (g : gen I) : Prop :=
  match g with
  | GFermion _ _ => True
  | GBoson _ _ => False
  | GSpin m Zcomp _ => Nat.odd m = true
  | GSpin m _ _ => m = 2%nat
  end.
