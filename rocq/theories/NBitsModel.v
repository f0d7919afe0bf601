(** * The number of bits of an elementary space, in double precision
    Sources: /repo/include/libcommute/loperator/elementary_space_boson.hpp l.38-44,
    elementary_space_spin.hpp l.38-45, elementary_space_fermion.hpp l.60:
    n_bits_(std::ceil(std::log2(dim))).  HSModel.v takes the logarithm to be
    exact; here the computation is done in IEEE binary64. *)
From Coq Require Import Reals NArith ZArith.
From Flocq Require Import Core.
From Verif Require Import HSModel.

(** the type double: radix 2, 53 digits, smallest exponent -1074 *)
Definition dbl_exp : Z -> Z := FLT_exp (-1074) 53.
(** conversion of an integer to double (elementary_space_boson.hpp l.42, the
    argument of std::log2 is of the type sv_index_type; _spin.hpp l.42: int):
    rounded to the nearest, ties to even.  (There is no overflow: integers are
    below 2^64.) *)
Definition to_double (z : Z) : R := round radix2 dbl_exp ZnearestE (IZR z).

Section LG.
(** std::log2, as a function of the (exact) value of its argument *)
Context (lg : R -> R).

(** std::ceil(std::log2(x)) converted to int: elementary_space_boson.hpp l.42,
    elementary_space_spin.hpp l.42 *)
Definition bits_of (x : Z) : Z := Zceil (lg (to_double x)).

(** n_bits(): elementary_space_fermion.hpp l.60, _boson.hpp l.42 and l.66,
    _spin.hpp l.42 and l.67 *)
Definition es_nbits_code {I : Type} (e : espace I) : Z :=
  match e with
  | ESFermion _ => 1%Z
  | ESBoson d _ => bits_of (Z.of_N d)
  | ESSpin m _ => bits_of (Z.of_nat m)
  end.
End LG.
