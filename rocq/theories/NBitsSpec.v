(** Specification: the least number of binary digits; faithful and correct
    rounding of the base 2 logarithm. *)
From Coq Require Import Reals NArith ZArith.
From Flocq Require Import Core.

(** [n] binary digits are enough to number [d] states, and no fewer are *)
Definition least_bits (d n : Z) : Prop :=
  (0 <= n /\ d <= 2 ^ n /\ forall m, 0 <= m -> d <= 2 ^ m -> n <= m)%Z.

(** a real number is a (finite) double: m * 2^e with |m| < 2^53 and e >= -1074 *)
Definition is_double (x : R) : Prop :=
  exists m e : Z, (Z.abs m < 2 ^ 53 /\ -1074 <= e)%Z /\ x = (IZR m * powerRZ 2 e)%R.

Definition log2 (x : R) : R := (ln x / ln 2)%R.

(** An implementation of log2 is faithfully rounded if no double lies strictly
    between its result, a double, and the exact logarithm (which is returned if
    it is a double); this is weaker than correct rounding. *)
Definition faithful_log2 (lg : R -> R) : Prop :=
  forall x : R, is_double x -> (0 < x)%R ->
    is_double (lg x) /\
    forall y : R, is_double y ->
      ((y <= log2 x -> y <= lg x) /\ (log2 x <= y -> lg x <= y))%R.

(** correctly rounded (to nearest): no double is closer to the exact logarithm *)
Definition nearest_log2 (lg : R -> R) : Prop :=
  forall x : R, is_double x -> (0 < x)%R ->
    is_double (lg x) /\
    forall y : R, is_double y -> (Rabs (log2 x - lg x) <= Rabs (log2 x - y))%R.
