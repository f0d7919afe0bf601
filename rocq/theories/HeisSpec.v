(** * Vocabulary for C87: the charges of the periodic Heisenberg chain in a
    ring of operators, following Eq. (10) of the reference given in
    examples/heisenberg_chain.cpp *)
From Coq Require Import ZArith List.
From Verif Require Import ExprSpec.
Import ListNotations.

Section Charges.
Context {R : Type} (ro : ring_ops R).
Notation "x [+] y" := (radd ro x y) (at level 50, left associativity).
Notation "x [-] y" := (radd ro x (ropp ro y)) (at level 50, left associativity).
Notation "x [*] y" := (rmul ro x y) (at level 40, left associativity).

(** vectors of operators *)
Record rvec : Type := mk_rv { rx : R; ry : R; rz : R }.
Definition rdot (a b : rvec) : R := rx a [*] rx b [+] ry a [*] ry b [+] rz a [*] rz b.
Definition rcross (a b : rvec) : rvec :=
  mk_rv (ry a [*] rz b [-] rz a [*] ry b) (rz a [*] rx b [-] rx a [*] rz b) (rx a [*] ry b [-] ry a [*] rx b).

(** f(0) + f(1) + ... + f(N - 1) *)
Fixpoint rsum (N : nat) (f : nat -> R) : R :=
  match N with O => r0 ro | S k => rsum k f [+] f k end.

(** spins of the sites 0, ..., N - 1 and periodic neighbours *)
Context (N : nat) (s : nat -> rvec).
Definition nn (i d : nat) : rvec := s ((i + d) mod N).
Definition H_value (g : R) : R := rsum N (fun i => g [*] rdot (s i) (nn i 1)).
Definition Q3_value : R := rsum N (fun i => rdot (rcross (s i) (nn i 1)) (nn i 2)).
Definition Q4_value (four : R) : R := rsum N (fun i =>
  four [*] rdot (rcross (rcross (s i) (nn i 1)) (nn i 2)) (nn i 3) [+] rdot (s i) (nn i 2)).
Definition Q5_value (four : R) : R := rsum N (fun i =>
  four [*] rdot (rcross (rcross (rcross (s i) (nn i 1)) (nn i 2)) (nn i 3)) (nn i 4)
  [+] rdot (rcross (s i) (nn i 2)) (nn i 3) [+] rdot (rcross (s i) (nn i 1)) (nn i 3)).
End Charges.
