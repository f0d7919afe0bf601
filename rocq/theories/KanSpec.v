(** * Vocabulary for C91: the Kanamori Hamiltonian of a t_2g shell and its
    integrals of motion in a ring of operators, following Eqs. (2), (4) and (7)
    of the reference given in examples/kanamori.cpp.  [cd m s] and [c m s]
    create and destroy an electron in the orbital [m] with the spin [s]. *)
From Coq Require Import ZArith QArith Qcanon List String.
From Verif Require Import ExprSpec.
Import List ListNotations.
Close Scope Qc_scope.
Close Scope Q_scope.
Open Scope list_scope.

Section Kanamori.
Context {R : Type} (ro : ring_ops R) (cd c : Z -> string -> R).
Notation "x [+] y" := (radd ro x y) (at level 50, left associativity).
Notation "x [-] y" := (radd ro x (ropp ro y)) (at level 50, left associativity).
Notation "x [*] y" := (rmul ro x y) (at level 40, left associativity).

(** finite sums *)
Definition lsum {A} (l : list A) (f : A -> R) : R := fold_right (fun x s => f x [+] s) (r0 ro) l.
Definition orbitals : list Z := [0; 1; 2]%Z.
Definition spins2 : list string := ["up"; "down"]%string.
(** sum over m in the shell; sums over m <> m' and over m < m' *)
Definition sum_m (f : Z -> R) : R := lsum orbitals f.
Definition sum_ne (f : Z -> Z -> R) : R := sum_m (fun m => sum_m (fun m' => if Z.eqb m m' then r0 ro else f m m')).
Definition sum_lt (f : Z -> Z -> R) : R := sum_m (fun m => sum_m (fun m' => if Z.ltb m m' then f m m' else r0 ro)).

Definition num (m : Z) (s : string) : R := cd m s [*] c m s.
Definition u : string := "up"%string.
Definition d : string := "down"%string.

(** Eq. (2), for scalars u0 = U, u2 = U - 2J, u3 = U - 3J, j = J, mj = -J *)
Definition kanamori_value (u0 u2 u3 j mj : R) : R :=
  sum_m (fun m => u0 [*] num m u [*] num m d)
  [+] sum_ne (fun m m' => u2 [*] num m u [*] num m' d)
  [+] sum_lt (fun m m' => u3 [*] num m u [*] num m' u [+] u3 [*] num m d [*] num m' d)
  [+] sum_ne (fun m m' => mj [*] cd m u [*] c m d [*] cd m' d [*] c m' u)
  [+] sum_ne (fun m m' => j [*] cd m u [*] cd m d [*] c m' d [*] c m' u).

(** number of electrons, total spin (h = 1/2, hi = i/2), orbital isospin
    (l_jk = i eps_ijk) *)
Definition number_value : R := sum_m (fun m => num m u [+] num m d).
Definition Sx_value (h : R) : R := sum_m (fun m => h [*] (cd m u [*] c m d [+] cd m d [*] c m u)).
Definition Sy_value (hi : R) : R := sum_m (fun m => hi [*] (cd m d [*] c m u [-] cd m u [*] c m d)).
Definition Sz_value (h : R) : R := sum_m (fun m => h [*] (num m u [-] num m d)).
Definition L_value (l : Z -> Z -> R) : R :=
  lsum spins2 (fun s => sum_m (fun m => sum_m (fun m' => l m m' [*] cd m s [*] c m' s))).
Definition square3 (x y z : R) : R := x [*] x [+] y [*] y [+] z [*] z.

(** Eq. (7), for a = (U - 3J)/2, b = 2J, e = J/2, f = (5/2)J *)
Definition t2g_value (a b e f N S2 L2 : R) : R :=
  a [*] N [*] (N [-] r1 ro) [-] b [*] S2 [-] e [*] L2 [+] f [*] N.
End Kanamori.

(** the totally antisymmetric symbol on {0, 1, 2} *)
Definition levi_civita (i j k : Z) : Q :=
  match i, j, k with
  | 0%Z, 1%Z, 2%Z => 1 | 1%Z, 2%Z, 0%Z => 1 | 2%Z, 0%Z, 1%Z => 1
  | 0%Z, 2%Z, 1%Z => -1 | 2%Z, 1%Z, 0%Z => -1 | 1%Z, 0%Z, 2%Z => -1
  | _, _, _ => 0
  end.
