(** Specification vocabulary for C72: the expressions that a finite product of
    elementary spaces represents faithfully. *)
From Coq Require Import NArith ZArith List Bool.
From Verif Require Import ExprModel ExprSpec HSModel HSSpec LOpModel LOpSpec.
Import ListNotations.
Open Scope N_scope.
Open Scope list_scope.

Section Spec.
Context {I S : Type} (io : index_ops I).

(** number of factors a+_i (dag = true) or a_i (dag = false) in a monomial *)
Definition boson_power (dag : bool) (i : I) (m : list (gen I)) : nat :=
  length (filter (fun g => match g with GBoson d j => Bool.eqb d dag && i_eq io j i | _ => false end) m).
(** the powers of a+_i and of a_i are smaller than the dimension of the space of
    every boson i *)
Definition below_truncation (l : list (espace I)) (m : list (gen I)) : Prop :=
  forall d i, In (ESBoson d i) l -> forall dag, N.of_nat (boson_power dag i m) < d.
(** the spin operators are spin-1/2 operators *)
Definition spin_half (g : gen I) : Prop := match g with GSpin mult _ _ => mult = 2%nat | _ => True end.
(** e is in the stored form, the elementary spaces of its generators are in l,
    and the two conditions above hold for all of its monomials *)
Definition faithful_expr (so : scalar_ops S) (l : list (espace I)) (e : list (list (gen I) * S)) : Prop :=
  canonical_expr io so e /\ forall m c, In (m, c) e -> Forall (known io l) m /\ Forall spin_half m /\ below_truncation l m.
End Spec.
