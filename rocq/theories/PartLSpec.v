(** Vocabulary of C89 *)
From Coq Require Import NArith ZArith List Relations.
From Verif Require Import ExprModel HSModel HSSpec LOpModel LOpSpec SPModel.
Import ListNotations.
Open Scope N_scope.

(** basis states connected by a chain of non-zero matrix elements of the
    operator of e (LOpSpec.mel), in either direction *)
Definition coupled {I S} (io : index_ops I) (so : scalar_ops S) (sq : N -> S) (half : Z -> S) (l : list (espace I))
  (e : list (list (gen I) * S)) : N -> N -> Prop :=
  clos_refl_sym_trans N (fun x y => valid_state l x /\ mel io so sq half l e y x <> s_zero so).

(** no two monomials cancel: where a monomial leads from x to another state y, the
    matrix element does not vanish *)
Definition no_cancellation {I S} (io : index_ops I) (so : scalar_ops S) (sq : N -> S) (half : Z -> S) (l : list (espace I))
  (e : list (list (gen I) * S)) : Prop :=
  forall x m c k y, valid_state l x -> In (m, c) e -> mono_act io so sq half l m x = Some (k, y) -> y <> x ->
    mel io so sq half l e y x <> s_zero so.

(** the number of the subspace of a basis state *)
Definition subspace_of (sp : space_partition) (x : N) : option nat := label sp (N.to_nat x).

(** one row of a matrix-vector product: sum over i of f(b_i) psi_i *)
Fixpoint row {S} (so : scalar_ops S) (f : N -> S) (b : list N) (psi : list S) : S :=
  match b, psi with
  | x :: b', a :: psi' => s_add so (s_mul so (f x) a) (row so f b' psi')
  | _, _ => s_zero so
  end.
