(** Vocabulary of C67. *)
From Coq Require Import ZArith Ascii String List.
From Verif Require Import ExprModel PrintModel.
Import ListNotations.
Local Open Scope string_scope.

(** string indices that cannot be mistaken for something else: not empty, no
    commas and closing parentheses, not the decimal representation of an integer *)
Definition readable_index (i : dyn_index) : Prop :=
  match i with
  | DInt _ => True
  | DStr s => s <> "" /\ (forall n c, String.get n s = Some c -> c <> ","%char /\ c <> ")"%char) /\
      forall z, s <> int_str z
  end.
Definition readable_gen (g : gen (list dyn_index)) : Prop := forall i, In i (gen_index g) -> readable_index i.
Definition readable_expr (e : list (list (gen (list dyn_index)) * Z)) : Prop :=
  forall m c g, In (m, c) e -> In g m -> readable_gen g.
(** all indices are integers *)
Definition int_indices (e : list (list (gen (list dyn_index)) * Z)) : Prop :=
  forall m c g i, In (m, c) e -> In g m -> In i (gen_index g) -> exists z, i = DInt z.
