(** Specification vocabulary for basis mappers: vectors as functions from basis
    states to amplitudes, and products of operators applied to a vector. *)
From Coq Require Import NArith ZArith List Bool Arith.
From Verif Require Import ExprModel HSModel HSSpec LOpSpec.
Import ListNotations.
Open Scope N_scope.
Open Scope list_scope.

Section Spec.
Context {I S : Type} (io : index_ops I) (so : scalar_ops S) (sq : N -> S) (half : Z -> S).
Context (l : list (espace I)) (bas : list N). (* elementary spaces, basis states *)

(** the vacuum |0> *)
Definition vacuum : N -> S := fun x => if x =? 0 then s_one so else s_zero so.
(** e|f> *)
Definition op_vec (e : list (list (gen I) * S)) (f : N -> S) : N -> S :=
  fun y => ssum so (fun x => s_mul so (mel io so sq half l e y x) (f x)) bas.
(** e^n |f> *)
Definition op_pow (e : list (list (gen I) * S)) (n : nat) (f : N -> S) : N -> S := Nat.iter n (op_vec e) f.

(** O_M^{n_M} ... O_2^{n_2} O_1^{n_1} |f> : the first operator of the list acts
    first *)
Fixpoint first_acts_first (es : list (list (list (gen I) * S))) (ns : list nat) (f : N -> S) : N -> S :=
  match es, ns with
  | e :: es', n :: ns' => first_acts_first es' ns' (op_pow e n f)
  | _, _ => f
  end.
(** O_1^{n_1} O_2^{n_2} ... O_M^{n_M} |f> : the last operator acts first *)
Fixpoint last_acts_first (es : list (list (list (gen I) * S))) (ns : list nat) (f : N -> S) : N -> S :=
  match es, ns with
  | e :: es', n :: ns' => op_pow e n (last_acts_first es' ns' f)
  | _, _ => f
  end.

(** the compositions of k into M parts *)
Definition composition_of (M k : nat) (ns : list nat) : Prop := length ns = M /\ list_sum ns = k.
End Spec.
