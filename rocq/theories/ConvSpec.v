(** Conversions between scalar types: specification *)
From Coq Require Import List.
From Verif Require Import ExprModel.
Import ListNotations.

(** The conversion [f] from [T] to [S] loses nothing: it commutes with the
    arithmetic of both types, no nonzero number becomes zero, and every
    structure constant that exists in [T] is converted to the one of [S]
    (int -> rational -> double -> complex). *)
Record exact_conversion {T S : Type} (to : scalar_ops T) (so : scalar_ops S) (f : T -> S) : Prop := {
  xc_zero : f (s_zero to) = s_zero so;
  xc_add : forall x y, f (s_add to x y) = s_add so (f x) (f y);
  xc_sub : forall x y, f (s_sub to x y) = s_sub so (f x) (f y);
  xc_mul : forall x y, f (s_mul to x y) = s_mul so (f x) (f y);
  xc_neg : forall x, f (s_neg to x) = s_neg so (f x);
  xc_conj : forall x, f (s_conj to x) = s_conj so (f x);
  xc_is_zero : forall x, s_is_zero so (f x) = s_is_zero to x;
  xc_make : forall v x, s_make to v = Some x -> s_make so v = Some (f x)
}.

(** Every coefficient of the expression is converted, the monomials are kept. *)
Definition convert_all {G S T : Type} (f : T -> S) (e : list (list G * T)) : list (list G * S) :=
  map (fun p => (fst p, f (snd p))) e.
