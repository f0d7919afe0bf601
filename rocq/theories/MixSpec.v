(** Vocabulary of C66: several algebras in one expression. *)
From Coq Require Import ZArith List.
From Verif Require Import ExprModel AssocSpec.
Import ListNotations.

(** an expression as an expression over a larger set of generators: every
    generator g becomes h(g) *)
Definition lift_expr {A B S} (h : A -> B) (e : list (list A * S)) : list (list B * S) :=
  map (fun p => (map h (fst p), snd p)) e.
(** a*b == b*a *)
Definition commute {G S} (go : gen_ops G) (so : scalar_ops S) (a b : list (list G * S)) : Prop :=
  exists r, e_mul go so a b = Ok r /\ e_mul go so b a = Ok r.
(** products of three generators associate *)
Definition generators_associate {G S} (go : gen_ops G) (so : scalar_ops S) : Prop :=
  forall x y z, associates go so (generator_expr so x) (generator_expr so y) (generator_expr so z).
(** conj() reverses the products of generators that are rewritten, and undoes
    itself on generators *)
Definition generators_conjugate {G S} (go : gen_ops G) (so : scalar_ops S) : Prop :=
  (forall x y, rewritten go x y -> conj_reverses go so (generator_expr so x) (generator_expr so y)) /\
  (forall x, conj_involutive go so (generator_expr so x)).
