(** Vocabulary for C10, C12, C13: the generators whose normal forms are unique
    (fermions, bosons, spins 1/2), their sites, and equality as operators. *)
From Coq Require Import List Setoid.
From Verif Require Import ExprModel ExprSpec ExprStd.
Import ListNotations.
Open Scope list_scope.

(** A degree of freedom: a fermionic mode, a bosonic mode or a spin. *)
Inductive site (I : Type) : Type := SF (i : I) | SB (i : I) | SH (i : I).
Arguments SF {I} _.
Arguments SB {I} _.
Arguments SH {I} _.
Definition site_of {I} (g : gen I) : site I :=
  match g with GFermion _ i => SF i | GBoson _ i => SB i | GSpin _ _ i => SH i end.

(** fermions, bosons and spins 1/2 (multiplicity 2) *)
Definition simple {I} (g : gen I) : Prop := match g with GSpin m _ _ => m = 2 | _ => True end.

(** simple generators of the sites [B] *)
Definition on_sites {I} (B : list (site I)) (g : gen I) : Prop := In (site_of g) B /\ simple g.

(** [a] and [b] are the same operator: they have equal values in every ring
    that contains the scalars and, for the sites [B], operators satisfying
    the canonical (anti)commutation relations. *)
Definition same_operator {I S} (so : scalar_ops S) (B : list (site I)) (a b : list (list (gen I) * S)) : Prop :=
  forall R (ro : ring_ops R) (inj : S -> R) (rho : gen I -> R),
    is_ring ro -> scalar_image so ro inj rho -> relations_on (on_sites B) so ro inj rho ->
    req ro (eval_expr ro inj rho a) (eval_expr ro inj rho b).

(** the scalars contain 1/2 if there are spins *)
Definition half_if_spins {I S} (so : scalar_ops S) (l : list (gen I)) : Prop :=
  forall m c i, In (GSpin m c i) l -> exists h, s_add so h h = s_one so.
