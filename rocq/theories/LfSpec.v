(** * Specification for C90: what set() should do, the number a var_number stands for, the value of a
    linear function. *)
From Coq Require Import List ZArith QArith.
From Verif Require Import ExprModel LfModel.
Import ListNotations.
Open Scope nat_scope.
Open Scope list_scope.

(** the number a var_number stands for; None for a rational number with denominator 0 *)
Definition number_of (v : var_number) : option Q :=
  match v with
  | VInt i => Some (inject_Z i)
  | VRat p q => if Z.eqb q 0 then None else Some (inject_Z p / inject_Z q)%Q
  | VReal x => Some x
  end.
Definition same_kind (v w : var_number) : Prop :=
  match v, w with VInt _, VInt _ | VRat _ _, VRat _ _ | VReal _, VReal _ => True | _, _ => False end.

Section SPEC.
Context {G : Type}.
(** the arguments of a call *)
Definition call_const (o : @lfop G) : narg := match o with SetArgs c _ | SetVec c _ | SetConst c => c end.
Definition call_terms (o : @lfop G) : list (garg G * narg) :=
  match o with SetArgs _ a | SetVec _ a => a | SetConst _ => [] end.
(** set(c, terms): the object consists of the values the arguments have when the call is made *)
Definition set_means (f : linfun G) (o : @lfop G) (f' : linfun G) : Prop :=
  read_n f (call_const o) = Some (const_term f') /\
  Forall2 (fun a t => read_g f (fst a) = Some (fst t) /\ read_n f (snd a) = Some (snd t)) (call_terms o) (terms f').

(** an argument that refers to an element of the object's own terms; to the object's constant *)
Definition refers_to_terms (a : garg G * narg) : Prop :=
  (exists k, fst a = GOwn k) \/ (exists k, snd a = NCoef k).
Definition refers_to_const (a : garg G * narg) : Prop := snd a = NConst.
(** all references of a call denote members that exist when the call is made *)
Definition references_exist (f : linfun G) (o : @lfop G) : Prop :=
  (forall k, call_const o = NCoef k -> k < length (terms f)) /\
  forall a, In a (call_terms o) ->
    (forall k, fst a = GOwn k -> k < length (terms f)) /\ (forall k, snd a = NCoef k -> k < length (terms f)).
Definition is_variadic (o : @lfop G) : Prop := match o with SetArgs _ _ => True | _ => False end.

(** const_term + sum of coefficient * basis object, the objects standing for the numbers [rho];
    None if a denominator is 0 *)
Fixpoint sum_of (rho : G -> Q) (c : option Q) (ts : list (G * var_number)) : option Q :=
  match ts with
  | [] => c
  | (g, v) :: t =>
      match number_of v, sum_of rho c t with
      | Some x, Some y => Some (x * rho g + y)%Q
      | _, _ => None
      end
  end.
Definition value_is (rho : G -> Q) (f : linfun G) (y : Q) : Prop :=
  exists x, sum_of rho (number_of (const_term f)) (terms f) = Some x /\ (x == y)%Q.
Definition denominators_nonzero (f : linfun G) : Prop :=
  number_of (const_term f) <> None /\ forall t, In t (terms f) -> number_of (snd t) <> None.
End SPEC.
