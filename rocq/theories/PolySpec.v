(** Polynomial coefficients: specification.  A program that computes an
    expression with the operations of the library, its value in a ring, and the
    same program with other coefficients. *)
From Coq Require Import List.
From Verif Require Import ExprModel ExprSpec.
Import ListNotations.

Inductive prog (G S : Type) : Type :=
| PConst (x : S)                          (* expr(x) *)
| PMono (x : S) (m : list G)              (* expr(x, monomial) *)
| PAdd (a b : prog G S)                   (* a + b *)
| PSub (a b : prog G S)                   (* a - b *)
| PMul (a b : prog G S)                   (* a * b *)
| PScale (x : S) (a : prog G S)           (* x * a *)
| PAddConst (a : prog G S) (x : S)        (* a + x *)
| PSubConst (a : prog G S) (x : S).       (* a - x *)
Arguments PConst {G S}. Arguments PMono {G S}. Arguments PAdd {G S}. Arguments PSub {G S}.
Arguments PMul {G S}. Arguments PScale {G S}. Arguments PAddConst {G S}. Arguments PSubConst {G S}.

(** running the program *)
Fixpoint run {G S} (go : gen_ops G) (so : scalar_ops S) (P : prog G S) : res (list (list G * S)) :=
  match P with
  | PConst x => Ok (e_const so x)
  | PMono x m => e_mono go so x m
  | PAdd a b => rbind (run go so a) (fun x => rbind (run go so b) (fun y => Ok (e_add go so x y)))
  | PSub a b => rbind (run go so a) (fun x => rbind (run go so b) (fun y => Ok (e_sub go so x y)))
  | PMul a b => rbind (run go so a) (fun x => rbind (run go so b) (fun y => e_mul go so x y))
  | PScale x a => rbind (run go so a) (fun y => Ok (e_mul_const_pre so x y))
  | PAddConst a x => rbind (run go so a) (fun y => Ok (e_add_const go so y x))
  | PSubConst a x => rbind (run go so a) (fun y => Ok (e_sub_const go so y x))
  end.

(** what it means *)
Fixpoint meaning {G S R} (ro : ring_ops R) (inj : S -> R) (rho : G -> R) (P : prog G S) : R :=
  match P with
  | PConst x => inj x
  | PMono x m => rmul ro (inj x) (eval_mono ro rho m)
  | PAdd a b => radd ro (meaning ro inj rho a) (meaning ro inj rho b)
  | PSub a b => radd ro (meaning ro inj rho a) (ropp ro (meaning ro inj rho b))
  | PMul a b => rmul ro (meaning ro inj rho a) (meaning ro inj rho b)
  | PScale x a => rmul ro (inj x) (meaning ro inj rho a)
  | PAddConst a x => radd ro (meaning ro inj rho a) (inj x)
  | PSubConst a x => radd ro (meaning ro inj rho a) (ropp ro (inj x))
  end.

(** the same program with other coefficients *)
Fixpoint pmap {G S T} (f : S -> T) (P : prog G S) : prog G T :=
  match P with
  | PConst x => PConst (f x)
  | PMono x m => PMono (f x) m
  | PAdd a b => PAdd (pmap f a) (pmap f b)
  | PSub a b => PSub (pmap f a) (pmap f b)
  | PMul a b => PMul (pmap f a) (pmap f b)
  | PScale x a => PScale (f x) (pmap f a)
  | PAddConst a x => PAddConst (pmap f a) (f x)
  | PSubConst a x => PSubConst (pmap f a) (f x)
  end.

(** the generators the program uses *)
Fixpoint uses {G S} (P : prog G S) : list G :=
  match P with
  | PConst _ => []
  | PMono _ m => m
  | PAdd a b | PSub a b | PMul a b => uses a ++ uses b
  | PScale _ a | PAddConst a _ | PSubConst a _ => uses a
  end.

(** an expression without the terms whose coefficient is zero *)
Definition drop_zeros {G S} (so : scalar_ops S) (e : list (list G * S)) : list (list G * S) :=
  filter (fun p => negb (s_is_zero so (snd p))) e.

(** sum of a(i) x^i for i = 0..n *)
Fixpoint spow {S} (so : scalar_ops S) (x : S) (n : nat) : S :=
  match n with O => s_one so | Datatypes.S m => s_mul so (spow so x m) x end.
Fixpoint power_sum {S} (so : scalar_ops S) (a : nat -> S) (x : S) (n : nat) : S :=
  match n with
  | O => s_mul so (a O) (spow so x O)
  | Datatypes.S m => s_add so (power_sum so a x m) (s_mul so (a n) (spow so x n))
  end.
