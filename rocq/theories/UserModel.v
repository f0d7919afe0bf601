(** Models of the user-defined algebras that libcommute ships as examples.
    The classes derive from generator<int>: they inherit ==, <, > (index
    comparison, generator.hpp l.58-75 and l.142-151) and reduce_power()
    (generator.hpp l.116-119: never reduces). *)
From Coq Require Import ZArith QArith Bool List.
From Verif Require Import ExprModel.
Import ListNotations.
Close Scope Q_scope.
Open Scope Z_scope.

(** The base class: generator.hpp l.116-119 (reduce_power), l.142-151 *)
Definition base_reduce {G} (g : G) (power : nat) : option (linfun G) := None.

(** ** generator_gamma: examples/gamma.hpp l.38-120; test/gamma.hpp l.32-77 is
    the same class.  The generator is its index. *)
(** swap_with: examples/gamma.hpp l.63-77 *)
Definition gamma_swap (g1 g2 : Z) : var_number * linfun Z :=
  let diag := Z.eqb g1 g2 in
  let eta := if diag then (if Z.eqb g1 0 then 1 else -1) else 0 in
  (VInt (-1), mk_linfun (VInt (2 * eta)) []).
(** simplify_prod: examples/gamma.hpp l.85-94 *)
Definition gamma_simplify (g1 g2 : Z) : option (linfun Z) :=
  if Z.eqb g1 g2 then Some (mk_linfun (VInt (if Z.eqb g1 0 then 1 else -1)) []) else None.
(** conj: examples/gamma.hpp l.98-113 *)
Definition gamma_conj (g : Z) : linfun Z :=
  if Z.eqb g 0 then mk_linfun (VInt 0) [(g, VInt 1)] else mk_linfun (VInt 0) [(g, VInt (-1))].
Definition gamma_ops : gen_ops Z :=
  mk_gen_ops Z Z.eqb Z.ltb (fun a b => Z.ltb b a) gamma_swap gamma_simplify base_reduce gamma_conj.

(** ** generator_virasoro: examples/virasoro_algebra.cpp l.38-123.  The
    generator is its index n; int overflow is not modelled. *)
Definition central_charge : Z := 2. (* l.44 *)
(** swap_with: examples/virasoro_algebra.cpp l.72-90; the constant term is a
    double (the conditional operator converts 0 to 0.0) *)
Definition virasoro_swap (m n : Z) : var_number * linfun Z :=
  (VInt 1,
   mk_linfun (VReal (inject_Z (if Z.eqb m (- n) then central_charge * (m * m * m - m) else 0)))
             [(m + n, VInt (m - n))]).
(** simplify_prod: examples/virasoro_algebra.cpp l.100-110 *)
Definition virasoro_simplify (m n : Z) : option (linfun Z) :=
  if Z.eqb m n then Some (mk_linfun (VInt 0) []) else None.
(** conj: examples/virasoro_algebra.cpp l.113-116 *)
Definition virasoro_conj (n : Z) : linfun Z := mk_linfun (VInt 0) [(- n, VInt 1)].
Definition virasoro_ops : gen_ops Z :=
  mk_gen_ops Z Z.eqb Z.ltb (fun a b => Z.ltb b a) virasoro_swap virasoro_simplify base_reduce virasoro_conj.

(** Not in the code: the same class without its simplify_prod(), i.e. with the
    one inherited from generator (generator.hpp l.104-107: no simplification) *)
Definition virasoro_lie_ops : gen_ops Z :=
  mk_gen_ops Z Z.eqb Z.ltb (fun a b => Z.ltb b a) virasoro_swap (fun _ _ => None) base_reduce virasoro_conj.

(** ** Generators of two kinds in one expression.
    The shared pointers in a monomial may point to generators of different
    classes.  [inl]/[inr] tell the classes apart, [id1]/[id2] are their
    algebra_id()s (functions, because either side may again be such a mixture).
    Both classes share the index types.  If the IDs of two generators of
    different classes coincide, the code goes on to call a member function with
    an argument of the other class; this case is not modelled (all theorems
    assume that the IDs differ). *)
Section Mix.
Context {G1 G2 : Type} (id1 : G1 -> Z) (id2 : G2 -> Z) (o1 : gen_ops G1) (o2 : gen_ops G2).
(** algebra_id(): generator.hpp l.55 *)
Definition mix_id (x : G1 + G2) : Z := match x with inl a => id1 a | inr b => id2 b end.
(** operator==: generator.hpp l.58-60 *)
Definition mix_eq (x y : G1 + G2) : bool :=
  match x, y with
  | inl a, inl b => g_eq o1 a b
  | inr a, inr b => g_eq o2 a b
  | _, _ => false
  end.
(** operator<: generator.hpp l.64-69 *)
Definition mix_lt (x y : G1 + G2) : bool :=
  match x, y with
  | inl a, inl b => g_lt o1 a b
  | inr a, inr b => g_lt o2 a b
  | _, _ => Z.ltb (mix_id x) (mix_id y)
  end.
(** operator>: generator.hpp l.70-75 *)
Definition mix_gt (x y : G1 + G2) : bool :=
  match x, y with
  | inl a, inl b => g_gt o1 a b
  | inr a, inr b => g_gt o2 a b
  | _, _ => Z.ltb (mix_id y) (mix_id x)
  end.
(** the generators of a linear function as generators of the mixture *)
Definition lf_map {A B} (h : A -> B) (f : linfun A) : linfun B :=
  mk_linfun (const_term f) (map (fun p => (h (fst p), snd p)) (terms f)).
(** swap_with (free function): generator.hpp l.156-168 *)
Definition mix_swap (x y : G1 + G2) : var_number * linfun (G1 + G2) :=
  match x, y with
  | inl a, inl b => let (c, f) := g_swap o1 a b in (c, lf_map inl f)
  | inr a, inr b => let (c, f) := g_swap o2 a b in (c, lf_map inr f)
  | _, _ => (VInt 1, mk_linfun (VInt 0) [])
  end.
(** simplify_prod (free function): generator.hpp l.172-183 *)
Definition mix_simplify (x y : G1 + G2) : option (linfun (G1 + G2)) :=
  match x, y with
  | inl a, inl b => option_map (lf_map inl) (g_simplify o1 a b)
  | inr a, inr b => option_map (lf_map inr) (g_simplify o2 a b)
  | _, _ => None
  end.
(** reduce_power, conj: virtual functions, generator.hpp l.116-124 *)
Definition mix_reduce (x : G1 + G2) (n : nat) : option (linfun (G1 + G2)) :=
  match x with
  | inl a => option_map (lf_map inl) (g_reduce o1 a n)
  | inr b => option_map (lf_map inr) (g_reduce o2 b n)
  end.
Definition mix_conj (x : G1 + G2) : linfun (G1 + G2) :=
  match x with inl a => lf_map inl (g_conj o1 a) | inr b => lf_map inr (g_conj o2 b) end.
Definition mix_ops : gen_ops (G1 + G2) :=
  mk_gen_ops (G1 + G2) mix_eq mix_lt mix_gt mix_swap mix_simplify mix_reduce mix_conj.
End Mix.
