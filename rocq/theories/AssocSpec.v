(** Vocabulary of C61: user-defined algebras. *)
From Coq Require Import ZArith Bool List Sorted.
From Verif Require Import ExprModel ExprSpec ExprOrder LinSpec.
Import ListNotations.

(** What a class derived from generator<...> has to provide.
    [ra_detect]: a pair that simplify_prod simplifies in canonical order must not
    be produced by exchanging its members (swap_with returns 0 for it).
    [ra_reduce]: reduce_power is not overridden (generator.hpp l.116-119).
    [ra_repr_*]: the scalar type can represent the constants. *)
Definition representable {G S} (so : scalar_ops S) (f : linfun G) : Prop :=
  s_make so (const_term f) <> None /\ forall g v, In (g, v) (terms f) -> s_make so v <> None.
Record regular_algebra {G S} (go : gen_ops G) (so : scalar_ops S) : Prop := {
  ra_order : gen_order go;
  ra_constants : nonzero_constants go;
  ra_detect : forall a b c f, g_lt go a b = true -> g_simplify go a b <> None ->
    g_swap go b a = (c, f) -> vn_eqb c (VInt 0) = true;
  ra_reduce : forall g n, g_reduce go g n = None;
  ra_repr_swap : forall a b c f, g_swap go a b = (c, f) -> s_make so c <> None /\ representable so f;
  ra_repr_simplify : forall a b f, g_simplify go a b = Some f -> representable so f;
  ra_repr_conj : forall a, representable so (g_conj go a)
}.

(** one generator as an expression *)
Definition generator_expr {G S} (so : scalar_ops S) (g : G) : list (list G * S) := [([g], s_one so)].

(** (x*y)*z == x*(y*z) *)
Definition associates {G S} (go : gen_ops G) (so : scalar_ops S) (x y z : list (list G * S)) : Prop :=
  exists xy yz r, e_mul go so x y = Ok xy /\ e_mul go so y z = Ok yz /\
    e_mul go so xy z = Ok r /\ e_mul go so x yz = Ok r.

(** e == a*b - b*a *)
Definition commutator {G S} (go : gen_ops G) (so : scalar_ops S) (a b e : list (list G * S)) : Prop :=
  exists ab ba, e_mul go so a b = Ok ab /\ e_mul go so b a = Ok ba /\ e = e_sub go so ab ba.
(** [[x,y],z] + [[y,z],x] + [[z,x],y] == 0 *)
Definition jacobi_identity {G S} (go : gen_ops G) (so : scalar_ops S) (x y z : list (list G * S)) : Prop :=
  exists xy yz zx p q r,
    commutator go so x y xy /\ commutator go so y z yz /\ commutator go so z x zx /\
    commutator go so xy z p /\ commutator go so yz x q /\ commutator go so zx y r /\
    e_add go so (e_add go so p q) r = [].

(** g1 g2 - g2 g1 is a linear function, and nothing else is prescribed *)
Record lie_type {G} (go : gen_ops G) : Prop := {
  lt_swap : forall a b c f, g_gt go a b = true -> g_swap go a b = (c, f) -> c = VInt 1;
  lt_simplify : forall a b, g_gt go a b = false -> g_simplify go a b = None
}.

(** ** Conjugation *)
(** conj(a*b) == conj(b)*conj(a) *)
Definition conj_reverses {G S} (go : gen_ops G) (so : scalar_ops S) (a b : list (list G * S)) : Prop :=
  exists ab ca cb r, e_mul go so a b = Ok ab /\ e_conj go so a = Ok ca /\ e_conj go so b = Ok cb /\
    e_conj go so ab = Ok r /\ e_mul go so cb ca = Ok r.
(** conj(conj(a)) == a *)
Definition conj_involutive {G S} (go : gen_ops G) (so : scalar_ops S) (a : list (list G * S)) : Prop :=
  exists ca, e_conj go so a = Ok ca /\ e_conj go so ca = Ok a.
(** no two neighbours are exchanged or simplified *)
Definition rewritten {G} (go : gen_ops G) (x y : G) : Prop :=
  g_gt go x y = true \/ g_simplify go x y <> None.
Definition canonical {G S} (go : gen_ops G) (a : list (list G * S)) : Prop :=
  forall p x y s c, In (p ++ x :: y :: s, c) a -> ~ rewritten go x y.
