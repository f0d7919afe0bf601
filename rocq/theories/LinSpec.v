(** Vocabulary for the properties of expressions over arbitrary (also
    user-defined) algebras: C59, C60. *)
From Coq Require Import ZArith Bool List Sorted.
From Verif Require Import ExprModel ExprSpec.
Import ListNotations.

(** An algebra is a [gen_ops G] whose comparison functions agree with a strict
    total order ([gen_order], ExprSpec.v). [nonzero_constants] says that the
    linear functions returned by swap_with (called for g1 > g2) and by
    simplify_prod (called for g1 <= g2) contain no term with a zero coefficient, and that swap_with writes a vanishing coefficient
    as the integer 0. *)
Record nonzero_constants {G} (go : gen_ops G) : Prop := {
  nc_swap : forall a b c f, g_gt go a b = true -> g_swap go a b = (c, f) ->
    (forall g v, In (g, v) (terms f) -> vn_is_zero v = false) /\
    (vn_eqb c (VInt 0) = false -> vn_is_zero c = false);
  nc_simplify : forall a b f, g_gt go a b = false -> g_simplify go a b = Some f ->
    forall g v, In (g, v) (terms f) -> vn_is_zero v = false
}.

(** A stored expression: monomials strictly increasing, no zero coefficient *)
Definition stored_expr {G S} (go : gen_ops G) (so : scalar_ops S) (e : list (list G * S)) : Prop :=
  StronglySorted (fun m n => mono_lt go m n = true) (map fst e) /\
  forall m c, In (m, c) e -> c <> s_zero so.

(** [c] is the coefficient of [m] in [e] (0 if it does not occur) *)
Definition coefficient {G S} (so : scalar_ops S) (e : list (list G * S)) (m : list G) (c : S) : Prop :=
  In (m, c) e \/ (c = s_zero so /\ forall c', ~ In (m, c') e).

(** Sum of f over a list *)
Fixpoint sum_over {A S} (so : scalar_ops S) (f : A -> S) (l : list A) : S :=
  match l with [] => s_zero so | x :: l' => s_add so (f x) (sum_over so f l') end.

(** Everything a program can make with the expression API over one algebra and
    one scalar type *)
Inductive api_expr {G S} (go : gen_ops G) (so : scalar_ops S) : list (list G * S) -> Prop :=
| ae_default : api_expr go so []
| ae_const x : api_expr go so (e_const so x)
| ae_mono x m e : e_mono go so x m = Ok e -> api_expr go so e
| ae_linear f e : e_linfun go so f = Ok e -> api_expr go so e
| ae_add a b : api_expr go so a -> api_expr go so b -> api_expr go so (e_add go so a b)
| ae_sub a b : api_expr go so a -> api_expr go so b -> api_expr go so (e_sub go so a b)
| ae_neg a : api_expr go so a -> api_expr go so (e_neg so a)
| ae_mul a b e : api_expr go so a -> api_expr go so b -> e_mul go so a b = Ok e -> api_expr go so e
| ae_scale_l s a : api_expr go so a -> api_expr go so (e_mul_const_pre so s a)
| ae_scale_r a s : api_expr go so a -> api_expr go so (e_mul_const_post so a s)
| ae_shift a s : api_expr go so a -> api_expr go so (e_add_const go so a s)
| ae_unshift a s : api_expr go so a -> api_expr go so (e_sub_const go so a s)
| ae_const_sub s a : api_expr go so a -> api_expr go so (e_const_sub go so s a)
| ae_conj a e : api_expr go so a -> e_conj go so a = Ok e -> api_expr go so e.
