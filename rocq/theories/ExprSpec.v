(** Specification vocabulary for the expression layer.  Independent of the
    algorithms in ExprModel.v: only the data types (gen, expressions as lists
    of monomial/coefficient pairs) and the scalar operations are used. *)
From Coq Require Import ZArith Bool List Setoid Morphisms Sorted.
From Verif Require Import ExprModel.
Import ListNotations.
Open Scope list_scope.

(** ** Orders *)

(** ==, < and > of a type form a strict total order. *)
Record strict_total_order {A : Type} (eqb ltb gtb : A -> A -> bool) : Prop := {
  sto_eq : forall x y, eqb x y = true <-> x = y;
  sto_irrefl : forall x, ltb x x = false;
  sto_trans : forall x y z, ltb x y = true -> ltb y z = true -> ltb x z = true;
  sto_total : forall x y, x = y \/ ltb x y = true \/ ltb y x = true;
  sto_gt : forall x y, gtb x y = ltb y x
}.

Definition index_order {I} (io : index_ops I) : Prop :=
  strict_total_order (i_eq io) (i_lt io) (i_gt io).

(** ** Scalars: an associative ring with unit (possibly non-commutative),
    exact zero test; structure constants p/q are converted to an x with
    q x = p 1. *)
Fixpoint nmul {S} (so : scalar_ops S) (n : nat) (x : S) : S :=
  match n with O => s_zero so | Datatypes.S k => s_add so x (nmul so k x) end.
Definition zmul {S} (so : scalar_ops S) (z : Z) (x : S) : S :=
  match z with
  | Z0 => s_zero so
  | Zpos p => nmul so (Pos.to_nat p) x
  | Zneg p => s_neg so (nmul so (Pos.to_nat p) x)
  end.

Record scalar_laws {S} (so : scalar_ops S) : Prop := {
  sl_add_comm : forall x y, s_add so x y = s_add so y x;
  sl_add_assoc : forall x y z, s_add so x (s_add so y z) = s_add so (s_add so x y) z;
  sl_add_0 : forall x, s_add so (s_zero so) x = x;
  sl_neg : forall x, s_add so x (s_neg so x) = s_zero so;
  sl_sub : forall x y, s_sub so x y = s_add so x (s_neg so y);
  sl_mul_assoc : forall x y z, s_mul so x (s_mul so y z) = s_mul so (s_mul so x y) z;
  sl_mul_1_l : forall x, s_mul so (s_one so) x = x;
  sl_mul_1_r : forall x, s_mul so x (s_one so) = x;
  sl_dist_l : forall x y z, s_mul so x (s_add so y z) = s_add so (s_mul so x y) (s_mul so x z);
  sl_dist_r : forall x y z, s_mul so (s_add so x y) z = s_add so (s_mul so x z) (s_mul so y z);
  sl_is_zero : forall x, s_is_zero so x = true <-> x = s_zero so;
  sl_make_int : forall z, s_make so (VInt z) = Some (zmul so z (s_one so));
  sl_make_rat : forall p q x, s_make so (VRat p q) = Some x ->
                  zmul so q x = zmul so p (s_one so)
}.

(** No zero divisors, and no non-zero structure constant becomes zero (true
    of integral domains of characteristic zero). *)
Record scalar_domain {S} (so : scalar_ops S) : Prop := {
  sd_laws : scalar_laws so;
  sd_nzd : forall x y, s_mul so x y = s_zero so -> x = s_zero so \/ y = s_zero so;
  sd_const : forall v x, s_make so v = Some x -> vn_is_zero v = false -> x <> s_zero so
}.

(** Complex conjugation of scalars *)
Record conj_laws {S} (so : scalar_ops S) : Prop := {
  cl_add : forall x y, s_conj so (s_add so x y) = s_add so (s_conj so x) (s_conj so y);
  cl_mul : forall x y, s_conj so (s_mul so x y) = s_mul so (s_conj so y) (s_conj so x);
  cl_invol : forall x, s_conj so (s_conj so x) = x
}.

(** ** Expressions as formal sums *)
Section Formal.
Context {I S : Type} (so : scalar_ops S).
Notation mono := (list (gen I)).

(** coefficient of monomial [m] in expression [e] (0 if it does not occur) *)
Definition coeff_is (e : list (mono * S)) (m : mono) (c : S) : Prop :=
  In (m, c) e \/ (c = s_zero so /\ forall c', ~ In (m, c') e).

End Formal.

(** ** Rings (associative, with unit, not nec. commutative, with a setoid
    equality) *)
Record ring_ops (R : Type) : Type := mk_ring {
  req : R -> R -> Prop;
  r0 : R;
  r1 : R;
  radd : R -> R -> R;
  rmul : R -> R -> R;
  ropp : R -> R
}.
Arguments req {R} _ _ _.
Arguments r0 {R} _.
Arguments r1 {R} _.
Arguments radd {R} _ _ _.
Arguments rmul {R} _ _ _.
Arguments ropp {R} _ _.

Record is_ring {R} (ro : ring_ops R) : Prop := {
  ri_equiv : Equivalence (req ro);
  ri_add_ext : Proper (req ro ==> req ro ==> req ro) (radd ro);
  ri_mul_ext : Proper (req ro ==> req ro ==> req ro) (rmul ro);
  ri_opp_ext : Proper (req ro ==> req ro) (ropp ro);
  ri_add_comm : forall x y, req ro (radd ro x y) (radd ro y x);
  ri_add_assoc : forall x y z, req ro (radd ro x (radd ro y z)) (radd ro (radd ro x y) z);
  ri_add_0 : forall x, req ro (radd ro (r0 ro) x) x;
  ri_opp : forall x, req ro (radd ro x (ropp ro x)) (r0 ro);
  ri_mul_assoc : forall x y z, req ro (rmul ro x (rmul ro y z)) (rmul ro (rmul ro x y) z);
  ri_mul_1_l : forall x, req ro (rmul ro (r1 ro) x) x;
  ri_mul_1_r : forall x, req ro (rmul ro x (r1 ro)) x;
  ri_dist_l : forall x y z, req ro (rmul ro x (radd ro y z)) (radd ro (rmul ro x y) (rmul ro x z));
  ri_dist_r : forall x y z, req ro (rmul ro (radd ro x y) z) (radd ro (rmul ro x z) (rmul ro y z))
}.

(** ** Evaluation of monomials and expressions in a ring, given the images of
    the scalars [inj] and of the generators [rho] *)
Section Eval.
Context {G S R : Type} (ro : ring_ops R) (inj : S -> R) (rho : G -> R).

Fixpoint eval_mono (m : list G) : R :=
  match m with
  | [] => r1 ro
  | g :: m' => rmul ro (rho g) (eval_mono m')
  end.

Fixpoint eval_expr (e : list (list G * S)) : R :=
  match e with
  | [] => r0 ro
  | (m, c) :: e' => radd ro (rmul ro (inj c) (eval_mono m)) (eval_expr e')
  end.
End Eval.

Fixpoint rpow {R} (ro : ring_ops R) (x : R) (n : nat) : R :=
  match n with O => r1 ro | S k => rmul ro x (rpow ro x k) end.

(** the scalars map homomorphically to elements commuting with the generators *)
Record scalar_image {G S R} (so : scalar_ops S) (ro : ring_ops R)
  (inj : S -> R) (rho : G -> R) : Prop := {
  si_0 : req ro (inj (s_zero so)) (r0 ro);
  si_1 : req ro (inj (s_one so)) (r1 ro);
  si_add : forall x y, req ro (inj (s_add so x y)) (radd ro (inj x) (inj y));
  si_mul : forall x y, req ro (inj (s_mul so x y)) (rmul ro (inj x) (inj y));
  si_comm : forall x g, req ro (rmul ro (rho g) (inj x)) (rmul ro (inj x) (rho g))
}.

(** ** The documented relations of the three built-in algebras.
    [rho (GFermion true i)] is c^+_i, [rho (GFermion false i)] is c_i, etc.
    A spin site is a pair (multiplicity 2S+1, index). *)
Record relations {I S R} (so : scalar_ops S) (ro : ring_ops R)
  (inj : S -> R) (rho : gen I -> R) : Prop := {
  (* fermions: canonical anticommutation relations *)
  rel_c_sq : forall d i,
    req ro (rmul ro (rho (GFermion d i)) (rho (GFermion d i))) (r0 ro);
  rel_c_anti : forall d d' i j, i <> j ->
    req ro (rmul ro (rho (GFermion d i)) (rho (GFermion d' j)))
           (ropp ro (rmul ro (rho (GFermion d' j)) (rho (GFermion d i))));
  rel_c_cdag : forall i,
    req ro (radd ro (rmul ro (rho (GFermion false i)) (rho (GFermion true i)))
                    (rmul ro (rho (GFermion true i)) (rho (GFermion false i))))
           (r1 ro);
  (* bosons: canonical commutation relations *)
  rel_a_comm : forall d i j,
    req ro (rmul ro (rho (GBoson d i)) (rho (GBoson d j)))
           (rmul ro (rho (GBoson d j)) (rho (GBoson d i)));
  rel_a_adag_diff : forall i j, i <> j ->
    req ro (rmul ro (rho (GBoson false i)) (rho (GBoson true j)))
           (rmul ro (rho (GBoson true j)) (rho (GBoson false i)));
  rel_a_adag : forall i,
    req ro (rmul ro (rho (GBoson false i)) (rho (GBoson true i)))
           (radd ro (r1 ro) (rmul ro (rho (GBoson true i)) (rho (GBoson false i))));
  (* spins: different sites commute *)
  rel_s_comm : forall m m' c c' i j, (m, i) <> (m', j) ->
    req ro (rmul ro (rho (GSpin m c i)) (rho (GSpin m' c' j)))
           (rmul ro (rho (GSpin m' c' j)) (rho (GSpin m c i)));
  (* [S_+, S_-] = 2 S_z, [S_z, S_+-] = +- S_+- *)
  rel_s_pm : forall m i,
    req ro (rmul ro (rho (GSpin m Plus i)) (rho (GSpin m Minus i)))
           (radd ro (rmul ro (rho (GSpin m Minus i)) (rho (GSpin m Plus i)))
                    (radd ro (rho (GSpin m Zcomp i)) (rho (GSpin m Zcomp i))));
  rel_s_zp : forall m i,
    req ro (rmul ro (rho (GSpin m Zcomp i)) (rho (GSpin m Plus i)))
           (radd ro (rmul ro (rho (GSpin m Plus i)) (rho (GSpin m Zcomp i)))
                    (rho (GSpin m Plus i)));
  rel_s_zm : forall m i,
    req ro (rmul ro (rho (GSpin m Zcomp i)) (rho (GSpin m Minus i)))
           (radd ro (rmul ro (rho (GSpin m Minus i)) (rho (GSpin m Zcomp i)))
                    (ropp ro (rho (GSpin m Minus i))));
  (* (2S+1)-th powers of the ladder operators vanish *)
  rel_s_nil : forall m i c, c <> Zcomp -> 1 <= m ->
    req ro (rpow ro (rho (GSpin m c i)) m) (r0 ro);
  (* spin 1/2: S_+ S_- = 1/2 + S_z, S_+ S_z = -1/2 S_+, S_- S_z = 1/2 S_-,
     S_z S_z = 1/4 *)
  rel_h_pm : forall i h, s_add so h h = s_one so ->
    req ro (rmul ro (rho (GSpin 2 Plus i)) (rho (GSpin 2 Minus i)))
           (radd ro (inj h) (rho (GSpin 2 Zcomp i)));
  rel_h_pz : forall i h, s_add so h h = s_one so ->
    req ro (rmul ro (rho (GSpin 2 Plus i)) (rho (GSpin 2 Zcomp i)))
           (ropp ro (rmul ro (inj h) (rho (GSpin 2 Plus i))));
  rel_h_mz : forall i h, s_add so h h = s_one so ->
    req ro (rmul ro (rho (GSpin 2 Minus i)) (rho (GSpin 2 Zcomp i)))
           (rmul ro (inj h) (rho (GSpin 2 Minus i)));
  rel_h_zz : forall i h, s_add so h h = s_one so ->
    req ro (rmul ro (rho (GSpin 2 Zcomp i)) (rho (GSpin 2 Zcomp i)))
           (inj (s_mul so h h));
  (* generators of different algebras commute *)
  rel_fb : forall d i d' j,
    req ro (rmul ro (rho (GFermion d i)) (rho (GBoson d' j)))
           (rmul ro (rho (GBoson d' j)) (rho (GFermion d i)));
  rel_fs : forall d i m c j,
    req ro (rmul ro (rho (GFermion d i)) (rho (GSpin m c j)))
           (rmul ro (rho (GSpin m c j)) (rho (GFermion d i)));
  rel_bs : forall d i m c j,
    req ro (rmul ro (rho (GBoson d i)) (rho (GSpin m c j)))
           (rmul ro (rho (GSpin m c j)) (rho (GBoson d i)))
}.

(** A representation: a ring with images of scalars and generators satisfying
    everything above. *)
Record representation {I S R} (so : scalar_ops S) (ro : ring_ops R)
  (inj : S -> R) (rho : gen I -> R) : Prop := {
  rep_ring : is_ring ro;
  rep_scalars : scalar_image so ro inj rho;
  rep_relations : relations so ro inj rho
}.

(** ** Sites of spins: a list of generators is consistent when no index is
    used both for a spin-1/2 and for a spin of another multiplicity (see
    finding F1: the library conflates such sites), and every multiplicity is
    positive. *)
Definition spin_consistent {I} (l : list (gen I)) : Prop :=
  (forall c c' m i, In (GSpin 2 c i) l -> In (GSpin m c' i) l -> m = 2) /\
  (forall m c i, In (GSpin m c i) l -> 1 <= m).

Definition gens_of {I S} (e : list (list (gen I) * S)) : list (gen I) :=
  concat (map fst e).

(** ** Canonical form of monomials *)
Section Canonical.
Context {I : Type} (io : index_ops I).

(** the canonical order of generators: fermions, then bosons, then spins;
    creation operators before annihilation operators; creation operators by
    increasing and annihilation operators by decreasing index; spins by
    multiplicity, index and component (+, -, z) *)
Definition idx_lt (i j : I) : Prop := i_lt io i j = true.
Inductive gen_before : gen I -> gen I -> Prop :=
| gb_fb : forall d i d' j, gen_before (GFermion d i) (GBoson d' j)
| gb_fs : forall d i m c j, gen_before (GFermion d i) (GSpin m c j)
| gb_bs : forall d i m c j, gen_before (GBoson d i) (GSpin m c j)
| gb_f_da : forall i j, gen_before (GFermion true i) (GFermion false j)
| gb_f_dd : forall i j, idx_lt i j -> gen_before (GFermion true i) (GFermion true j)
| gb_f_aa : forall i j, idx_lt j i -> gen_before (GFermion false i) (GFermion false j)
| gb_b_da : forall i j, gen_before (GBoson true i) (GBoson false j)
| gb_b_dd : forall i j, idx_lt i j -> gen_before (GBoson true i) (GBoson true j)
| gb_b_aa : forall i j, idx_lt j i -> gen_before (GBoson false i) (GBoson false j)
| gb_s_m : forall m c i m' c' j, m < m' -> gen_before (GSpin m c i) (GSpin m' c' j)
| gb_s_i : forall m c i c' j, idx_lt i j -> gen_before (GSpin m c i) (GSpin m c' j)
| gb_s_pm : forall m i, gen_before (GSpin m Plus i) (GSpin m Minus i)
| gb_s_pz : forall m i, gen_before (GSpin m Plus i) (GSpin m Zcomp i)
| gb_s_mz : forall m i, gen_before (GSpin m Minus i) (GSpin m Zcomp i).

Definition gen_before_eq (g h : gen I) : Prop := g = h \/ gen_before g h.

(** adjacent generators that cannot stand next to each other in a normal
    form: equal fermionic generators; two spin-1/2 generators of one site *)
Inductive collapsible : gen I -> gen I -> Prop :=
| col_f : forall d i, collapsible (GFermion d i) (GFermion d i)
| col_s : forall c c' i, collapsible (GSpin 2 c i) (GSpin 2 c' i).

(** [m] contains a vanishing power of a ladder operator of a spin *)
Definition has_nilpotent_power (m : list (gen I)) : Prop :=
  exists pre post mu c i n, c <> Zcomp /\ mu <= n /\ 2 < n /\
    m = pre ++ repeat (GSpin mu c i) n ++ post.

Definition canonical_mono (m : list (gen I)) : Prop :=
  StronglySorted gen_before_eq m /\
  (forall pre g h post, m = pre ++ g :: h :: post -> ~ collapsible g h) /\
  ~ has_nilpotent_power m.

(** Monomials are ordered by length, then lexicographically. *)
Inductive lex_before : list (gen I) -> list (gen I) -> Prop :=
| lb_here : forall g h m n, gen_before g h -> lex_before (g :: m) (h :: n)
| lb_next : forall g m n, lex_before m n -> lex_before (g :: m) (g :: n).
Definition mono_before (m n : list (gen I)) : Prop :=
  length m < length n \/ (length m = length n /\ lex_before m n).

(** the stored form of an expression *)
Definition canonical_expr {S} (so : scalar_ops S) (e : list (list (gen I) * S)) : Prop :=
  StronglySorted mono_before (map fst e) /\
  (forall m c, In (m, c) e -> canonical_mono m /\ c <> s_zero so).

End Canonical.
