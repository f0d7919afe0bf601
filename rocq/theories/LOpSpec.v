(** Specification of the action of operators on basis states, independent of
    the algorithms in LOpModel.v: Jordan-Wigner fermions, truncated bosons and
    spins on a product of elementary spaces. *)
From Coq Require Import NArith ZArith List Bool.
From Verif Require Import BitsSpec ExprModel ExprSpec HSModel HSSpec.
(* from LOpModel only the interface [sv_ops] of state vectors is used *)
From Verif Require Import LOpModel.
Import ListNotations.
Open Scope N_scope.
Open Scope list_scope.

(** x with the bits [off, off+n) replaced by v *)
Definition set_field (x : N) (off n : nat) (v : N) : N :=
  x mod 2 ^ N.of_nat off + 2 ^ N.of_nat off * (v + 2 ^ N.of_nat n * (x / 2 ^ N.of_nat (off + n))).

Section Spec.
Context {I S : Type} (io : index_ops I) (so : scalar_ops S) (sq : N -> S) (half : Z -> S).
Notation es := (espace I).

(** does the elementary space carry the degree of freedom of g? *)
Definition carries (g : gen I) (e : es) : bool :=
  match g, e with
  | GFermion _ i, ESFermion j => i_eq io i j
  | GBoson _ i, ESBoson _ j => i_eq io i j
  | GSpin m _ i, ESSpin m' j => Nat.eqb m m' && i_eq io i j
  | _, _ => false
  end.
(** the degree of freedom of g: its first bit and the space *)
Fixpoint find_site (l : list es) (start : nat) (g : gen I) : option (nat * es) :=
  match l with
  | [] => None
  | e :: t => if carries g e then Some (start, e) else find_site t (start + es_nbits e) g
  end.

(** Action of a single generator on the basis state x: [None] is the zero
    vector, [Some (k, y)] is k|y>. The sign of a fermionic operator is
    (-1)^(number of occupied modes before it); fermionic modes occupy the
    lowest bits. *)
Definition sign (b : bool) : S := if b then s_neg so (s_one so) else s_one so.
Definition gen_act (l : list es) (g : gen I) (x : N) : option (S * N) :=
  match find_site l 0 g with
  | None => None
  | Some (o, e) =>
      let nb := es_nbits e in
      let n := bit_field x o nb in
      let jw := sign (Nat.odd (weight (x mod 2 ^ N.of_nat o))) in
      match g with
      | GFermion true _ => if n =? 0 then Some (jw, N.setbit x (N.of_nat o)) else None
      | GFermion false _ => if n =? 1 then Some (jw, N.clearbit x (N.of_nat o)) else None
      | GBoson true _ => if n + 1 <? es_dim e then Some (sq (n + 1), set_field x o nb (n + 1)) else None
      | GBoson false _ => if n =? 0 then None else Some (sq n, set_field x o nb (n - 1))
      | GSpin mult Plus _ =>
          (* S+|n> = sqrt((2s-n)(n+1))|n+1>, n = s + m *)
          if n + 1 <? N.of_nat mult
          then Some (sq ((N.of_nat mult - 1 - n) * (n + 1)), set_field x o nb (n + 1)) else None
      | GSpin mult Minus _ =>
          (* S-|n> = sqrt((2s-n+1)n)|n-1> *)
          if n =? 0 then None else Some (sq ((N.of_nat mult - n) * n), set_field x o nb (n - 1))
      | GSpin mult Zcomp _ =>
          (* Sz|n> = (n - s)|n> *)
          Some (half (2 * Z.of_N n - (Z.of_nat mult - 1)), x)
      end
  end.

(** a product of generators acts from the right to the left *)
Definition obind (o : option (S * N)) (f : N -> option (S * N)) : option (S * N) :=
  match o with
  | None => None
  | Some (c, y) => match f y with None => None | Some (k, z) => Some (s_mul so c k, z) end
  end.
Fixpoint mono_act (l : list es) (m : list (gen I)) (x : N) : option (S * N) :=
  match m with
  | [] => Some (s_one so, x)
  | g :: t => obind (mono_act l t x) (gen_act l g)
  end.

(** amplitude of |y> in a multiple of a basis state *)
Definition amp1 (o : option (S * N)) (y : N) : S :=
  match o with None => s_zero so | Some (c, z) => if N.eqb z y then c else s_zero so end.

(** matrix element <y| e |x> of an expression *)
Fixpoint mel (l : list es) (e : list (list (gen I) * S)) (y x : N) : S :=
  match e with
  | [] => s_zero so
  | (m, c) :: t => s_add so (s_mul so c (amp1 (mono_act l m x) y)) (mel l t y x)
  end.

(** every generator has its elementary space *)
Definition known (l : list es) (g : gen I) : Prop := exists e, In e l /\ carries g e = true.
End Spec.

(** Exact constants: square roots and half-integers *)
Record lop_laws {S} (so : scalar_ops S) (sq : N -> S) (half : Z -> S) : Prop := {
  ll_ring : scalar_laws so;
  ll_comm : forall x y, s_mul so x y = s_mul so y x;
  ll_sq : forall n, s_mul so (sq n) (sq n) = zmul so (Z.of_N n) (s_one so);
  ll_half_add : forall y z, half (y + z)%Z = s_add so (half y) (half z);
  ll_half_2 : half 2%Z = s_one so
}.


(** sums over a list of indices *)
Fixpoint ssum {S} (so : scalar_ops S) (f : N -> S) (l : list N) : S :=
  match l with [] => s_zero so | x :: t => s_add so (f x) (ssum so f t) end.
(** [bas] lists the basis states of the product of [l], each once *)
Definition basis_of {I} (l : list (espace I)) (bas : list N) : Prop :=
  NoDup bas /\ forall x, In x bas <-> valid_state l x.

(** An implementation [sv] of the StateVector interface stores amplitudes
    [amp v n] for the indices n < [size v].  [ok] is an invariant of the
    implementation. *)
Record sv_laws {V S} (so : scalar_ops S) (sv : sv_ops V S) (ok : V -> Prop) (amp : V -> N -> S) (size : V -> N) : Prop := {
  svl_visits : forall v, exists l, sv_entries sv v l;
  svl_entries : forall v l, ok v -> sv_entries sv v l ->
    NoDup (map fst l) /\ Forall (fun p => fst p < size v) l /\
    (forall x a, In (x, a) l -> a = amp v x) /\
    (forall x, amp v x <> s_zero so -> In x (map fst l));
  svl_get : forall v n, ok v -> n < size v -> sv_get sv v n = Some (amp v n);
  svl_add : forall v n x, ok v -> n < size v -> exists v', sv_add sv v n x = Some v' /\ ok v' /\ size v' = size v /\
    forall y, amp v' y = if N.eqb n y then s_add so (amp v y) x else amp v y;
  svl_zero : forall v, ok v -> ok (sv_zero sv v) /\ size (sv_zero sv v) = size v /\
    forall y, amp (sv_zero sv v) y = s_zero so
}.
(** ... and its foreach() never visits a vanishing amplitude *)
Record sv_strict {V S} (so : scalar_ops S) (sv : sv_ops V S) (ok : V -> Prop) (amp : V -> N -> S) (size : V -> N) : Prop := {
  svs_laws : sv_laws so sv ok amp size;
  svs_nonzero : forall v l x a, ok v -> sv_entries sv v l -> In (x, a) l -> a <> s_zero so
}.
(** a state vector of the space: it is large enough, and amplitudes belong to
    basis states only *)
Definition state_of {I V S} (so : scalar_ops S) (ok : V -> Prop) (amp : V -> N -> S) (size : V -> N) (l : list (espace I)) (v : V) : Prop :=
  ok v /\ 2 ^ N.of_nat (total_bits l) <= size v /\ forall x, amp v x <> s_zero so -> valid_state l x.
(** w = Lp(v), for some order in which foreach() visits the elements of v *)
Definition lop_run {S V} (so : scalar_ops S) (sq : N -> S) (half : Z -> S) (sv : sv_ops V S) (Lp : lop S) (v w : V) : Prop :=
  exists ent, sv_entries sv v ent /\ lop_apply so sq half sv Lp v ent = Some w.

(** spin multiplicities are values of the C++ type int *)
Definition int_mult {I} (e : espace I) : Prop :=
  match e with ESSpin m _ => N.of_nat m < 2 ^ 31 | _ => True end.
