(** Vocabulary of C68: what it means for a user-defined monomial_action<> to be
    correct, in terms of matrices on the basis states 0, ..., n-1. *)
From Coq Require Import NArith ZArith List Bool.
From Verif Require Import ExprModel LinSpec LOpModel LOpSpec UserActModel.
Import ListNotations.
Open Scope list_scope.

Section Spec.
Context {G S : Type} (go : gen_ops G) (so : scalar_ops S) (n : nat).
Definition states : list N := map N.of_nat (seq 0 n).
Definition is_state (x : N) : Prop := (x < N.of_nat n)%N.

(** product, identity, and the matrix of a linear function c + sum_g c_g g *)
Definition mprod (A B : N -> N -> S) (y x : N) : S := ssum so (fun z => s_mul so (A y z) (B z x)) states.
Definition mone (y x : N) : S := if N.eqb y x then s_one so else s_zero so.
Definition number (v : var_number) : S :=
  if vn_is_zero v then s_zero so else match s_make so v with Some x => x | None => s_zero so end.
Fixpoint lin_matrix (M : G -> N -> N -> S) (ts : list (G * var_number)) (y x : N) : S :=
  match ts with
  | [] => s_zero so
  | (g, v) :: t => s_add so (s_mul so (number v) (M g y x)) (lin_matrix M t y x)
  end.
Definition fun_matrix (M : G -> N -> N -> S) (f : linfun G) (y x : N) : S :=
  s_add so (s_mul so (number (const_term f)) (mone y x)) (lin_matrix M (terms f) y x).

(** matrices of a product of generators and of an expression *)
Fixpoint mono_matrix (M : G -> N -> N -> S) (m : list G) : N -> N -> S :=
  match m with [] => mone | g :: t => mprod (M g) (mono_matrix M t) end.
Fixpoint expr_matrix (M : G -> N -> N -> S) (e : list (list G * S)) (y x : N) : S :=
  match e with
  | [] => s_zero so
  | (m, c) :: t => s_add so (s_mul so c (mono_matrix M m y x)) (expr_matrix M t y x)
  end.

(** The matrices [M g] satisfy the relations declared by swap_with() and
    simplify_prod() for the generators in [K]. *)
Record represented (M : G -> N -> N -> S) (K : G -> Prop) : Prop := {
  rp_swap : forall g h c f, K g -> K h -> g_gt go g h = true -> g_swap go g h = (c, f) ->
    (forall k v, In (k, v) (terms f) -> K k) /\
    forall y x, is_state y -> is_state x ->
      mprod (M g) (M h) y x = s_add so (s_mul so (number c) (mprod (M h) (M g) y x)) (fun_matrix M f y x);
  rp_simplify : forall g h f, K g -> K h -> g_gt go g h = false -> g_simplify go g h = Some f ->
    (forall k v, In (k, v) (terms f) -> K k) /\
    forall y x, is_state y -> is_state x -> mprod (M g) (M h) y x = fun_matrix M f y x
}.

(** act() multiplies the coefficient by the only nonzero element of the column
    [x] of the matrix of the monomial, and moves to its row, or returns false
    for a vanishing column. *)
Definition acts_by {A} (make : list G -> A) (act : A -> N -> S -> ares S) (M : G -> N -> N -> S) (K : G -> Prop) : Prop :=
  forall m x c, Forall K m -> is_state x ->
    (exists k z, act (make m) x c = AVal (s_mul so c k) z /\ is_state z /\
       forall y, is_state y -> mono_matrix M m y x = if N.eqb z y then k else s_zero so) \/
    (act (make m) x c = AZero /\ forall y, is_state y -> mono_matrix M m y x = s_zero so).

(** expressions made of generators in [K] *)
Definition made_of (K : G -> Prop) (e : list (list G * S)) : Prop := forall m c, In (m, c) e -> Forall K m.

(** a state vector for the [n] basis states *)
Definition uvec {V} (ok : V -> Prop) (amp : V -> N -> S) (size : V -> N) (v : V) : Prop :=
  ok v /\ (N.of_nat n <= size v)%N /\ forall x, amp v x <> s_zero so -> is_state x.

(** conj(g), a combination with nonzero coefficients, is the adjoint of g *)
Definition adjoint_matrices (M : G -> N -> N -> S) (K : G -> Prop) : Prop :=
  forall g, K g -> (forall k v, In (k, v) (terms (g_conj go g)) -> K k /\ vn_is_zero v = false) /\
    forall y x, is_state y -> is_state x -> fun_matrix M (g_conj go g) y x = s_conj so (M g x y).
End Spec.

(** w = L(v) for some order of the calls made by foreach() *)
Definition ulop_run {A S V} (so : scalar_ops S) (sv : sv_ops V S) (act : A -> N -> S -> ares S) (L : list (A * S)) (v w : V) : Prop :=
  exists ent, sv_entries sv v ent /\ ulop_apply so sv act L v ent = Some w.

(** Dirac's gamma matrices: block matrices with the blocks 1, -1, sigma_k,
    -sigma_k on the states 2a+s (a, s = 0, 1) *)
Section Dirac.
Context {S : Type} (so : scalar_ops S) (iu : S).
(** Pauli matrices, sigma_0 = 1 *)
Definition pauli (k : Z) (s t : bool) : S :=
  if Z.eqb k 0 then (if Bool.eqb s t then s_one so else s_zero so)
  else if Z.eqb k 1 then (if Bool.eqb s t then s_zero so else s_one so)
  else if Z.eqb k 2 then (if Bool.eqb s t then s_zero so else if s then iu else s_neg so iu)
  else (if Bool.eqb s t then (if s then s_neg so (s_one so) else s_one so) else s_zero so).
(** g^0 = diag(1, -1); g^k = (0, sigma_k; -sigma_k, 0) *)
Definition dirac (k : Z) (y x : N) : S :=
  let a := N.testbit y 1 in let b := N.testbit x 1 in
  let s := pauli k (N.testbit y 0) (N.testbit x 0) in
  if Z.eqb k 0 then (if Bool.eqb a b then (if a then s_neg so s else s) else s_zero so)
  else (if Bool.eqb a b then s_zero so else if a then s_neg so s else s).
Definition dirac_index (k : Z) : Prop := (0 <= k <= 3)%Z.
End Dirac.
