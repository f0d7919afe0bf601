(** Exceptions in the middle of operations on expressions.

    Calls that may throw: everything that allocates (a node of std::map with a
    copy of the monomial, the vector of a concatenated monomial), arithmetic of
    the scalar type (e.g. of GMP or Boost rational numbers, which allocate or
    detect overflow) and scalar_traits<S>::make_const().  Calls that do not
    throw: find() (comparisons), is_zero(), erase(), clear(), std::swap and move
    assignment of maps.  The crash point of an operation is the number [k] of
    calls that succeed before one throws.  A failing emplace() leaves the map
    as it was (guaranteed by the standard), a failing compound assignment
    leaves the scalar as it was (assumed of the scalar type).

    Results are pairs: the value of the assigned object afterwards, and
    [None] if the exception was thrown or the number of unused successes. *)
From Coq Require Import List Bool.
From Verif Require Import ExprModel ConvModel.
Import ListNotations.
Open Scope list_scope.

Section Crash.
Context {G S : Type} (go : gen_ops G) (so : scalar_ops S).
Notation emap := (@emap G S).
Notation mono := (@mono G).
Definition outcome : Type := (emap * option nat)%type.

(** the body of the loop of operator+=(expression): expression.hpp l.249-257;
    the call that may throw is emplace(p) or add_assign *)
Definition add_entry_c (k : nat) (p : mono * S) (e : emap) : outcome :=
  match map_find go (fst p) e with
  | None =>
      match k with
      | O => (e, None)
      | Datatypes.S k' => (fst (map_emplace go (fst p) (snd p) e), Some k')
      end
  | Some v =>
      match k with
      | O => (e, None)
      | Datatypes.S k' =>
          let v' := s_add so v (snd p) in
          let e' := map_assign go (fst p) v' e in
          (if s_is_zero so v' then map_erase go (fst p) e' else e', Some k')
      end
  end.
(** operator+=(expression): expression.hpp l.248-259 *)
Fixpoint add_assign_c (k : nat) (a : emap) (b : list (mono * S)) : outcome :=
  match b with
  | [] => (a, Some k)
  | p :: b' =>
      match add_entry_c k p a with
      | (a', Some k') => add_assign_c k' a' b'
      | (a', None) => (a', None)
      end
  end.

(** the body of the loop of operator-=(expression): expression.hpp l.264-272;
    z - p.second and emplace(), or sub_assign, may throw *)
Definition sub_entry_c (k : nat) (p : mono * S) (e : emap) : outcome :=
  match map_find go (fst p) e with
  | None =>
      match k with
      | O => (e, None)
      | Datatypes.S k' =>
          let c := s_sub so (s_zero so) (snd p) in
          match k' with
          | O => (e, None)
          | Datatypes.S k'' => (fst (map_emplace go (fst p) c e), Some k'')
          end
      end
  | Some v =>
      match k with
      | O => (e, None)
      | Datatypes.S k' =>
          let v' := s_sub so v (snd p) in
          let e' := map_assign go (fst p) v' e in
          (if s_is_zero so v' then map_erase go (fst p) e' else e', Some k')
      end
  end.
Fixpoint sub_loop_c (k : nat) (a : emap) (b : list (mono * S)) : outcome :=
  match b with
  | [] => (a, Some k)
  | p :: b' =>
      match sub_entry_c k p a with
      | (a', Some k') => sub_loop_c k' a' b'
      | (a', None) => (a', None)
      end
  end.
(** operator-=(expression): expression.hpp l.262-274; make_const(0) at l.263 *)
Definition sub_assign_c (k : nat) (a : emap) (b : list (mono * S)) : outcome :=
  match k with O => (a, None) | Datatypes.S k' => sub_loop_c k' a b end.

(** operator*=(expression): expression.hpp l.277-288.  The loops fill the local
    [res_map]; a call for one pair of monomials may throw anywhere inside
    (concatenate, the product of the coefficients, normalize_and_store), which
    is one crash point here because [res_map] is thrown away. *)
Fixpoint mul_row_c (k : nat) (m1 : mono) (c1 : S) (b : list (mono * S)) (target : emap)
  {struct b} : res (emap * nat) :=
  match b with
  | [] => Ok (target, k)
  | (m2, c2) :: b' =>
      match k with
      | O => Throw
      | Datatypes.S k' =>
          rbind (normalize go so (m1 ++ m2) (s_mul so c1 c2) target) (mul_row_c k' m1 c1 b')
      end
  end.
Fixpoint mul_rows_c (k : nat) (a b : list (mono * S)) (target : emap) : res (emap * nat) :=
  match a with
  | [] => Ok (target, k)
  | (m1, c1) :: a' => rbind (mul_row_c k m1 c1 b target) (fun r => mul_rows_c (snd r) a' b (fst r))
  end.
(** std::swap(monomials_, res_map) is the last statement; [None] (outer) is
    undefined behaviour *)
Definition mul_assign_c (k : nat) (a b : emap) : option outcome :=
  match mul_rows_c k a b [] with
  | Ok (r, k') => Some (r, Some k')
  | Throw => Some (a, None)
  | Bad => None
  end.

(** operator*=(S const& alpha): expression.hpp l.378-386; every mul_assign may throw *)
Fixpoint scale_c (k : nat) (alpha : S) (a : emap) {struct a} : outcome :=
  match a with
  | [] => ([], Some k)
  | (m, x) :: a' =>
      match k with
      | O => (a, None)
      | Datatypes.S k' => let (r, o) := scale_c k' alpha a' in ((m, s_mul so x alpha) :: r, o)
      end
  end.
Definition mul_const_c (k : nat) (a : emap) (alpha : S) : outcome :=
  if s_is_zero so alpha then ([], Some k) else scale_c k alpha a.

(** operator+=(S const& alpha): expression.hpp l.389-404; make_const(0),
    add_assign(val, alpha) and emplace_hint(), or add_assign, may throw *)
Definition add_const_c (k : nat) (a : emap) (alpha : S) : outcome :=
  if s_is_zero so alpha then (a, Some k)
  else
    match map_find go [] a with
    | None =>
        match k with
        | Datatypes.S (Datatypes.S (Datatypes.S k')) =>
            (fst (map_emplace go [] (s_add so (s_zero so) alpha) a), Some k')
        | _ => (a, None)
        end
    | Some v =>
        match k with
        | O => (a, None)
        | Datatypes.S k' =>
            let v' := s_add so v alpha in
            let a' := map_assign go [] v' a in
            (if s_is_zero so v' then map_erase go [] a' else a', Some k')
        end
    end.

(** operator-=(S const& alpha): expression.hpp l.407-421; make_const(0) first *)
Definition sub_const_c (k : nat) (a : emap) (alpha : S) : outcome :=
  match k with
  | O => (a, None)
  | Datatypes.S k0 =>
      if s_is_zero so alpha then (a, Some k0)
      else
        match map_find go [] a with
        | None =>
            match k0 with
            | Datatypes.S (Datatypes.S k') =>
                (fst (map_emplace go [] (s_sub so (s_zero so) alpha) a), Some k')
            | _ => (a, None)
            end
        | Some v =>
            match k0 with
            | O => (a, None)
            | Datatypes.S k' =>
                let v' := s_sub so v alpha in
                let a' := map_assign go [] v' a in
                (if s_is_zero so v' then map_erase go [] a' else a', Some k')
            end
        end
  end.

(** operator=(expression<S> const&): expression.hpp l.122-132: clear(), then
    one emplace (with the conversion) per monomial *)
Fixpoint emplace_all_c {T : Type} (mo : mixed_ops S T) (k : nat) (x : list (mono * T)) (e : emap)
  {struct x} : outcome :=
  match x with
  | [] => (e, Some k)
  | p :: x' =>
      match k with
      | O => (e, None)
      | Datatypes.S k' => emplace_all_c mo k' x' (fst (map_emplace go (fst p) (mx_conv mo (snd p)) e))
      end
  end.
Definition assign_from_c {T : Type} (mo : mixed_ops S T) (k : nat) (old : emap) (x : list (mono * T)) : outcome :=
  emplace_all_c mo k x [].

(** ** Programs: variables that hold expressions and statements that assign to one of them *)
Inductive rhs : Type :=
| RScalar (x : S)                       (* expression(x) *)
| RMono (x : S) (m : mono)              (* expression(x, m) *)
| RSum (j l : nat) | RDiff (j l : nat) | RProd (j l : nat)
| RNeg (j : nat) | RConj (j : nat) | RScale (j : nat) (x : S).
Inductive stmt : Type :=
| SAssign (i : nat) (r : rhs)           (* e_i = temporary: move assignment, noexcept, expression.hpp l.76 *)
| SAdd (i j : nat) | SSub (i j : nat) | SMul (i j : nat)
| SMulC (i : nat) (x : S) | SAddC (i : nat) (x : S) | SSubC (i : nat) (x : S).

Definition env : Type := nat -> emap.
Definition env_set (v : env) (i : nat) (e : emap) : env := fun j => if Nat.eqb j i then e else v j.

Definition eval_rhs (v : env) (r : rhs) : res emap :=
  match r with
  | RScalar x => Ok (e_const so x)
  | RMono x m => e_mono go so x m
  | RSum j l => Ok (e_add go so (v j) (v l))
  | RDiff j l => Ok (e_sub go so (v j) (v l))
  | RProd j l => e_mul go so (v j) (v l)
  | RNeg j => Ok (e_neg so (v j))
  | RConj j => e_conj go so (v j)
  | RScale j x => Ok (e_mul_const_post so (v j) x)
  end.

(** A statement with its crash point; exceptions are caught and the program
    goes on.  [None]: undefined behaviour.  The computation of a temporary is
    one crash point. *)
Definition exec (k : nat) (s : stmt) (v : env) : option env :=
  match s with
  | SAssign i r =>
      match k, eval_rhs v r with
      | Datatypes.S _, Ok e => Some (env_set v i e)
      | Datatypes.S _, Bad => None
      | _, _ => Some v
      end
  | SAdd i j => Some (env_set v i (fst (add_assign_c k (v i) (v j))))
  | SSub i j => Some (env_set v i (fst (sub_assign_c k (v i) (v j))))
  | SMul i j => option_map (fun o => env_set v i (fst o)) (mul_assign_c k (v i) (v j))
  | SMulC i x => Some (env_set v i (fst (mul_const_c k (v i) x)))
  | SAddC i x => Some (env_set v i (fst (add_const_c k (v i) x)))
  | SSubC i x => Some (env_set v i (fst (sub_const_c k (v i) x)))
  end.

(** A program run: statements with crash points; all variables start as
    default constructed (zero) expressions *)
Fixpoint exec_all (p : list (nat * stmt)) (v : env) : option env :=
  match p with
  | [] => Some v
  | (k, s) :: p' => match exec k s v with Some v' => exec_all p' v' | None => None end
  end.
Definition env0 : env := fun _ => [].
End Crash.
Arguments SAssign {G S} _ _.
Arguments SAdd {G S} _ _.
Arguments SSub {G S} _ _.
Arguments SMul {G S} _ _.
Arguments SMulC {G S} _ _.
Arguments SAddC {G S} _ _.
Arguments SSubC {G S} _ _.
Arguments RScalar {G S} _.
Arguments RMono {G S} _ _.
Arguments RSum {G S} _ _.
Arguments RDiff {G S} _ _.
Arguments RProd {G S} _ _.
Arguments RNeg {G S} _.
Arguments RConj {G S} _.
Arguments RScale {G S} _ _.
