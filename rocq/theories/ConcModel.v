(** * Model of find_root() and in_same_set() called from several threads
    Source: /repo/include/libcommute/loperator/disjoint_sets.hpp
    Both functions are const, but find_root writes the mutable member parents_
    (l.31, l.71).  Every read and every write of an element of parents_ is one
    atomic step, steps of different threads are interleaved in any order
    (sequential consistency; the C++ standard gives no meaning to the program when
    such accesses are in a race, see [race]). *)
From Coq Require Import List Bool Arith.
From Verif Require Import DSModel.
Import ListNotations.

(** :67-74 a call of find_root between two accesses of parents_.  [st] are the
    arguments of the calls that wait for the result of the recursive call, the
    innermost first. *)
Inductive fstate :=
| FCall (x : nat) (st : list nat)     (* about to read parents_[x], l.69 *)
| FTest (x p : nat) (st : list nat)   (* about to read parents_[p], l.70 *)
| FRet (r : nat) (st : list nat).     (* a call has returned r: about to write parents_[x] = r, l.71, or to return to the user *)

(** the memory access of the next step: (is it a write?, element of parents_) *)
Definition next_access (s : fstate) : option (bool * nat) :=
  match s with
  | FCall x _ => Some (false, x)
  | FTest _ p _ => Some (false, p)
  | FRet _ (x :: _) => Some (true, x)
  | FRet _ [] => None
  end.

(** one step: the new parents_ and the new state of the call or its result *)
Definition fstep (ps : list nat) (s : fstate) : option (list nat * (fstate + nat)) :=
  match s with
  | FCall x st => dlet p <- nth_error ps x; Some (ps, inl (FTest x p st))
  | FTest x p st => dlet pp <- nth_error ps p; Some (ps, inl (if pp =? p then FRet p st else FCall p (x :: st)))
  | FRet r (x :: st) => if x <? length ps then Some (upd ps x r, inl (FRet r st)) else None
  | FRet r [] => Some (ps, inr r)
  end.

(** what a thread runs: a sequence of calls of find_root (l.67) and in_same_set (l.77) *)
Inductive query := QFind (x : nat) | QSame (x y : nat).
Inductive answer := ARoot (r : nat) | ASame (b : bool).
(** what is done with the result of the running find_root; in_same_set evaluates
    find_root(x) first, as in [DSModel.in_same_set] *)
Inductive cont := KFind | KSame1 (y : nat) | KSame2 (r : nat).
Record thread := mk_thread { cur : option (fstate * cont); todo : list query; out : list answer }.
Definition start (qs : list query) : thread := mk_thread None qs [].
Definition finished (t : thread) : bool :=
  match cur t, todo t with None, [] => true | _, _ => false end.

(** one step of a thread; a finished thread does nothing *)
Definition tstep (ps : list nat) (t : thread) : option (list nat * thread) :=
  match cur t with
  | None =>
      match todo t with
      | [] => Some (ps, t)
      | QFind x :: q => Some (ps, mk_thread (Some (FCall x [], KFind)) q (out t))
      | QSame x y :: q => Some (ps, mk_thread (Some (FCall x [], KSame1 y)) q (out t))
      end
  | Some (s, k) =>
      dlet r <- fstep ps s;
      Some (fst r,
        match snd r with
        | inl s' => mk_thread (Some (s', k)) (todo t) (out t)
        | inr v =>
            match k with
            | KFind => mk_thread None (todo t) (out t ++ [ARoot v])
            | KSame1 y => mk_thread (Some (FCall y [], KSame2 v)) (todo t) (out t)
            | KSame2 v1 => mk_thread None (todo t) (out t ++ [ASame (v1 =? v)])
            end
        end)
  end.

(** a schedule is the list of the threads that make the next step *)
Fixpoint conc_run (ps : list nat) (ts : list thread) (sch : list nat) : option (list nat * list thread) :=
  match sch with
  | [] => Some (ps, ts)
  | i :: sch' =>
      match nth_error ts i with
      | None => conc_run ps ts sch'
      | Some t => dlet r <- tstep ps t; conc_run (fst r) (upd ts i (snd r)) sch'
      end
  end.

(** two threads are about to access the same element, one of them writes *)
Definition t_access (t : thread) : option (bool * nat) :=
  match cur t with Some (s, _) => next_access s | None => None end.
Definition race (ts : list thread) : Prop :=
  exists i j ti tj x w, i <> j /\ nth_error ts i = Some ti /\ nth_error ts j = Some tj /\
    t_access ti = Some (true, x) /\ t_access tj = Some (w, x).
