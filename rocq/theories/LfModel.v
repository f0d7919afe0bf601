(** * linear_function: construction and set(), with arguments that may refer to the object itself
    (utility.hpp l.255-320).  var_number, linfun, vn_eqb, vn_is_zero and lf_vanishing are those of
    ExprModel. *)
From Coq Require Import List ZArith QArith.
From Verif Require Import ExprModel.
Import ListNotations.
Open Scope nat_scope.
Open Scope list_scope.

(** An argument of type var_number const& or T const&: a value of its own, or a reference to a member
    of the very object set() is called on: const_term, terms[k].second or terms[k].first.
    Simplified: the numbers and basis objects are copied, not moved. *)
Inductive narg : Type := NVal (v : var_number) | NConst | NCoef (k : nat).
Inductive garg (G : Type) : Type := GVal (g : G) | GOwn (k : nat).
Arguments GVal {G} g.
Arguments GOwn {G} k.

Section LF.
Context {G : Type}.

(** what the reference denotes while the object is in the state [f]; [None]: it denotes no live object *)
Definition read_n (f : linfun G) (a : narg) : option var_number :=
  match a with
  | NVal v => Some v
  | NConst => Some (const_term f)
  | NCoef k => option_map snd (nth_error (terms f) k)
  end.
Definition read_g (f : linfun G) (a : garg G) : option G :=
  match a with GVal g => Some g | GOwn k => option_map fst (nth_error (terms f) k) end.

(** The object while set() runs.  [l_live] is false once terms.clear() has ended the lifetimes of the
    old elements: a reference to one of them is dangling from then on (Simplified: it stays dangling when
    emplace_back reuses the memory.) *)
Record lfrun : Type := mk_lfrun { l_now : linfun G; l_live : bool }.
Definition run_n (s : lfrun) (a : narg) : res var_number :=
  match a with
  | NCoef k => if l_live s then match read_n (l_now s) a with Some v => Ok v | None => Bad end else Bad
  | _ => match read_n (l_now s) a with Some v => Ok v | None => Bad end
  end.
Definition run_g (s : lfrun) (a : garg G) : res G :=
  match a with
  | GOwn k => if l_live s then match read_g (l_now s) a with Some v => Ok v | None => Bad end else Bad
  | GVal g => Ok g
  end.

(** this->const_term = const_term;  l.284, l.290, l.294 *)
Definition assign_const (s : lfrun) (a : narg) : res lfrun :=
  rbind (run_n s a) (fun v => Ok (mk_lfrun (mk_linfun v (terms (l_now s))) (l_live s))).
(** terms.clear();  l.285, l.295 *)
Definition clear_terms (s : lfrun) : lfrun := mk_lfrun (mk_linfun (const_term (l_now s)) []) false.
(** construct_impl: l.309-318, one emplace_back per pair of arguments, in order *)
Fixpoint construct_impl (s : lfrun) (args : list (garg G * narg)) : res lfrun :=
  match args with
  | [] => Ok s
  | (g, a) :: t =>
      rbind (run_g s g) (fun x =>
      rbind (run_n s a) (fun v =>
      construct_impl (mk_lfrun (mk_linfun (const_term (l_now s)) (terms (l_now s) ++ [(x, v)])) (l_live s)) t))
  end.

(** the by-value parameter of set(c, std::vector): evaluated by the caller before the call, l.288-289 *)
Fixpoint read_terms (f : linfun G) (args : list (garg G * narg)) : option (list (G * var_number)) :=
  match args with
  | [] => Some []
  | (g, a) :: t =>
      match read_g f g, read_n f a, read_terms f t with
      | Some x, Some v, Some r => Some ((x, v) :: r)
      | _, _, _ => None
      end
  end.

Inductive lfop : Type :=
| SetArgs (c : narg) (args : list (garg G * narg))    (* set(c, g1, c1, ...): l.281-287 *)
| SetVec (c : narg) (v : list (garg G * narg))        (* set(c, std::vector{...}): l.288-292 *)
| SetConst (c : narg).                                (* set(c): l.293-296 *)

Definition lf_step (f : linfun G) (o : lfop) : res (linfun G) :=
  let s := mk_lfrun f true in
  match o with
  | SetArgs c args =>
      rbind (assign_const s c) (fun s1 => rbind (construct_impl (clear_terms s1) args) (fun s2 => Ok (l_now s2)))
  | SetVec c v =>
      match read_terms f v with
      | None => Bad
      | Some ts => rbind (assign_const s c) (fun s1 => Ok (mk_linfun (const_term (l_now s1)) ts))
      end
  | SetConst c => rbind (assign_const s c) (fun s1 => Ok (l_now (clear_terms s1)))
  end.

(** linear_function() l.262 and const_term = 0, l.304 *)
Definition lf_default : linfun G := mk_linfun (VInt 0) [].
(** the constructors l.263-275; the object does not exist yet, so no argument refers to it *)
Definition lf_construct (c : var_number) (ts : list (G * var_number)) : res (linfun G) :=
  rbind (construct_impl (mk_lfrun (mk_linfun c []) true) (map (fun t => (GVal (fst t), NVal (snd t))) ts))
        (fun s => Ok (l_now s)).

Fixpoint lf_run (f : linfun G) (p : list lfop) : res (linfun G) :=
  match p with [] => Ok f | o :: t => rbind (lf_step f o) (fun f' => lf_run f' t) end.
End LF.
