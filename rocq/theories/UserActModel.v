(** * Linear operators of user-defined algebras
    Sources: /repo/include/libcommute/loperator/loperator.hpp l.35-145 with a
    user-defined specialization of monomial_action<>, and the specialization of
    /repo/examples/gamma.loperator.cpp l.73-143 (gamma matrices). *)
From Coq Require Import NArith ZArith List Bool.
From Verif Require Import ExprModel LOpModel.
Import ListNotations.
Open Scope list_scope.

(** ** loperator<ScalarType, id> for a class monomial_action<id> whose objects
    are [A], constructed from a monomial by [make], with the method [act] *)
Section Generic.
Context {G A S V : Type} (so : scalar_ops S) (sv : sv_ops V S).
Context (make : list G -> A) (act : A -> N -> S -> ares S).

(** constructor: loperator.hpp l.44-55.  Simplification: [make] does not throw. *)
Definition ulop_make (e : list (list G * S)) : list (A * S) := map (fun p => (make (fst p), snd p)) e.

(** act_impl, the loop over m_actions: l.136-142 *)
Fixpoint ulop_monos (L : list (A * S)) (in_index : N) (a : S) (dst : V) : option V :=
  match L with
  | [] => Some dst
  | (m, c) :: t =>
      match act m in_index (s_one so) with
      | ABad => None
      | AZero => ulop_monos t in_index a dst
      | AVal k index =>
          match sv_add sv dst index (s_mul so (s_mul so c k) a) with
          | None => None
          | Some dst' => ulop_monos t in_index a dst'
          end
      end
  end.
(** foreach(src, ...): l.133-143 *)
Fixpoint ulop_entries (L : list (A * S)) (l : list (N * S)) (dst : V) : option V :=
  match l with
  | [] => Some dst
  | (x, a) :: t => match ulop_monos L x a dst with None => None | Some dst' => ulop_entries L t dst' end
  end.
(** operator()(sv): l.101-107 *)
Definition ulop_apply (L : list (A * S)) (v : V) (l : list (N * S)) : option V :=
  ulop_entries L l (sv_zero sv v).
End Generic.

(** ** monomial_action<gamma>: examples/gamma.loperator.cpp l.73-143 *)
Section Gamma.
Context {S : Type} (so : scalar_ops S) (iu : S). (* [iu] is the constant I, l.111 *)

(** constructor: l.82-90: indices, right to left *)
Definition gamma_action : Type := list Z.
Definition gamma_make (m : list Z) : gamma_action := rev m.

(** an access std::array<T, 4>{...}[index]; [None] is an access beyond the end *)
Definition array4 {T} (a b c d : T) (index : N) : option T :=
  match index with 0%N => Some a | 1%N => Some b | 2%N => Some c | 3%N => Some d | _ => None end.

(** one iteration of the loop: l.114-137 *)
Definition gamma_step (i : Z) (index : N) (coeff : S) : ares S :=
  let one := s_one so in
  let neg := s_neg so (s_one so) in
  let upd (f : option S) (next : option N) :=
    match f, next with Some k, Some y => AVal (s_mul so coeff k) y | _, _ => ABad end in
  if Z.eqb i 0 then upd (array4 one one neg neg index) (Some index)
  else if Z.eqb i 1 then upd (array4 neg neg one one index) (array4 3 2 1 0 index)%N
  else if Z.eqb i 2 then upd (array4 (s_neg so iu) iu iu (s_neg so iu) index) (array4 3 2 1 0 index)%N
  else if Z.eqb i 3 then upd (array4 neg one one neg index) (array4 2 3 0 1 index)%N
  else AVal coeff index. (* no case label matches *)

(** act(): l.108-142 *)
Fixpoint gamma_act (a : gamma_action) (index : N) (coeff : S) : ares S :=
  match a with
  | [] => AVal coeff index
  | i :: t => match gamma_step i index coeff with AVal c y => gamma_act t y c | r => r end
  end.
End Gamma.
