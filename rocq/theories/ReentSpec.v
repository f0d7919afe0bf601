(** Specification vocabulary for C73 *)
From Coq Require Import NArith List Bool.
From Verif Require Import ExprModel RankModel SectorModel ReentModel.
Import ListNotations.
Open Scope N_scope.
Open Scope list_scope.

(** the states a generator can be in after any sequence of calls of its member
    functions, e.g. in the middle of a loop or after a loop left by an exception *)
Inductive gen_state {G} (ginit : G -> G) (gnext : G -> option (G * N)) (g0 : G) : G -> Prop :=
| gs_new : gen_state ginit gnext g0 g0
| gs_init : forall g, gen_state ginit gnext g0 g -> gen_state ginit gnext g0 (ginit g)
| gs_next : forall g g' x, gen_state ginit gnext g0 g -> gnext g = Some (g', x) -> gen_state ginit gnext g0 g'.

(** a functor that does not use the view *)
Definition leaves {G A S} (f : N -> S -> A -> fres A) : @functor G A S :=
  fun x s st => fmap (fun a => (fst st, a)) (f x s (snd st)).

(** a functor that runs [body] and then, if [nests], a loop with [inner] over the
    same view; [loop] is foreach over the view *)
Definition nesting {G A S} (loop : @functor G A S -> G * A -> fres (G * A))
  (body : N -> S -> A -> A) (nests : N -> S -> A -> bool) (inner : N -> S -> N -> S -> A -> fres A) : @functor G A S :=
  fun x s st =>
    let st1 := (fst st, body x s (snd st)) in
    if nests x s (snd st) then loop (leaves (inner x s)) st1 else FOk st1.

Section Nested.
Context {A S : Type} (is_zero : S -> bool) (get : A -> N -> option S).
Context (body : N -> S -> A -> A) (nests : N -> S -> A -> bool) (inner : N -> S -> N -> S -> A -> fres A).
(** what the functor [nesting] should do: a complete loop over the basis states
    [l]; the flag records that a loop was run *)
Definition full_call (l : list N) (x : N) (s : S) (t : A * bool) : fres (A * bool) :=
  let a1 := body x s (fst t) in
  if nests x s (fst t) then fmap (fun a => (a, true)) (visit is_zero get (inner x s) l 0 a1) else FOk (a1, snd t).
(** the rows are visited until one with a nested loop has been visited *)
Fixpoint rows_until_nested (l : list N) (rows : list (list N)) (k : N) (a : A) : fres A :=
  match rows with
  | [] => FOk a
  | r :: rs =>
      match visit is_zero (fun t => get (fst t)) (full_call l) r k (a, false) with
      | FOk (a', nested) => if nested then FOk a' else rows_until_nested l rs (k + N.of_nat (length r)) a'
      | FThrow (a', _) => FThrow a'
      | FBad => FBad
      end
  end.
End Nested.
