(** * Model of foreach() over sector views as a loop over shared mutable state
    Source: /repo/include/libcommute/loperator/n_fermion_sector_view.hpp
    The generator of unranked states is a data member of the view with mutable
    fields (l.395-399, l.725-733), so a functor that uses the same view sees and
    changes the state of the running loop. *)
From Coq Require Import NArith ZArith List Bool Arith.
From Verif Require Import BitsModel ExprModel HSModel RankModel LOpModel SectorModel.
Import ListNotations.
Open Scope N_scope.
Open Scope list_scope.

(** the end of a piece of code: normal, by an exception (both with the state
    reached), undefined behaviour (or no end within the given number of
    iterations) *)
Inductive fres (T : Type) : Type := FOk (t : T) | FThrow (t : T) | FBad.
Arguments FOk {T} _.
Arguments FThrow {T} _.
Arguments FBad {T}.
Definition fmap {T U} (h : T -> U) (r : fres T) : fres U :=
  match r with FOk t => FOk (h t) | FThrow t => FThrow (h t) | FBad => FBad end.

(** the inner loop of foreach: l.574-590, l.961-982.  [xs] are the basis states
    of the loop, [get t k] is get_element(view.state_vector, k) in the program
    state t, [f] the functor. *)
Fixpoint visit {T S} (is_zero : S -> bool) (get : T -> N -> option S) (f : N -> S -> T -> fres T)
  (xs : list N) (k : N) (t : T) : fres T :=
  match xs with
  | [] => FOk t
  | x :: r =>
      match get t k with
      | None => FBad
      | Some s =>
          if is_zero s then visit is_zero get f r (k + 1) t
          else match f x s t with FOk t' => visit is_zero get f r (k + 1) t' | e => e end
      end
  end.

(** the outer loop while(!done()) { u = next(); ... } of foreach: l.572-591,
    l.959-983.  The program state is (generator of the view, rest). *)
Section Loop.
Context {G A S : Type} (is_zero : S -> bool) (get : A -> N -> option S).
Context (gdone : G -> bool) (gnext : G -> option (G * N)) (row : N -> list N).
Definition functor : Type := N -> S -> G * A -> fres (G * A).
Fixpoint fe_rows (fuel : nat) (f : functor) (k : N) (st : G * A) : fres (G * A) :=
  if gdone (fst st) then FOk st
  else
    match fuel with
    | O => FBad
    | Datatypes.S n =>
        match gnext (fst st) with
        | None => FBad
        | Some (g', u) =>
            match visit is_zero (fun p => get (snd p)) f (row u) k (g', snd st) with
            | FOk st' => fe_rows n f (k + N.of_nat (length (row u))) st'
            | e => e
            end
        end
    end.
End Loop.

(** foreach(n_fermion_sector_view const&, f): l.557-592 *)
Definition sector_foreach_st {A S} (so : scalar_ops S) (get : A -> N -> option S) (fuel : nat) (w : sector_view)
  (f : @functor unranking_generator A S) (st : unranking_generator * A) : fres (unranking_generator * A) :=
  if (pM (vw_params w) =? 0)%nat && Z.eqb (vw_nonf w) 0 then FOk st
  else
    match pow2 (Z.to_nat (vw_nonf w)) with
    | None => FBad
    | Some d =>
        fe_rows (s_is_zero so) get ug_done ug_next
          (fun u => map (fun nf => w64 (u + w64 (N.shiftl nf (N.of_nat (pM (vw_params w)))))) (count_to d))
          fuel f 0 (ug_reset (fst st), snd st)
    end.
(** foreach(n_fermion_multisector_view const&, f): l.944-984 (deposit_bits of the
    counters, l.977-979, is written once) *)
Definition multi_foreach_st {A S} (so : scalar_ops S) (get : A -> N -> option S) (fuel : nat) (w : multi_view)
  (f : @functor multi_gen A S) (st : multi_gen * A) : fres (multi_gen * A) :=
  match mv_params w, Z.eqb (mv_M w) 0 with
  | [], true => FOk st
  | _, _ =>
      match pow2 (Z.to_nat (mv_M w)) with
      | None => FBad
      | Some d =>
          match omap (fun k => deposit_bits k (mv_mask w)) (count_to d) with
          | None => FBad
          | Some ds =>
              fe_rows (s_is_zero so) get mg_done mg_next (fun u => map (fun x => w64 (u + x)) ds)
                fuel f 0 (mg_reset (fst st), snd st)
          end
      end
  end.
(** the generators of new views: l.493, l.858 *)
Definition sector_gen (w : sector_view) : unranking_generator := unranking_generator_init (vw_params w).
Definition multi_gen_of (w : multi_view) : multi_gen := multi_gen_make (mv_params w).
