(** * Model of disjoint_sets
    Source: /repo/include/libcommute/loperator/disjoint_sets.hpp

    Elements (std::size_t) are [nat].  A failed [assert] / out-of-bounds access is
    [None]; exhausted fuel is also [None] (proved unreachable for structures built
    through the interface). *)
From Coq Require Import List Bool Arith.
Import ListNotations.

Definition dbind {A B} (o : option A) (f : A -> option B) : option B :=
  match o with Some a => f a | None => None end.
Notation "'dlet' x <- o ; e" := (dbind o (fun x => e)) (at level 200, x name, o at level 100, e at level 200).

(** write to a vector element (index in bounds) *)
Fixpoint upd {A} (l : list A) (i : nat) (v : A) : list A :=
  match l, i with
  | [], _ => []
  | _ :: l', O => v :: l'
  | a :: l', S i' => a :: upd l' i' v
  end.

(** disjoint_sets.hpp:31-33: data members *)
Record dsets := { parents : list nat; ranks : list nat; n_sets : nat }.

(** :36-39 constructor: n singletons *)
Definition ds_init (n : nat) : dsets :=
  {| parents := seq 0 n; ranks := repeat 0 n; n_sets := n |}.

(** :61 size() *)
Definition ds_size (d : dsets) : nat := length (parents d).

(** :42-47 make_set() *)
Definition make_set (d : dsets) : dsets * nat :=
  ({| parents := parents d ++ [ds_size d]; ranks := ranks d ++ [0]; n_sets := n_sets d + 1 |}, ds_size d).

(** :50-58 make_sets(n): the loop pushes size() n times *)
Fixpoint push_singletons (n : nat) (ps : list nat) : list nat :=
  match n with O => ps | S n' => push_singletons n' (ps ++ [length ps]) end.
Definition make_sets (d : dsets) (n : nat) : dsets :=
  {| parents := push_singletons n (parents d); ranks := ranks d ++ repeat 0 n; n_sets := n_sets d + n |}.

(** :67-74 find_root(x) with path compression; returns the updated parents and the root *)
Fixpoint find_root_fuel (fuel : nat) (ps : list nat) (x : nat) : option (list nat * nat) :=
  dlet p <- nth_error ps x;
  dlet pp <- nth_error ps p;
  if pp =? p then Some (ps, p)
  else match fuel with
       | O => None
       | S f => dlet r <- find_root_fuel f ps p;
                Some (upd (fst r) x (snd r), snd r)
       end.
Definition find_root (d : dsets) (x : nat) : option (dsets * nat) :=
  dlet r <- find_root_fuel (ds_size d) (parents d) x;
  Some ({| parents := fst r; ranks := ranks d; n_sets := n_sets d |}, snd r).

(** :77-81 in_same_set(x, y) *)
Definition in_same_set (d : dsets) (x y : nat) : option (dsets * bool) :=
  dlet r1 <- find_root d x;
  dlet r2 <- find_root (fst r1) y;
  Some (fst r2, snd r1 =? snd r2).

(** :84-100 root_union(x, y); the asserts on bounds and on x, y being roots are [None].
    std::size_t n_sets_ is decremented unconditionally. *)
Definition root_union (d : dsets) (x y : nat) : option (dsets * nat) :=
  dlet px <- nth_error (parents d) x;
  dlet py <- nth_error (parents d) y;
  if negb ((px =? x) && (py =? y)) then None
  else
    dlet xr <- nth_error (ranks d) x;
    dlet yr <- nth_error (ranks d) y;
    let '(x', y') := if xr <? yr then (y, x) else (x, y) in
    let rk := if xr =? yr then upd (ranks d) x (xr + 1) else ranks d in
    Some ({| parents := upd (parents d) y' x'; ranks := rk; n_sets := n_sets d - 1 |}, x').

(** :103-107 set_union(x, y) *)
Definition set_union (d : dsets) (x y : nat) : option (dsets * nat) :=
  dlet r1 <- find_root d x;
  dlet r2 <- find_root (fst r1) y;
  if snd r1 =? snd r2 then Some (fst r2, snd r1)
  else root_union (fst r2) (snd r1) (snd r2).

(** :110-113 compress_sets(): range-for over the (concurrently modified) parents_ *)
Fixpoint compress_loop (cnt i : nat) (d : dsets) : option dsets :=
  match cnt with
  | O => Some d
  | S c => dlet p <- nth_error (parents d) i;
           dlet r <- find_root d p;
           compress_loop c (S i) (fst r)
  end.
Definition compress_sets (d : dsets) : option dsets := compress_loop (ds_size d) 0 d.

(** :116-126 normalize_sets() *)
Fixpoint normalize_loop (cnt x : nat) (ps : list nat) : option (list nat) :=
  match cnt with
  | O => Some ps
  | S c =>
      dlet p <- nth_error ps x;
      dlet pp <- nth_error ps p;
      normalize_loop c (S x)
        (if (p <? x) || negb (pp =? p) then upd ps x pp
         else upd (upd ps p x) x x)
  end.
Definition normalize_sets (d : dsets) : option dsets :=
  dlet ps <- normalize_loop (ds_size d) 0 (parents d);
  Some {| parents := ps; ranks := ranks d; n_sets := n_sets d |}.

(** Operation histories *)
Inductive ds_op :=
| DMakeSet | DMakeSets (n : nat) | DFind (x : nat) | DSame (x y : nat)
| DRootUnion (x y : nat) | DUnion (x y : nat) | DCompress | DNormalize.

Definition ds_step (d : dsets) (o : ds_op) : option dsets :=
  match o with
  | DMakeSet => Some (fst (make_set d))
  | DMakeSets n => Some (make_sets d n)
  | DFind x => option_map fst (find_root d x)
  | DSame x y => option_map fst (in_same_set d x y)
  | DRootUnion x y => option_map fst (root_union d x y)
  | DUnion x y => option_map fst (set_union d x y)
  | DCompress => compress_sets d
  | DNormalize => normalize_sets d
  end.
Fixpoint ds_run (d : dsets) (l : list ds_op) : option dsets :=
  match l with [] => Some d | o :: l' => dlet d' <- ds_step d o; ds_run d' l' end.
