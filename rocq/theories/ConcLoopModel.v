(** * Model of foreach() loops run by several threads
    Sources: /repo/include/libcommute/loperator/hilbert_space.hpp (l.46-109,
    l.369-378), compressed_state_view.hpp (l.172-190),
    n_fermion_sector_view.hpp (l.387-440, l.557-592, l.710-784, l.944-984).
    All these loops are over const objects, but their state is partly kept in
    mutable members of the object.  One step of a thread is the initialisation
    of the loop, a test of its condition, a call of next(), one iteration of the
    inner loop with the call of the functor, or the update at the end of an
    iteration; steps of different threads are interleaved in any order. *)
From Coq Require Import NArith ZArith List Bool Arith.
From Verif Require Import BitsModel ExprModel HSModel DSModel RankModel LOpModel SectorModel ViewModel ReentModel.
Import ListNotations.
Open Scope N_scope.
Open Scope list_scope.

(** the mutable members of one object *)
Inductive iobj :=
| OSector (g : unranking_generator)   (* n_fermion_sector_view::unranking *)
| OMulti (g : multi_gen)              (* n_fermion_multisector_view::unranking *)
| OIndices (l : list N).              (* sparse_foreach_basis_state::indices_ *)

(** a loop; the pair of numbers are its local variables *)
Record iter := mk_iter {
  it_skip : bool;                                     (* return at once *)
  it_init : iobj -> option (iobj * (N * N));
  it_done : iobj -> N * N -> option bool;
  it_fetch : iobj -> N * N -> option (iobj * N);
  it_row : N -> option (list N);                      (* states of the inner loop *)
  it_post : iobj -> N * N -> option (iobj * (N * N)) }.

(** foreach(n_fermion_sector_view const&, f): l.557-592 *)
Definition sector_iter (w : sector_view) : iter := {|
  it_skip := (pM (vw_params w) =? 0)%nat && Z.eqb (vw_nonf w) 0;
  it_init := fun o => match o with OSector g => Some (OSector (ug_reset g), (0, 0)) | _ => None end;
  it_done := fun o _ => match o with OSector g => Some (ug_done g) | _ => None end;
  it_fetch := fun o _ => match o with OSector g => option_map (fun r => (OSector (fst r), snd r)) (ug_next g) | _ => None end;
  it_row := fun u => match pow2 (Z.to_nat (vw_nonf w)) with
                     | None => None
                     | Some d => Some (map (fun nf => w64 (u + w64 (N.shiftl nf (N.of_nat (pM (vw_params w)))))) (count_to d))
                     end;
  it_post := fun o v => Some (o, v) |}.
(** foreach(n_fermion_multisector_view const&, f): l.944-984 *)
Definition multi_iter (w : multi_view) : iter := {|
  it_skip := match mv_params w with [] => Z.eqb (mv_M w) 0 | _ => false end;
  it_init := fun o => match o with OMulti g => Some (OMulti (mg_reset g), (0, 0)) | _ => None end;
  it_done := fun o _ => match o with OMulti g => Some (mg_done g) | _ => None end;
  it_fetch := fun o _ => match o with OMulti g => option_map (fun r => (OMulti (fst r), snd r)) (mg_next g) | _ => None end;
  it_row := fun u => match pow2 (Z.to_nat (mv_M w)) with
                     | None => None
                     | Some d => option_map (map (fun x => w64 (u + x))) (omap (fun k => deposit_bits k (mv_mask w)) (count_to d))
                     end;
  it_post := fun o v => Some (o, v) |}.
(** sparse_foreach_basis_state::operator(): hilbert_space.hpp l.93-109, used by
    foreach over sparse Hilbert spaces and over compressed_state_view; the local
    variables are (i, state) *)
Definition sparse_iter (s : sfe) : iter := {|
  it_skip := false;
  it_init := fun o => match o with OIndices l => Some (OIndices (map (fun _ => 0) l), (0, 0)) | _ => None end;
  it_done := fun o v => match o with OIndices _ => Some (negb (fst v <? sfe_n s)) | _ => None end;
  it_fetch := fun o v => match o with OIndices l => Some (OIndices l, snd v) | _ => None end;
  it_row := fun u => Some [u];
  it_post := fun o v =>
    match o with
    | OIndices (i0 :: r) =>
        let (ind, st) := sfe_carry (i0 + 1 :: r) (sfe_sizes s) (sfe_jumps s) (w64 (snd v + 1)) in
        Some (OIndices ind, (w64 (fst v + 1), st))
    | _ => None
    end |}.

(** where a thread is *)
Inductive pc :=
| PStart
| PTest (v : N * N) (k : N)                  (* k: number of elements read *)
| PFetch (v : N * N) (k : N)
| PRow (v : N * N) (xs : list N) (k : N)
| PDone | PThrown | PBad.

(** a thread: the loop, the object it is over, the element access, the functor
    and the private data of the functor *)
Record cthread (A S : Type) := mk_cthread {
  ct_iter : iter; ct_obj : nat;
  ct_zero : S -> bool; ct_get : A -> N -> option S; ct_fun : N -> S -> A -> fres A;
  ct_pc : pc; ct_data : A }.
Arguments mk_cthread {A S} _ _ _ _ _ _ _.
Arguments ct_iter {A S} _.
Arguments ct_obj {A S} _.
Arguments ct_zero {A S} _.
Arguments ct_get {A S} _.
Arguments ct_fun {A S} _.
Arguments ct_pc {A S} _.
Arguments ct_data {A S} _.
Definition at_pc {A S} (t : cthread A S) (p : pc) (a : A) : cthread A S :=
  mk_cthread (ct_iter t) (ct_obj t) (ct_zero t) (ct_get t) (ct_fun t) p a.

Definition cstep {A S} (t : cthread A S) (o : iobj) : cthread A S * iobj :=
  let it := ct_iter t in
  let a := ct_data t in
  match ct_pc t with
  | PStart =>
      if it_skip it then (at_pc t PDone a, o)
      else match it_init it o with
           | Some (o', v) => (at_pc t (PTest v 0) a, o')
           | None => (at_pc t PBad a, o)
           end
  | PTest v k =>
      match it_done it o v with
      | Some true => (at_pc t PDone a, o)
      | Some false => (at_pc t (PFetch v k) a, o)
      | None => (at_pc t PBad a, o)
      end
  | PFetch v k =>
      match it_fetch it o v with
      | None => (at_pc t PBad a, o)
      | Some (o', u) =>
          match it_row it u with
          | Some xs => (at_pc t (PRow v xs k) a, o')
          | None => (at_pc t PBad a, o')
          end
      end
  | PRow v [] k =>
      match it_post it o v with
      | Some (o', v') => (at_pc t (PTest v' k) a, o')
      | None => (at_pc t PBad a, o)
      end
  | PRow v (x :: xs) k =>
      match ct_get t a k with
      | None => (at_pc t PBad a, o)
      | Some s =>
          if ct_zero t s then (at_pc t (PRow v xs (k + 1)) a, o)
          else match ct_fun t x s a with
               | FOk a' => (at_pc t (PRow v xs (k + 1)) a', o)
               | FThrow a' => (at_pc t PThrown a', o)
               | FBad => (at_pc t PBad a, o)
               end
      end
  | PDone | PThrown | PBad => (t, o)
  end.

(** a schedule is the list of the threads that make the next step *)
Fixpoint crun {A S} (objs : list iobj) (ts : list (cthread A S)) (sch : list nat) : list iobj * list (cthread A S) :=
  match sch with
  | [] => (objs, ts)
  | i :: sch' =>
      match nth_error ts i with
      | None => crun objs ts sch'
      | Some t =>
          match nth_error objs (ct_obj t) with
          | None => crun objs ts sch'
          | Some o => let r := cstep t o in crun (DSModel.upd objs (ct_obj t) (snd r)) (DSModel.upd ts i (fst r)) sch'
          end
      end
  end.

(** how the loop of a thread has ended *)
Definition outcome {A S} (t : cthread A S) : option (fres A) :=
  match ct_pc t with
  | PDone => Some (FOk (ct_data t))
  | PThrown => Some (FThrow (ct_data t))
  | PBad => Some FBad
  | _ => None
  end.
