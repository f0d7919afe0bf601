(** * StateVector interface for Eigen 3 types: state_vector_eigen3.hpp
    An Eigen vector, segment of a vector, column of a matrix, Nx1-submatrix or
    Map refers to elements of a block of memory; the n-th one is found at
    offset + n * stride.  Several of them may refer to the same memory, which is
    modelled as one list.

    Simplifications: Eigen itself is modelled by the positions of the elements
    only; sizes are below 2^63. *)
From Coq Require Import NArith ZArith List Bool.
From Verif Require Import ExprModel HSModel LOpModel.
Import ListNotations.
Open Scope N_scope.
Open Scope list_scope.

Record ev : Type := mk_ev { ev_off : nat; ev_stride : nat; ev_len : N }.
Definition ev_addr (w : ev) (n : N) : nat := (ev_off w + N.to_nat n * ev_stride w)%nat.

(** storage order of a matrix with R rows and C columns *)
Inductive storage : Type := ColMajor | RowMajor.
Section Types.
Context (p : nat) (o : storage) (R C : nat). (* p: position of the first element *)
(** Matrix<ScalarType, Rows, 1> (l.37-45) and Map<Matrix<ScalarType, Rows, 1>> (l.84-96) *)
Definition ev_vector (n : nat) : ev := mk_ev p 1 (N.of_nat n).
(** VectorBlock (l.47-56): v.segment(k, n) *)
Definition ev_segment (k n : nat) : ev := mk_ev (p + k) 1 (N.of_nat n).
(** Block<XprType, BlockRows, 1> (l.58-68): m.col(j) *)
Definition ev_col (j : nat) : ev :=
  match o with ColMajor => mk_ev (p + j * R) 1 (N.of_nat R) | RowMajor => mk_ev (p + j) C (N.of_nat R) end.
(** Block<XprType, BlockRows, Dynamic> with one column (l.70-82): m.block(i, j, n, 1) *)
Definition ev_block (i j n : nat) : ev :=
  match o with ColMajor => mk_ev (p + j * R + i) 1 (N.of_nat n) | RowMajor => mk_ev (p + i * C + j) C (N.of_nat n) end.
End Types.

Section Eigen.
Context {S : Type} (so : scalar_ops S).
Notation mem := (list S).

(** get_element: l.102-106, l.146-152.  [None]: outside of the vector, or of the memory *)
Definition eg_get (w : ev) (m : mem) (n : N) : option S :=
  if n <? ev_len w then nth_error m (ev_addr w n) else None.
(** update_add_element: l.108-112, l.154-161 *)
Definition eg_add (w : ev) (m : mem) (n : N) (x : S) : option mem :=
  if n <? ev_len w then list_update so m (ev_addr w n) x else None.
(** set_zeros: l.114-117, setZero() assigns all elements.  (Elements outside of
    the memory are ignored here; the theorems assume that there are none.) *)
Fixpoint list_set (m : mem) (k : nat) (x : S) : mem :=
  match m, k with
  | [], _ => []
  | _ :: t, O => x :: t
  | a :: t, Datatypes.S k' => a :: list_set t k' x
  end.
Definition eg_zero (w : ev) (m : mem) : mem :=
  fold_left (fun m n => list_set m (ev_addr w (N.of_nat n)) (s_zero so)) (seq 0 (N.to_nat (ev_len w))) m.
(** zeros_like: l.119-126; a new vector (Matrix<Scalar, Dynamic, 1>) *)
Definition eg_zeros_like (w : ev) : mem := repeat (s_zero so) (N.to_nat (ev_len w)).
(** foreach: l.128-139, l.163-177, the functor not changing the memory *)
Definition eg_entries (w : ev) (m : mem) : list (N * S) :=
  flat_map (fun n => let a := nth (ev_addr w (N.of_nat n)) m (s_zero so) in
                     if s_is_zero so a then [] else [(N.of_nat n, a)]) (seq 0 (N.to_nat (ev_len w))).
Definition eigen_sv (w : ev) : sv_ops mem S := mk_sv (fun m l => l = eg_entries w m) (eg_get w) (eg_add w) (eg_zero w).

(** ** loperator::operator()(src, dst), loperator.hpp l.109-115, with src and dst
    in the same memory *)
Context (sq : N -> S) (half : Z -> S).
(** the inner loop of act_impl (loperator.hpp l.134-143); [a] is a reference to an element of
    src, so that it is read in each iteration *)
Fixpoint eg_monos (L : lop S) (src dst : ev) (in_index : N) (m : mem) : option mem :=
  match L with
  | [] => Some m
  | (acts, c) :: t =>
      match mono_run so sq half acts in_index (s_one so) with
      | ABad => None
      | AZero => eg_monos t src dst in_index m
      | AVal k index =>
          match eg_get src m in_index with
          | None => None
          | Some a => match eg_add dst m index (s_mul so (s_mul so c k) a) with
                      | None => None
                      | Some m' => eg_monos t src dst in_index m'
                      end
          end
      end
  end.
(** foreach(src, ...) of loperator.hpp l.133 *)
Fixpoint eg_loop (L : lop S) (src dst : ev) (ns : list nat) (m : mem) : option mem :=
  match ns with
  | [] => Some m
  | n :: t =>
      match eg_get src m (N.of_nat n) with
      | None => None
      | Some a => if s_is_zero so a then eg_loop L src dst t m
                  else match eg_monos L src dst (N.of_nat n) m with
                       | None => None
                       | Some m' => eg_loop L src dst t m'
                       end
      end
  end.
Definition eg_apply_to (L : lop S) (src dst : ev) (m : mem) : option mem :=
  eg_loop L src dst (seq 0 (N.to_nat (ev_len src))) (eg_zero dst m).
End Eigen.
