(** * Matrices filled column by column through views
    The loops of examples/n_fermion_sectors.cpp (l.114-144 and l.150-202) and
    examples/spin1_heisenberg.cpp (l.64-101): a matrix of an operator in an
    N-fermion sector, in a multisector, or on a sparse space through compressed
    views.  [m0] is the uninitialised memory of the matrix (Eigen::MatrixXd
    Hmat(d, d) does not set its elements).

    Simplifications: the value type is any scalar type in place of double; the
    matrix may have either storage order; an exception, undefined behaviour and
    a rejected index all are [None];
    the loop counters are natural numbers (int in the code, d below 2^31); the vector psi is modelled as a new list in
    each iteration (it is a different object than Hmat). *)
From Coq Require Import NArith ZArith List Bool.
From Verif Require Import ExprModel HSModel RankModel LOpModel SectorModel ViewModel EigenModel.
Import ListNotations.
Open Scope N_scope.
Open Scope list_scope.

Section Matrix.
Context {I S : Type} (io : index_ops I) (so : scalar_ops S) (sq : N -> S) (half : Z -> S).
Notation mem := (list S).

(** psi = VectorXd::Zero(d); psi[i] = 1: n_fermion_sectors.cpp l.135-136, l.193-194;
    spin1_heisenberg.cpp l.90-93 *)
Definition basis_vec (d i : nat) : mem := list_set (repeat (s_zero so) d) i (s_one so).

(** for(int i = 0; i < d; ++i) ...: n_fermion_sectors.cpp l.133, l.191 *)
Fixpoint fill_cols (f : nat -> mem -> option mem) (l : list nat) (m : mem) : option mem :=
  match l with
  | [] => Some m
  | i :: t => match f i m with None => None | Some m' => fill_cols f t m' end
  end.

(** n_fermion_sectors.cpp l.119-144 *)
Definition sector_matrix (rk : ranking) (h : hspace I) (n : nat) (L : lop S) (o : storage) (m0 : mem) : option mem :=
  match sector_size h n, make_sector_view rk h n with
  | SOk size, SOk psi_view =>
      let d := N.to_nat size in
      fill_cols (fun i m =>
        match make_sector_view rk h n with (* l.139: make_nfs_view(Hmat.col(i), hs, N) *)
        | SOk col_view =>
            match sector_foreach so (eigen_sv so (ev_vector 0 d)) psi_view (basis_vec d i) with
            | SOk calls => lop_apply_to so sq half (sector_sv so (eigen_sv so (ev_col 0 o d d i)) col_view) L calls m (* l.143 *)
            | _ => None
            end
        | _ => None
        end) (seq 0 d) m0
  | _, _ => None
  end.

(** n_fermion_sectors.cpp l.176-202 *)
Definition multisector_matrix (rk : ranking) (h : hspace I) (ss : list (sector_desc (I := I))) (L : lop S) (o : storage) (m0 : mem) : option mem :=
  match multisector_size io h ss, make_multi_view io rk h ss with
  | SOk size, SOk psi_view =>
      let d := N.to_nat size in
      fill_cols (fun i m =>
        match make_multi_view io rk h ss with
        | SOk col_view =>
            match multi_foreach so (eigen_sv so (ev_vector 0 d)) psi_view (basis_vec d i) with
            | SOk calls => lop_apply_to so sq half (multi_sv so (eigen_sv so (ev_col 0 o d d i)) col_view) L calls m
            | _ => None
            end
        | _ => None
        end) (seq 0 d) m0
  | _, _ => None
  end.

(** spin1_heisenberg.cpp l.64-101: the loop is foreach(hs, f); f computes the
    position of its argument with map_index() of the view of psi *)
Definition compressed_matrix (h : hspace I) (L : lop S) (o : storage) (m0 : mem) : option mem :=
  let d := N.to_nat (hs_dim h) in
  match comp_view_make io h with
  | None => None
  | Some psi_view =>
      hs_foreach h (fun k (r : option mem) =>
        match r, comp_map_index psi_view k, comp_view_make io h with
        | Some m, Some k_comp, Some col_view =>
            match comp_foreach so (eigen_sv so (ev_vector 0 d)) psi_view (basis_vec d (N.to_nat k_comp)) with
            | Some calls => lop_apply_to so sq half (comp_sv so (eigen_sv so (ev_col 0 o d d (N.to_nat k_comp))) col_view) L calls m
            | None => None
            end
        | _, _, _ => None
        end) (Some m0)
  end.
End Matrix.
