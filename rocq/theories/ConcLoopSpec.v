(** Specification vocabulary for C77 *)
From Coq Require Import NArith ZArith List Bool Arith Sorted.
From Verif Require Import BitsModel ExprModel ExprSpec ExprOrder HSModel HSSpec RankModel LOpModel SectorModel SectorSpec PropSector ViewModel ReentModel ReentSpec ConcLoopModel.
Import ListNotations.
Open Scope N_scope.
Open Scope list_scope.

(** [loops_over it o l]: [it] is foreach over an object of the library whose
    mutable members are in any state [o] left by earlier loops, and [l] are the
    basis states it stands for, in the documented order *)
Inductive loops_over : iter -> iobj -> list N -> Prop :=
(** an N-fermion sector view *)
| lo_sector : forall I (io : index_ops I) (h : hspace I) n rk w g l,
    index_order io -> hs_fresh io h -> hs_is_sparse h = Some false ->
    (length (modes (spaces h)) <= 62)%nat -> (n <= length (modes (spaces h)))%nat -> (0 < total_bits (spaces h))%nat ->
    ranking_algorithm rk -> make_sector_view rk h n = SOk w ->
    gen_state ug_reset ug_next (sector_gen w) g ->
    sector_basis_states h n = SOk l -> loops_over (sector_iter w) (OSector g) l
(** an N-fermion multisector view *)
| lo_multi : forall I (io : index_ops I) (h : hspace I) (ss : list (@sector_desc I)) rk w g l,
    index_order io -> hs_reachable io h -> hs_is_sparse h = Some false ->
    NoDup (flat_map sd_indices ss) ->
    (forall s i, In s ss -> In i (sd_indices s) -> In i (firstn 32 (modes (spaces h)))) ->
    (forall s, In s ss -> (sd_N s <= length (sd_indices s))%nat) -> (0 < total_bits (spaces h))%nat ->
    ranking_algorithm rk -> make_multi_view io rk h ss = SOk w ->
    gen_state mg_reset mg_next (multi_gen_of w) g ->
    multi_basis_states io h ss = SOk l -> loops_over (multi_iter w) (OMulti g) l
(** a sparse Hilbert space *)
| lo_space : forall I (io : index_ops I) (h : hspace I) s ind l,
    index_order io -> hs_reachable io h -> hs_fa h = Some s -> hs_dim h < 2 ^ 31 ->
    length ind = length (sfe_sizes s) ->
    StronglySorted N.lt l -> (forall x, In x l <-> valid_state (spaces h) x) -> loops_over (sparse_iter s) (OIndices ind) l
(** a compressed state view *)
| lo_comp : forall I (io : index_ops I) (h : hspace I) w ind l,
    index_order io -> hs_reachable io h -> 1 < hs_dim h < 2 ^ 31 -> comp_view_make io h = Some w ->
    length ind = length (sfe_sizes (cv_fa w)) ->
    StronglySorted N.lt l -> (forall x, In x l <-> valid_state (spaces h) x) -> loops_over (sparse_iter (cv_fa w)) (OIndices ind) l.
