(** * Model of N-fermion sectors and multisectors
    Source: /repo/include/libcommute/loperator/n_fermion_sector_view.hpp
    (rankings and the single-sector unranking generator are in RankModel.v) *)
From Coq Require Import NArith ZArith List Bool Arith.
From Verif Require Import BitsModel ExprModel HSModel RankModel TrieModel LOpModel.
Import ListNotations.
Open Scope N_scope.
Open Scope list_scope.

(** success, std::runtime_error, failed assertion or undefined behaviour *)
Inductive sres (A : Type) : Type := SOk (a : A) | SThrow | SBad.
Arguments SOk {A} _.
Arguments SThrow {A}.
Arguments SBad {A}.
Definition sbind {A B} (r : sres A) (f : A -> sres B) : sres B :=
  match r with SOk a => f a | SThrow => SThrow | SBad => SBad end.
Definition of_opt {A} (o : option A) : sres A := match o with Some a => SOk a | None => SBad end.
Notation "'sdo' x <- o ; e" := (sbind o (fun x => e)) (at level 200, x name, o at level 100, e at level 200).

(** a ranking algorithm: its construction and operator() *)
Definition ranking : Type := sector_params -> option (N -> option N).
(** combination_ranking, staggered_ranking<R> (RankModel.v) and trie_ranking<R> (TrieModel.v) *)
Definition comb_ranking : ranking := fun p => Some (cr_rank (combination_ranking_init p)).
Definition stag_ranking (R : nat) : ranking := fun p => option_map sr_rank (staggered_ranking_init R p).
Definition trie_based_ranking (R : nat) : ranking := fun p => option_map trie_rank (trie_ranking_init R p).

(** all states returned by
      while(!g.done()) ... g.next() ...
    i.e. [total] iterations; [None]: undefined behaviour in next(), or no end *)
Definition ug_all (g : unranking_generator) : option (list N) :=
  match ug_run (N.to_nat (ug_total g)) g with
  | Some (g', l) => if ug_done g' then Some l else None
  | None => None
  end.

(** the values 0, 1, ..., k-1 of a loop counter *)
Definition count_to (k : N) : list N := map N.of_nat (seq 0 (N.to_nat k)).

Section Sector.
Context {I : Type} (io : index_ops I).

(** n_fermion_sector_params_t::init_m: l.86-96 *)
Definition sec_init_m (h : hspace I) : sres nat :=
  if hs_has_algebra h (-3) then
    match hs_algebra_bit_range h (-3) with
    | Some (lo, hi) => if Z.eqb lo 0 then SOk (Z.to_nat (hi - lo + 1)) else SBad (* assert *)
    | None => SThrow
    end
  else SOk 0%nat.
(** validated_n: l.112-119 *)
Definition validated_n (M n : nat) : sres nat := if (M <? n)%nat then SThrow else SOk n.
(** n_fermion_sector_params_t(hs, N): l.75-77 *)
Definition sec_params (h : hspace I) (n : nat) : sres sector_params :=
  sdo M <- sec_init_m h; sdo mask <- of_opt (pow2 M);
  sdo n' <- validated_n M n; SOk {| pM := M; pmask := mask - 1; pN := n' |}.

Definition sec_sparse (h : hspace I) : sres bool := of_opt (hs_is_sparse h).

(** n_fermion_sector_size: l.445-460 *)
Definition sector_size (h : hspace I) (n : nat) : sres N :=
  sdo sp <- sec_sparse h;
  if sp then SThrow
  else
    let T := hs_total_n_bits h in
    if Z.eqb T 0 then SOk 0
    else
      sdo M <- (if hs_has_algebra h (-3) then
                  match hs_algebra_bit_range h (-3) with
                  | Some (lo, hi) => SOk (Z.to_nat (hi - lo + 1))
                  | None => SThrow
                  end
                else SOk 0%nat);
      sdo d <- of_opt (pow2 (Z.to_nat (T - Z.of_nat M)));
      SOk (w64 (binomial M n * d)).

(** n_fermion_sector_view: data members other than the state vector, l.465-486 *)
Record sector_view : Type := mk_view {
  vw_params : sector_params; vw_rank : N -> option N; vw_fmask : N; vw_nonf : Z
}.
(** constructor: l.488-499; is_sparse() is tested last *)
Definition make_sector_view (rk : ranking) (h : hspace I) (n : nat) : sres sector_view :=
  sdo p <- sec_params h n; sdo r <- of_opt (rk p);
  sdo fm <- of_opt (pow2 (pM p));
  sdo sp <- sec_sparse h;
  if sp then SThrow else SOk (mk_view p r (fm - 1) (hs_total_n_bits h - Z.of_nat (pM p))%Z).

(** map_index: l.501-506 *)
Definition sector_map_index (v : sector_view) (index : N) : option N :=
  match vw_rank v (N.land index (vw_fmask v)) with
  | None => None
  | Some r => Some (w64 (w64 (N.shiftl r (Z.to_N (vw_nonf v))) + N.shiftr index (N.of_nat (pM (vw_params v)))))
  end.

(** the two nested loops of foreach (l.571-591) and
    n_fermion_sector_basis_states (l.615-621): the produced indices, in order *)
Definition sector_loop (p : sector_params) (nonf : Z) : sres (list N) :=
  sdo us <- of_opt (ug_all (ug_reset (unranking_generator_init p)));
  sdo d <- of_opt (pow2 (Z.to_nat nonf));
  SOk (flat_map (fun u => map (fun nf => w64 (u + w64 (N.shiftl nf (N.of_nat (pM p))))) (count_to d)) us).

(** n_fermion_sector_basis_states: l.594-624 *)
Definition sector_basis_states (h : hspace I) (n : nat) : sres (list N) :=
  sdo sp <- sec_sparse h;
  if sp then SThrow
  else
    sdo p <- sec_params h n;
    let nonf := (hs_total_n_bits h - Z.of_nat (pM p))%Z in
    if (pM p =? 0)%nat && Z.eqb nonf 0 then SOk []
    else sector_loop p nonf.

(** foreach(view, f): l.557-592.  [sv_get sv v] is get_element on the underlying
    vector; the result is the list of calls of f.  ([init()] makes the iteration
    independent of earlier ones, see ReentModel.v, which also models functors
    that use the view themselves.) *)
Fixpoint foreach_calls {V S} (so : scalar_ops S) (sv : sv_ops V S) (v : V) (xs : list N) (k : N) : option (list (N * S)) :=
  match xs with
  | [] => Some []
  | x :: t =>
      match sv_get sv v k with
      | None => None
      | Some a =>
          match foreach_calls so sv v t (k + 1) with
          | None => None
          | Some l => Some (if s_is_zero so a then l else (x, a) :: l)
          end
      end
  end.
Definition sector_foreach {V S} (so : scalar_ops S) (sv : sv_ops V S) (w : sector_view) (v : V) : sres (list (N * S)) :=
  if (pM (vw_params w) =? 0)%nat && Z.eqb (vw_nonf w) 0 then SOk []
  else sdo xs <- sector_loop (vw_params w) (vw_nonf w); of_opt (foreach_calls so sv v xs 0).

(** get_element l.520-527, update_add_element l.531-544 *)
Definition sector_get {V S} (sv : sv_ops V S) (w : sector_view) (v : V) (n : N) : option S :=
  match sector_map_index w n with None => None | Some k => sv_get sv v k end.
Definition sector_add {V S} (sv : sv_ops V S) (w : sector_view) (v : V) (n : N) (x : S) : option V :=
  match sector_map_index w n with None => None | Some k => sv_add sv v k x end.
(** the view as a state vector; set_zeros l.547-555 *)
Definition sector_sv {V S} (so : scalar_ops S) (sv : sv_ops V S) (w : sector_view) : sv_ops V S :=
  mk_sv (fun v l => sector_foreach so sv w v = SOk l) (sector_get sv w) (sector_add sv w) (sv_zero sv).

(** ** Multisectors *)

(** sector_descriptor: l.646-655; [sd_indices] is a std::set: sorted, no
    repetitions *)
Record sector_desc : Type := mk_sd { sd_indices : list I; sd_N : nat }.

(** validate_sectors: l.659-680 *)
Definition set_insert (i : I) (l : list I) : list I :=
  if existsb (i_eq io i) l then l else i :: l.
Definition validate_sectors (h : hspace I) (ss : list sector_desc) : bool :=
  forallb (fun s => forallb (fun i => hs_has io h (ESFermion i)) (sd_indices s)) ss &&
  (length (fold_left (fun acc i => set_insert i acc) (flat_map sd_indices ss) []) =?
   length (flat_map sd_indices ss))%nat.

(** init_mask: l.98-110; the return type is unsigned int *)
Fixpoint mask_loop (h : hspace I) (is : list I) (m : N) : sres N :=
  match is with
  | [] => SOk m
  | i :: t =>
      match hs_bit_range io h (ESFermion i) with
      | None => SThrow
      | Some (b, _) => sdo q <- of_opt (pow2 (Z.to_nat b)); mask_loop h t (w64 (m + q))
      end
  end.
Definition init_mask (h : hspace I) (s : sector_desc) : sres N :=
  sdo m <- mask_loop h (sd_indices s) 0; SOk (m mod 2 ^ 32).
(** n_fermion_sector_params_t(hs, sector): l.79-84 *)
Definition ms_params (h : hspace I) (s : sector_desc) : sres sector_params :=
  sdo mask <- init_mask h s; sdo n <- validated_n (length (sd_indices s)) (sd_N s);
  SOk {| pM := length (sd_indices s); pmask := mask; pN := n |}.
(** make_sector_params: l.684-698 *)
Fixpoint ms_params_all (h : hspace I) (ss : list sector_desc) : sres (list sector_params) :=
  match ss with
  | [] => SOk []
  | s :: t =>
      sdo p <- ms_params h s; sdo ps <- ms_params_all h t;
      SOk (if (pM p =? 0)%nat then ps else p :: ps)
  end.
Definition make_sector_params (h : hspace I) (ss : list sector_desc) : sres (list sector_params) :=
  if validate_sectors h ss then ms_params_all h ss else SThrow.

(** make_nonmultisector_mask: l.700-711; (mask, M) *)
Definition nonmulti_mask (h : hspace I) (ps : list sector_params) : sres (N * Z) :=
  sdo full <- of_opt (pow2 (Z.to_nat (hs_total_n_bits h)));
  SOk (fold_left (fun m p => sub64 m (pmask p)) ps (full - 1),
       fold_left (fun M p => (M - Z.of_nat (pM p))%Z) ps (hs_total_n_bits h)).

(** multisector_unranking_generator: l.714-789.  [mg_s] is the int member s. *)
Record multi_gen : Type := mk_mg {
  mg_params : list sector_params; mg_gens : list unranking_generator; mg_total : N;
  mg_i : N; mg_s : Z; mg_partial : list N
}.
(** constructor: l.736-746; the initial value 1 of std::accumulate makes the
    accumulator an int ([int_accumulate] in HSModel.v) *)
Definition multi_gen_make (ps : list sector_params) : multi_gen :=
  let gs := map unranking_generator_init ps in
  mk_mg ps gs (z_to_u64 (int_accumulate (map ug_total gs))) 0 0 (map (fun _ => 0) gs).
(** init(): l.748-753 *)
Definition mg_reset (g : multi_gen) : multi_gen :=
  mk_mg (mg_params g) (map ug_reset (mg_gens g)) (mg_total g) 0 0 (mg_partial g).

Fixpoint upd {A} (l : list A) (k : nat) (x : A) : list A :=
  match l, k with [], _ => [] | _ :: t, O => x :: t | a :: t, S k' => a :: upd t k' x end.

(** the while loop of next(): l.762-781, [None]: undefined behaviour or fuel
    exhausted *)
Fixpoint mg_loop (fuel : nat) (ps : list sector_params) (gs : list unranking_generator) (s : Z) (part : list N)
  : option (list unranking_generator * Z * list N) :=
  match fuel with
  | O => None
  | S f =>
      if (s <? 0)%Z then Some (gs, s, part)
      else
        match nth_error gs (Z.to_nat s), nth_error ps (Z.to_nat s) with
        | Some g, Some p =>
            if ug_done g then mg_loop f ps (upd gs (Z.to_nat s) (ug_reset g)) (s - 1) part
            else
              match ug_next g with
              | None => None
              | Some (g', x) =>
                  match deposit_bits x (pmask p),
                        (if Z.eqb s 0 then Some 0 else nth_error part (Z.to_nat (s - 1))) with
                  | Some val, Some prev =>
                      let gs' := upd gs (Z.to_nat s) g' in
                      let part' := upd part (Z.to_nat s) (w64 (prev + val)) in
                      if (s <? Z.of_nat (length gs) - 1)%Z then mg_loop f ps gs' (s + 1) part'
                      else Some (gs', s, part')
                  | _, _ => None
                  end
              end
        | _, _ => None
        end
  end.
(** next(): l.755-784.  Each sector is entered at most once and left at most once. *)
Definition mg_next (g : multi_gen) : option (multi_gen * N) :=
  match mg_gens g with
  | [] => Some (mk_mg (mg_params g) [] (mg_total g) (w64 (mg_i g + 1)) (-1) (mg_partial g), 0)
  | _ =>
      match mg_loop (3 * length (mg_gens g) + 1) (mg_params g) (mg_gens g) (mg_s g) (mg_partial g) with
      | None => None
      | Some (gs, s, part) =>
          Some (mk_mg (mg_params g) gs (mg_total g) (w64 (mg_i g + 1)) s part, last part 0)
      end
  end.
Definition mg_done (g : multi_gen) : bool := mg_i g =? mg_total g.
(** while(!g.done()) out.push_back(g.next()), stopped after n iterations *)
Fixpoint mg_run (n : nat) (g : multi_gen) : option (multi_gen * list N) :=
  match n with
  | O => Some (g, [])
  | S n' =>
      if mg_done g then Some (g, [])
      else match mg_next g with
           | None => None
           | Some (g', x) =>
               match mg_run n' g' with None => None | Some (g'', l) => Some (g'', x :: l) end
           end
  end.
Definition mg_all (g : multi_gen) : option (list N) :=
  match mg_run (N.to_nat (mg_total g)) g with
  | Some (g', l) => if mg_done g' then Some l else None
  | None => None
  end.

(** n_fermion_multisector_size: l.793-818 *)
Fixpoint ms_size_loop (ss : list sector_desc) (Mt : nat) (sz : N) : option (nat * N) :=
  match ss with
  | [] => Some (Mt, sz)
  | s :: t =>
      let M := length (sd_indices s) in
      if (M <? sd_N s)%nat then None
      else ms_size_loop t (Mt + M) (w64 (sz * binomial M (sd_N s)))
  end.
Definition multisector_size (h : hspace I) (ss : list sector_desc) : sres N :=
  sdo sp <- sec_sparse h;
  if sp then SThrow
  else if negb (validate_sectors h ss) then SThrow
  else if Z.eqb (hs_total_n_bits h) 0 then SOk 0
  else
    match ms_size_loop ss 0 1 with
    | None => SOk 0
    | Some (Mt, sz) =>
        sdo d <- of_opt (pow2 (Z.to_nat (hs_total_n_bits h - Z.of_nat Mt))); SOk (w64 (sz * d))
    end.

(** n_fermion_multisector_view: l.820-893 *)
Record multi_view : Type := mk_mv {
  mv_params : list sector_params; mv_ranks : list (N -> option N); mv_strides : list N;
  mv_M : Z; mv_mask : N
}.
(** init_sector_strides: l.880-892 *)
Fixpoint strides (ps : list sector_params) : list N :=
  match ps with
  | [] => []
  | [_] => [1]
  | _ :: ((q :: _) as t) =>
      match strides t with
      | s :: r => w64 (s * binomial (pM q) (pN q)) :: s :: r
      | [] => []
      end
  end.
(** constructor: l.849-864 *)
Definition make_multi_view (rk : ranking) (h : hspace I) (ss : list sector_desc) : sres multi_view :=
  sdo ps <- make_sector_params h ss;
  sdo rs <- of_opt (omap rk ps);
  sdo sp <- sec_sparse h;
  if sp then SThrow
  else sdo mm <- nonmulti_mask h ps; SOk (mk_mv ps rs (strides ps) (snd mm) (fst mm)).
(** map_index: l.866-877 *)
Fixpoint multi_index_loop (ps : list sector_params) (rs : list (N -> option N)) (st : list N) (index acc : N) : option N :=
  match ps, rs, st with
  | [], _, _ => Some acc
  | p :: ps', r :: rs', s :: st' =>
      match extract_bits index (pmask p) with
      | None => None
      | Some x => match r x with
                  | None => None
                  | Some k => multi_index_loop ps' rs' st' index (w64 (acc + w64 (k * s)))
                  end
      end
  | _, _, _ => None
  end.
Definition multi_map_index (v : multi_view) (index : N) : option N :=
  match multi_index_loop (mv_params v) (mv_ranks v) (mv_strides v) index 0, extract_bits index (mv_mask v) with
  | Some a, Some b => Some (w64 (w64 (N.shiftl a (Z.to_N (mv_M v))) + b))
  | _, _ => None
  end.

(** the loops of foreach (l.958-983) and n_fermion_multisector_basis_states
    (l.1013-1023) *)
Definition multi_loop (ps : list sector_params) (M : Z) (mask : N) : sres (list N) :=
  sdo us <- of_opt (mg_all (mg_reset (multi_gen_make ps)));
  sdo d <- of_opt (pow2 (Z.to_nat M));
  sdo ds <- of_opt (omap (fun k => deposit_bits k mask) (count_to d));
  SOk (flat_map (fun u => map (fun x => w64 (u + x)) ds) us).
(** n_fermion_multisector_basis_states: l.986-1026 *)
Definition multi_basis_states (h : hspace I) (ss : list sector_desc) : sres (list N) :=
  sdo sp <- sec_sparse h;
  if sp then SThrow
  else
    sdo ps <- make_sector_params h ss;
    match Z.eqb (hs_total_n_bits h) 0, ps with
    | true, [] => SOk []
    | _, _ => sdo mm <- nonmulti_mask h ps; multi_loop ps (snd mm) (fst mm)
    end.
(** foreach(view, f): l.944-984.  (The view's generator keeps a reference to the
    view's own sector_params, l.717; views that have been copied or moved are
    not modelled.) *)
Definition multi_foreach {V S} (so : scalar_ops S) (sv : sv_ops V S) (w : multi_view) (v : V) : sres (list (N * S)) :=
  match mv_params w, Z.eqb (mv_M w) 0 with
  | [], true => SOk []
  | _, _ => sdo xs <- multi_loop (mv_params w) (mv_M w) (mv_mask w); of_opt (foreach_calls so sv v xs 0)
  end.
(** get_element l.907-914, update_add_element l.918-931, set_zeros l.934-942 *)
Definition multi_sv {V S} (so : scalar_ops S) (sv : sv_ops V S) (w : multi_view) : sv_ops V S :=
  mk_sv (fun v l => multi_foreach so sv w v = SOk l)
        (fun v n => match multi_map_index w n with None => None | Some k => sv_get sv v k end)
        (fun v n x => match multi_map_index w n with None => None | Some k => sv_add sv v k x end)
        (sv_zero sv).
End Sector.
Arguments mk_sd {I} _ _.
Arguments sd_indices {I} _.
Arguments sd_N {I} _.
