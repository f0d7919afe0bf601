(** * Model of linear operators acting on state vectors
    Sources: /repo/include/libcommute/loperator/{monomial_action,
    monomial_action_fermion,monomial_action_boson,monomial_action_spin,
    loperator,state_vector,sparse_state_vector}.hpp

    sv_index_type = uint64_t values are [N] (explicit [w64]/[sub64] where the
    code computes modulo 2^64); std::int64_t values are [Z].

    Scalars.  ScalarType is an abstract type with the operations [so].  The two
    kinds of floating point constants the code creates are abstract, exact
    functions: [sq n] stands for make_const(std::sqrt(double(n))) and [half z]
    for make_const(z / 2.0); rounding is not modelled.  The element type of a
    state vector is taken to be ScalarType itself. *)
From Coq Require Import NArith ZArith List Bool Permutation.
From Verif Require Import BitsModel ExprModel HSModel.
Import ListNotations.
Open Scope N_scope.
Open Scope list_scope.

(** What the construction of an action can do: succeed, throw
    unknown_generator(g), throw the std::runtime_error of
    hilbert_space::algebra_bit_range(), or fail an assertion / undefined
    behaviour. *)
Inductive lres (I A : Type) : Type :=
| LOk (a : A) | LUnknown (g : gen I) | LNoAlgebra | LBad.
Arguments LOk {I A} _.
Arguments LUnknown {I A} _.
Arguments LNoAlgebra {I A}.
Arguments LBad {I A}.
Definition lbind {I A B} (r : lres I A) (f : A -> lres I B) : lres I B :=
  match r with LOk a => f a | LUnknown g => LUnknown g | LNoAlgebra => LNoAlgebra | LBad => LBad end.

(** What act(index, coeff) can do: return false, return true with the new
    (coeff, index), or read outside of a table. *)
Inductive ares (S : Type) : Type := AZero | AVal (c : S) (i : N) | ABad.
Arguments AZero {S}.
Arguments AVal {S} _ _.
Arguments ABad {S}.

Section Actions.
Context {I S : Type} (io : index_ops I) (so : scalar_ops S) (sq : N -> S) (half : Z -> S).

(** the scalar constant make_const(-1) *)
Definition minus_one : S := s_neg so (s_one so).

(** ** monomial_action<fermion>: monomial_action_fermion.hpp l.33-117 *)

(** data members, l.35-42 *)
Record fermion_action : Type := mk_fa {
  fa_const : bool;
  fa_ann : N; fa_cre : N;            (* annihilation_mask, creation_mask *)
  fa_ann_count : N; fa_cre_count : N (* ..._count_mask *)
}.

(** compute_count_mask: l.105-116.  [k] is the number of remaining values of
    i = i, i+1, ..., bit_range.second *)
Fixpoint count_mask_loop (d : list Z) (k : nat) (i : Z) (is_on : bool) (mask : N) : N :=
  match k with
  | O => mask
  | Datatypes.S k' =>
      if existsb (Z.eqb i) d then count_mask_loop d k' (i + 1)%Z (negb is_on) mask
      else count_mask_loop d k' (i + 1)%Z is_on
             (if is_on then N.lor mask (w64 (N.shiftl 1 (Z.to_N i))) else mask)
  end.
Definition compute_count_mask (d : list Z) (range : Z * Z) : N :=
  count_mask_loop d (Z.to_nat (snd range - fst range + 1)) (fst range) (Nat.odd (length d)) 0.

(** the loop over the generators: l.57-74.  cs/as are creation_set_bits and
    annihilation_set_bits (in order of insertion). *)
Fixpoint fermion_loop (h : hspace I) (m : list (gen I)) (cs an : list Z) (cm am : N)
  : lres I (list Z * list Z * N * N) :=
  match m with
  | [] => LOk (cs, an, cm, am)
  | g :: t =>
      match g with
      | GFermion dagger i =>
          match hs_bit_range io h (ESFermion i) with
          | None => LUnknown g
          | Some (lo, hi) =>
              if negb (Z.eqb lo hi) then LBad (* assert(br.first == br.second) *)
              else
                let bit := w64 (N.shiftl 1 (Z.to_N lo)) in
                if dagger then fermion_loop h t (cs ++ [lo]) an (N.lor cm bit) am
                else fermion_loop h t cs (an ++ [lo]) cm (N.lor am bit)
          end
      | _ => LUnknown g
      end
  end.

(** constructor: l.45-80 *)
Definition fermion_make (h : hspace I) (m : list (gen I)) : lres I fermion_action :=
  match m with
  | [] => LOk (mk_fa true 0 0 0 0)
  | _ =>
      lbind (fermion_loop h m [] [] 0 0) (fun '(cs, an, cm, am) =>
        match hs_algebra_bit_range h (-3) with
        | None => LNoAlgebra
        | Some range => LOk (mk_fa false am cm (compute_count_mask an range) (compute_count_mask cs range))
        end)
  end.

(** act(): l.82-102 *)
Definition fermion_act (a : fermion_action) (index : N) (coeff : S) : ares S :=
  if fa_const a then AVal coeff index
  else if negb (N.eqb (N.land index (fa_ann a)) (fa_ann a)) then AZero
  else
    let inter := N.land index (not64 (fa_ann a)) in
    if negb (N.eqb (N.land (N.lxor inter (fa_cre a)) (fa_cre a)) (fa_cre a)) then AZero
    else
      let index' := not64 (N.land (not64 inter) (not64 (fa_cre a))) in
      let minus := parity (N.lxor (N.land inter (fa_ann_count a)) (N.land index' (fa_cre_count a))) in
      AVal (if minus then s_mul so coeff minus_one else coeff) index'.

(** sqr_root(n): monomial_action_boson.hpp l.66-71, monomial_action_spin.hpp
    l.67-72; [size] is the size of sqr_roots_, [None] an access beyond it *)
Definition max_sqrt : N := 128.
Definition sqr_root (size n : N) : option S :=
  if n <? max_sqrt then (if n <? size then Some (sq n) else None) else Some (sq n).

(** mul_assign(coeff, sqr_root(n)) for a sequence of n *)
Fixpoint mul_roots (size : N) (ns : list N) (coeff : S) : option S :=
  match ns with
  | [] => Some coeff
  | n :: t => match sqr_root size n with
              | None => None
              | Some r => mul_roots size t (s_mul so coeff r)
              end
  end.

(** ** monomial_action<boson>: monomial_action_boson.hpp l.37-163 *)

(** single_boson_update_t: l.40-55 *)
Record boson_update : Type := mk_bu {
  bu_shift : Z; bu_mask : N; bu_change : Z; bu_nmax : N; bu_state_change : Z
}.
(** updates_, sqr_roots_.size(), vanishing_ *)
Record boson_action : Type := mk_ba {
  ba_updates : list boson_update; ba_sqrt : N; ba_vanishing : bool
}.

(** [next_it == end_it || *next_it != *it]: l.88 *)
Definition last_of_run (g : gen I) (t : list (gen I)) : bool :=
  match t with [] => true | g' :: _ => negb (gen_eqb io g' g) end.

(** the loop: l.84-122.  The increment of next_it past the end of the range
    (l.81 and l.85) is not modelled. *)
Fixpoint boson_loop (h : hspace I) (m : list (gen I)) (power size : N) (ups : list boson_update)
  : lres I (list boson_update * N * bool) :=
  match m with
  | [] => LOk (ups, size, false)
  | g :: t =>
      match g with
      | GBoson dagger i =>
          if last_of_run g t then
            let es := ESBoson 1 i in
            match hs_bit_range io h es, hs_es_dim io h es with
            | Some (lo, hi), Some dim =>
                let n_bits := (hi - lo + 1)%Z in
                let n_max := sub64 dim 1 in
                let size' := N.max size (w64 (n_max + 1)) in
                if n_max <? power then LOk (ups, size', true)
                else
                  let n_change := if dagger then Z.of_N power else (- Z.of_N power)%Z in
                  boson_loop h t 1 size'
                    (ups ++ [mk_bu lo (sub64 (w64 (N.shiftl 1 (Z.to_N n_bits))) 1) n_change n_max
                                (n_change * 2 ^ lo)%Z])
            | _, _ => LUnknown g
            end
          else boson_loop h t (power + 1) size ups
      | _ => LUnknown g
      end
  end.
(** constructor: l.74-132.  The table has min(size, 128) elements; it stays
    empty when there are no updates and after the early return. *)
Definition boson_make (h : hspace I) (m : list (gen I)) : lres I boson_action :=
  lbind (boson_loop h m 1 0 []) (fun '(ups, size, vanishing) =>
    LOk (mk_ba ups (if vanishing then 0 else match ups with [] => 0 | _ => N.min size max_sqrt end) vanishing)).

(** one iteration of the loop in act(): l.139-160 *)
Definition zrange (k : nat) : list N := map N.of_nat (seq 0 k).
Definition boson_update_act (size : N) (u : boson_update) (index : N) (coeff : S) : ares S :=
  let n_part := N.land (N.shiftr index (Z.to_N (bu_shift u))) (bu_mask u) in
  let new_n := (Z.of_N n_part + bu_change u)%Z in
  if (new_n <? 0)%Z || (Z.of_N (bu_nmax u) <? new_n)%Z then AZero
  else
    let ns :=
      if (0 <? bu_change u)%Z
      then map (fun d => n_part + (d + 1)) (zrange (Z.to_nat (bu_change u)))
      else map (fun d => sub64 n_part d) (zrange (Z.to_nat (- bu_change u))) in
    match mul_roots size ns coeff with
    | None => ABad
    | Some c => AVal c (z_to_u64 (Z.of_N index + bu_state_change u))
    end.

(** for(b = size; b-- != 0;): the updates in reverse order *)
Fixpoint run_updates {U} (f : U -> N -> S -> ares S) (us : list U) (index : N) (coeff : S) : ares S :=
  match us with
  | [] => AVal coeff index
  | u :: t => match f u index coeff with AVal c i => run_updates f t i c | r => r end
  end.
(** act(): l.134-162 *)
Definition boson_act (a : boson_action) (index : N) (coeff : S) : ares S :=
  if ba_vanishing a then AZero
  else run_updates (boson_update_act (ba_sqrt a)) (rev (ba_updates a)) index coeff.

(** ** monomial_action<spin>: monomial_action_spin.hpp l.37-160 *)

(** single_spin_update_t: l.45-59 *)
Record spin_update : Type := mk_su {
  su_s2 : N; su_shift : Z; su_mask : N; su_c : spin_component; su_power : N
}.
Record spin_action : Type := mk_sa { sa_updates : list spin_update; sa_sqrt : N }.

(** ss, l.100-101: (s + 1/2)^2 for even multiplicities 2s+1, else s(s+1).
    Simplification: the double arithmetic is exact. *)
Definition spin_ss (mult : nat) : N :=
  let m := N.of_nat mult in
  if N.even m then (m / 2) * (m / 2) else (m * m - 1) / 4.

(** the loop: l.85-114 *)
Fixpoint spin_loop (h : hspace I) (m : list (gen I)) (power size : N) (ups : list spin_update)
  : lres I (list spin_update * N) :=
  match m with
  | [] => LOk (ups, size)
  | g :: t =>
      match g with
      | GSpin mult c i =>
          if last_of_run g t then
            match hs_bit_range io h (ESSpin mult i) with
            | Some (lo, hi) =>
                let n_bits := (hi - lo + 1)%Z in
                spin_loop h t 1 (N.max size (spin_ss mult + 1))
                  (ups ++ [mk_su (N.of_nat mult - 1) lo (sub64 (w64 (N.shiftl 1 (Z.to_N n_bits))) 1) c power])
            | None => LUnknown g
            end
          else spin_loop h t (power + 1) size ups
      | _ => LUnknown g
      end
  end.
(** constructor: l.75-124 *)
Definition spin_make (h : hspace I) (m : list (gen I)) : lres I spin_action :=
  lbind (spin_loop h m 1 0 []) (fun '(ups, size) =>
    LOk (mk_sa ups (match ups with [] => 0 | _ => N.min size max_sqrt end))).

Fixpoint spow (x : S) (n : nat) : S := match n with O => s_one so | Datatypes.S k => s_mul so x (spow x k) end.

(** one iteration of the loop in act(): l.129-157.
    std::pow(n - s2/2, power) is the [power]-th power of [half (2n - s2)]. *)
Definition spin_update_act (size : N) (u : spin_update) (index : N) (coeff : S) : ares S :=
  let n := N.land (N.shiftr index (Z.to_N (su_shift u))) (su_mask u) in
  let s2 := su_s2 u in
  match su_c u with
  | Plus =>
      if s2 <? n + su_power u then AZero
      else
        match mul_roots size (map (fun d => w64 (sub64 s2 (n + d) * (n + d + 1))) (zrange (N.to_nat (su_power u)))) coeff with
        | None => ABad
        | Some c => AVal c (w64 (index + w64 (N.shiftl (su_power u) (Z.to_N (su_shift u)))))
        end
  | Minus =>
      if n <? su_power u then AZero
      else
        match mul_roots size (map (fun d => w64 ((sub64 s2 (n - d) + 1) * (n - d))) (zrange (N.to_nat (su_power u)))) coeff with
        | None => ABad
        | Some c => AVal c (sub64 index (w64 (N.shiftl (su_power u) (Z.to_N (su_shift u)))))
        end
  | Zcomp =>
      if N.even s2 && N.eqb n (s2 / 2) then AZero
      else AVal (s_mul so coeff (spow (half (2 * Z.of_N n - Z.of_N s2)) (N.to_nat (su_power u)))) index
  end.
(** act(): l.126-159 *)
Definition spin_act (a : spin_action) (index : N) (coeff : S) : ares S :=
  run_updates (spin_update_act (sa_sqrt a)) (rev (sa_updates a)) index coeff.

(** ** monomial_action<AlgebraIDs...>: monomial_action.hpp l.60-154 *)
Inductive action : Type :=
| ActF (a : fermion_action) | ActB (a : boson_action) | ActS (a : spin_action).

(** monomial_action<id>: one of the three classes above *)
Definition single_make (h : hspace I) (id : Z) (m : list (gen I)) : lres I action :=
  if Z.eqb id (-3) then lbind (fermion_make h m) (fun a => LOk (ActF a))
  else if Z.eqb id (-2) then lbind (boson_make h m) (fun a => LOk (ActB a))
  else if Z.eqb id (-1) then lbind (spin_make h m) (fun a => LOk (ActS a))
  else LBad. (* no such specialization *)
Definition single_act (a : action) (index : N) (coeff : S) : ares S :=
  match a with
  | ActF f => fermion_act f index coeff
  | ActB b => boson_act b index coeff
  | ActS s => spin_act s index coeff
  end.

(** find_algebra_monomial_subrange: l.67-85; returns (subrange, rest) *)
Fixpoint algebra_subrange (id : Z) (m : list (gen I)) : lres I (list (gen I) * list (gen I)) :=
  match m with
  | [] => LOk ([], [])
  | g :: t =>
      if (algebra_id g <? id)%Z then LUnknown g
      else if Z.eqb (algebra_id g) id then
        lbind (algebra_subrange id t) (fun '(a, b) => LOk (g :: a, b))
      else LOk ([], m)
  end.

(** monomial_action_impl constructors: l.88-92, l.108-111; monomial_action<>:
    l.141-147.  The parts in the order of the algebra IDs. *)
Fixpoint mono_make (h : hspace I) (ids : list Z) (m : list (gen I)) : lres I (list action) :=
  match ids with
  | [] => match m with [] => LOk [] | g :: _ => LUnknown g end
  | [id] => lbind (single_make h id m) (fun a => LOk [a])
  | id :: ids' =>
      lbind (algebra_subrange id m) (fun '(mh, mt) =>
      lbind (single_make h id mh) (fun a =>
      lbind (mono_make h ids' mt) (fun l => LOk (a :: l))))
  end.
(** act(): l.94-98, l.113-117, l.149-153 *)
Definition mono_run (l : list action) (index : N) (coeff : S) : ares S :=
  run_updates single_act l index coeff.

(** ** loperator_base: loperator.hpp l.35-78 *)
Definition lop (C : Type) : Type := list (list action * C).

(** constructor: l.44-55 *)
Fixpoint lop_make {C} (h : hspace I) (ids : list Z) (e : list (list (gen I) * C)) : lres I (lop C) :=
  match e with
  | [] => LOk []
  | (m, c) :: t =>
      lbind (mono_make h ids m) (fun a => lbind (lop_make h ids t) (fun l => LOk ((a, c) :: l)))
  end.
(** make_loperator, make_param_loperator: l.269-283 *)
Definition make_loperator {C} (e : list (list (gen I) * C)) (h : hspace I) : lres I (lop C) :=
  lop_make h [-3; -2; -1]%Z e.

End Actions.

(** ** State vectors.  An implementation of the StateVector interface:
    [sv_entries v l]: foreach(v, f) may call f with the index/amplitude pairs
    [l], in this order; [sv_add] is update_add_element ([None]: access outside
    of the vector); [sv_zero] is zeros_like and the effect of set_zeros. *)
Record sv_ops (V S : Type) : Type := mk_sv {
  sv_entries : V -> list (N * S) -> Prop;
  sv_get : V -> N -> option S;
  sv_add : V -> N -> S -> option V;
  sv_zero : V -> V
}.
Arguments mk_sv {V S} _ _ _ _.
Arguments sv_entries {V S} _ _ _.
Arguments sv_get {V S} _ _ _.
Arguments sv_add {V S} _ _ _ _.
Arguments sv_zero {V S} _ _.

(** std::vector<T>: state_vector.hpp l.44-80 *)
Section Dense.
Context {S : Type} (so : scalar_ops S).
Definition dense : Type := list S.
Definition dense_get (v : dense) (n : N) : option S := nth_error v (N.to_nat n).
Fixpoint list_update (v : dense) (n : nat) (x : S) : option dense :=
  match v, n with
  | [], _ => None
  | a :: t, O => Some (s_add so a x :: t)
  | a :: t, Datatypes.S k => option_map (cons a) (list_update t k x)
  end.
Definition dense_add (v : dense) (n : N) (x : S) : option dense := list_update v (N.to_nat n) x.
(** set_zeros l.57-60 and zeros_like l.62-67 *)
Definition dense_zero (v : dense) : dense := map (fun _ => s_zero so) v.
(** foreach: l.69-80 *)
Fixpoint dense_entries_from (v : dense) (n : N) : list (N * S) :=
  match v with
  | [] => []
  | a :: t => if s_is_zero so a then dense_entries_from t (n + 1)
              else (n, a) :: dense_entries_from t (n + 1)
  end.
Definition dense_sv : sv_ops dense S :=
  mk_sv (fun v l => l = dense_entries_from v 0) dense_get dense_add dense_zero.
End Dense.

(** sparse_state_vector: sparse_state_vector.hpp l.28-105.  data_ is a list of
    pairs with different keys; an unordered_map may be traversed in any order. *)
Section Sparse.
Context {S : Type} (so : scalar_ops S).
Record sparse : Type := mk_sparse { sp_size : N; sp_data : list (N * S) }.
Fixpoint sp_find (n : N) (d : list (N * S)) : option S :=
  match d with [] => None | (k, a) :: t => if N.eqb n k then Some a else sp_find n t end.
Fixpoint sp_erase (n : N) (d : list (N * S)) : list (N * S) :=
  match d with [] => [] | (k, a) :: t => if N.eqb n k then t else (k, a) :: sp_erase n t end.
(** data_[n] = x *)
Fixpoint sp_set (n : N) (x : S) (d : list (N * S)) : list (N * S) :=
  match d with
  | [] => [(n, x)]
  | (k, a) :: t => if N.eqb n k then (k, x) :: t else (k, a) :: sp_set n x t
  end.
(** get_element: l.46-55; [None] = failed assertion *)
Definition sparse_get (v : sparse) (n : N) : option S :=
  if n <? sp_size v then
    Some (match sp_find n (sp_data v) with None => s_zero so | Some a => a end)
  else None.
(** update_add_element: l.57-69 *)
Definition sparse_add_data (d : list (N * S)) (n : N) (x : S) : list (N * S) :=
  match sp_find n d with
  | None => if s_is_zero so x then d else sp_set n x d
  | Some a => if s_is_zero so (s_add so a x) then sp_erase n d else sp_set n (s_add so a x) d
  end.
Definition sparse_add (v : sparse) (n : N) (x : S) : option sparse :=
  Some (mk_sparse (sp_size v) (sparse_add_data (sp_data v) n x)).
(** operator[] (l.44) used as an lvalue: v[n] = x; reading v[n] inserts a
    value-initialized element *)
Definition sparse_assign (v : sparse) (n : N) (x : S) : sparse :=
  mk_sparse (sp_size v) (sp_set n x (sp_data v)).
Definition sparse_touch (v : sparse) (n : N) : sparse :=
  match sp_find n (sp_data v) with
  | None => mk_sparse (sp_size v) (sp_set n (s_zero so) (sp_data v))
  | Some _ => v
  end.
(** set_zeros l.72, zeros_like l.75-77 *)
Definition sparse_zero (v : sparse) : sparse := mk_sparse (sp_size v) [].
Definition sparse_n_nonzeros (v : sparse) : nat := length (sp_data v).
(** prune(), prune(p): l.86-104 *)
Definition sparse_prune_if (p : S -> bool) (v : sparse) : sparse :=
  mk_sparse (sp_size v) (filter (fun ka => negb (p (snd ka))) (sp_data v)).
Definition sparse_prune : sparse -> sparse := sparse_prune_if (s_is_zero so).
End Sparse.
Arguments mk_sparse {S} _ _.
Arguments sp_size {S} _.
Arguments sp_data {S} _.
Definition sparse_sv {S} (so : scalar_ops S) : sv_ops (@sparse S) S :=
  mk_sv (fun v l => Permutation l (sp_data v)) (sparse_get so) (sparse_add so) sparse_zero.

(** ** loperator::act_impl: loperator.hpp l.124-144 *)
Section Apply.
Context {S V : Type} (so : scalar_ops S) (sq : N -> S) (half : Z -> S) (sv : sv_ops V S).

(** the inner loop over the monomials, for one pair (in_index, a); [None]: an
    access outside of the destination vector or of a table *)
Fixpoint act_monos (L : lop S) (in_index : N) (a : S) (dst : V) : option V :=
  match L with
  | [] => Some dst
  | (m, c) :: t =>
      match mono_run so sq half m in_index (s_one so) with
      | ABad => None
      | AZero => act_monos t in_index a dst
      | AVal k index =>
          match sv_add sv dst index (s_mul so (s_mul so c k) a) with
          | None => None
          | Some dst' => act_monos t in_index a dst'
          end
      end
  end.
(** foreach(src, ...) with the calls [l] *)
Fixpoint act_entries (L : lop S) (l : list (N * S)) (dst : V) : option V :=
  match l with
  | [] => Some dst
  | (x, a) :: t => match act_monos L x a dst with None => None | Some dst' => act_entries L t dst' end
  end.

(** operator()(sv): loperator.hpp l.101-107; [l]: the calls made by foreach(v) *)
Definition lop_apply (L : lop S) (v : V) (l : list (N * S)) : option V :=
  act_entries L l (sv_zero sv v).
(** operator()(src, dst), src and dst different objects: l.109-115 *)
Definition lop_apply_to (L : lop S) (l : list (N * S)) (dst : V) : option V :=
  act_entries L l (sv_zero sv dst).
End Apply.

(** ** parametric_loperator: loperator.hpp l.151-267.
    A coefficient functor called with std::forward<Args>(args)... may move from
    the arguments, so it is modelled as a function returning its value and what
    it leaves of the arguments. *)
Section Parametric.
Context {S V A : Type} (so : scalar_ops S) (sq : N -> S) (half : Z -> S) (sv : sv_ops V S).
Definition functor : Type := A -> S * A.

(** the evaluation loop: l.246-250 *)
Fixpoint eval_coeffs (P : lop functor) (args : A) (acc : list S) : list S :=
  match P with
  | [] => acc
  | (_, f) :: t => let (c, args') := f args in eval_coeffs t args' (acc ++ [c])
  end.
(** the loop over m_act / evaluated_coeffs: l.252-265 ([None] also when
    evaluated_coeffs is too short) *)
Fixpoint act_monos_ec (P : lop functor) (ec : list S) (in_index : N) (a : S) (dst : V) : option V :=
  match P, ec with
  | [], _ => Some dst
  | _ :: _, [] => None
  | (m, _) :: t, c :: ec' =>
      match mono_run so sq half m in_index (s_one so) with
      | ABad => None
      | AZero => act_monos_ec t ec' in_index a dst
      | AVal k index =>
          match sv_add sv dst index (s_mul so (s_mul so c k) a) with
          | None => None
          | Some dst' => act_monos_ec t ec' in_index a dst'
          end
      end
  end.
Fixpoint act_entries_ec (P : lop functor) (ec : list S) (l : list (N * S)) (dst : V) : option V :=
  match l with
  | [] => Some dst
  | (x, a) :: t => match act_monos_ec P ec x a dst with None => None | Some dst' => act_entries_ec P ec t dst' end
  end.
(** operator()(sv, args...): l.173-181 *)
Definition plop_apply (P : lop functor) (v : V) (l : list (N * S)) (args : A) : option V :=
  act_entries_ec P (eval_coeffs P args []) l (sv_zero sv v).
(** operator()(src, dst, args...): l.191-199 *)
Definition plop_apply_to (P : lop functor) (l : list (N * S)) (dst : V) (args : A) : option V :=
  act_entries_ec P (eval_coeffs P args []) l (sv_zero sv dst).
(** act_and_store_coeffs: l.207-217; also returns evaluated_coeffs, whose old
    contents [old] are cleared *)
Definition plop_store (P : lop functor) (l : list (N * S)) (dst : V) (old : list S) (args : A)
  : option V * list S :=
  let ec := eval_coeffs P args [] in (act_entries_ec P ec l (sv_zero sv dst), ec).
(** at(args...): l.224-233 *)
Fixpoint plop_at (P : lop functor) (args : A) : lop S :=
  match P with
  | [] => []
  | (m, f) :: t => let (c, args') := f args in (m, c) :: plop_at t args'
  end.
End Parametric.
