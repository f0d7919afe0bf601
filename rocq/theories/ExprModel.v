(** Model of the expression layer of libcommute:
    /repo/include/libcommute/utility.hpp (var_number, linear_function),
    /repo/include/libcommute/scalar_traits.hpp,
    /repo/include/libcommute/expression/{generator,generator_fermion,
    generator_boson,generator_spin,monomial,expression,hc,dyn_indices}.hpp.

    Conventions.
    - A computation returns [res]: [Ok], [Throw] (a C++ exception) or [Bad]
      (an assertion failure, an out-of-range access or exhausted fuel; the
      theorems show that [Bad] never happens).
    - shared_ptr<const generator> is modelled by the (immutable) generator
      value itself; [concatenate], [append] and iterator ranges are list
      operations.
    - std::map<monomial, S> is modelled by an association list kept sorted by
      the model's own [mono_lt]; look-ups use only [mono_lt], as std::map does.
    - int (multiplicities, powers, structure constants) is unbounded. *)
From Coq Require Import String Ascii ZArith Bool Lia QArith Qcanon List.
Import ListNotations.
Close Scope Qc_scope.
Close Scope Q_scope.
Open Scope nat_scope.
Open Scope list_scope.

(** ** Results *)
Inductive res (A : Type) : Type := Ok (a : A) | Throw | Bad.
Arguments Ok {A} _.
Arguments Throw {A}.
Arguments Bad {A}.

Definition rbind {A B} (r : res A) (f : A -> res B) : res B :=
  match r with Ok a => f a | Throw => Throw | Bad => Bad end.

(** ** var_number: utility.hpp l.180-248.
    Simplified: a double is the (dyadic) rational number it stands for;
    infinities, NaN and the range of int are not modelled. *)
Inductive var_number : Type :=
| VInt (i : Z)
| VRat (num denom : Z)
| VReal (x : Q).

(** var_number::is_zero: utility.hpp l.208-215 *)
Definition vn_is_zero (v : var_number) : bool :=
  match v with VInt i => Z.eqb i 0 | VRat p _ => Z.eqb p 0 | VReal x => Qeq_bool x 0 end.

(** operator==(var_number, var_number): utility.hpp l.195-203 *)
Definition vn_eqb (v w : var_number) : bool :=
  match v, w with
  | VInt i, VInt j => Z.eqb i j
  | VRat p q, VRat r s => Z.eqb p r && Z.eqb q s
  | VReal x, VReal y => Qeq_bool x y
  | _, _ => false
  end.

(** ** linear_function: utility.hpp l.255-318 *)
Record linfun (G : Type) : Type := mk_linfun {
  const_term : var_number;
  terms : list (G * var_number)
}.
Arguments mk_linfun {G} _ _.
Arguments const_term {G} _.
Arguments terms {G} _.

(** linear_function::vanishing: utility.hpp l.301 *)
Definition lf_vanishing {G} (f : linfun G) : bool :=
  vn_is_zero (const_term f) && match terms f with [] => true | _ => false end.

(** ** scalar_traits and the arithmetic of a scalar type:
    scalar_traits.hpp l.47-111 and the built-in operators.
    [s_make] is make_const(var_number) (None = it throws), [s_zero] is
    make_const(0), [s_one] is make_const(1).  [add_assign] and friends
    (scalar_traits.hpp l.162-186) are the plain operations. *)
Record scalar_ops (S : Type) : Type := mk_scalar_ops {
  s_zero : S;
  s_one : S;
  s_add : S -> S -> S;
  s_sub : S -> S -> S;
  s_mul : S -> S -> S;
  s_neg : S -> S;
  s_is_zero : S -> bool;
  s_make : var_number -> option S;
  s_conj : S -> S
}.
Arguments s_zero {S} _.
Arguments s_one {S} _.
Arguments s_add {S} _ _ _.
Arguments s_sub {S} _ _ _.
Arguments s_mul {S} _ _ _.
Arguments s_neg {S} _ _.
Arguments s_is_zero {S} _ _.
Arguments s_make {S} _ _.
Arguments s_conj {S} _ _.

(** ** The virtual interface of a generator class: generator.hpp l.35-152.
    [g_swap], [g_simplify] are the free functions swap_with / simplify_prod
    (generator.hpp l.157-183), i.e. the dispatch on the algebra ID is part of
    them.  [g_simplify]/[g_reduce] return [None] for "false". *)
Record gen_ops (G : Type) : Type := mk_gen_ops {
  g_eq : G -> G -> bool;
  g_lt : G -> G -> bool;
  g_gt : G -> G -> bool;
  g_swap : G -> G -> var_number * linfun G;
  g_simplify : G -> G -> option (linfun G);
  g_reduce : G -> nat -> option (linfun G);
  g_conj : G -> linfun G
}.
Arguments g_eq {G} _ _ _.
Arguments g_lt {G} _ _ _.
Arguments g_gt {G} _ _ _.
Arguments g_swap {G} _ _ _.
Arguments g_simplify {G} _ _ _.
Arguments g_reduce {G} _ _ _.
Arguments g_conj {G} _ _.

(** ** Index tuples: only ==, < and > of std::tuple<IndexTypes...> are used
    (generator.hpp l.143-151). *)
Record index_ops (I : Type) : Type := mk_index_ops {
  i_eq : I -> I -> bool;
  i_lt : I -> I -> bool;
  i_gt : I -> I -> bool
}.
Arguments i_eq {I} _ _ _.
Arguments i_lt {I} _ _ _.
Arguments i_gt {I} _ _ _.

(** ** Built-in generators *)

(** enum spin_component: generator_spin.hpp l.36 *)
Inductive spin_component : Type := Plus | Minus | Zcomp.
Definition comp_code (c : spin_component) : nat :=
  match c with Plus => 0 | Minus => 1 | Zcomp => 2 end.

(** generator_fermion (dagger_, indices_): generator_fermion.hpp l.35-120;
    generator_boson: generator_boson.hpp l.35-109;
    generator_spin (multiplicity_, c_, indices_): generator_spin.hpp l.39-248 *)
Inductive gen (I : Type) : Type :=
| GFermion (dagger : bool) (i : I)
| GBoson (dagger : bool) (i : I)
| GSpin (mult : nat) (c : spin_component) (i : I).
Arguments GFermion {I} _ _.
Arguments GBoson {I} _ _.
Arguments GSpin {I} _ _ _.

Section Generators.
Context {I : Type} (io : index_ops I).

(** generator::indices(): generator.hpp l.78 *)
Definition gen_index (g : gen I) : I :=
  match g with GFermion _ i => i | GBoson _ i => i | GSpin _ _ i => i end.

(** algebra_id(): algebra_ids.hpp l.24-26 *)
Definition algebra_id (g : gen I) : Z :=
  match g with
  | GFermion _ _ => -3
  | GBoson _ _ => -2
  | GSpin _ _ _ => -1
  end%Z.

(** generator<>::equal, less, greater (base class): generator.hpp l.143-151 *)
Definition base_equal (g h : gen I) : bool := i_eq io (gen_index g) (gen_index h).
Definition base_less (g h : gen I) : bool := i_lt io (gen_index g) (gen_index h).
Definition base_greater (g h : gen I) : bool := i_gt io (gen_index g) (gen_index h).

Definition comp_eqb (c d : spin_component) : bool :=
  Nat.eqb (comp_code c) (comp_code d).

(** bool comparison of C++: true > false *)
Definition bool_gtb (a b : bool) : bool := a && negb b.

(** equal(): generator_fermion.hpp l.98-101, generator_boson.hpp l.87-90,
    generator_spin.hpp l.176-179.  The last branch (different classes) is a
    failing dynamic_cast, never reached because callers compare the
    algebra IDs first. *)
Definition gen_equal (g h : gen I) : bool :=
  match g, h with
  | GFermion d _, GFermion d' _ => Bool.eqb d d' && base_equal g h
  | GBoson d _, GBoson d' _ => Bool.eqb d d' && base_equal g h
  | GSpin m c _, GSpin m' c' _ => Nat.eqb m m' && comp_eqb c c' && base_equal g h
  | _, _ => false
  end.

(** less(): generator_fermion.hpp l.104-111, generator_boson.hpp l.93-100,
    generator_spin.hpp l.182-192 *)
Definition gen_less (g h : gen I) : bool :=
  match g, h with
  | GFermion d _, GFermion d' _ =>
      if negb (Bool.eqb d d') then bool_gtb d d'
      else if d then base_less g h else base_greater g h
  | GBoson d _, GBoson d' _ =>
      if negb (Bool.eqb d d') then bool_gtb d d'
      else if d then base_less g h else base_greater g h
  | GSpin m c _, GSpin m' c' _ =>
      if negb (Nat.eqb m m') then Nat.ltb m m'
      else if negb (base_equal g h) then base_less g h
      else Nat.ltb (comp_code c) (comp_code c')
  | _, _ => false
  end.

(** greater(): generator_fermion.hpp l.112-119, generator_boson.hpp l.101-108,
    generator_spin.hpp l.193-203 *)
Definition gen_greater (g h : gen I) : bool :=
  match g, h with
  | GFermion d _, GFermion d' _ =>
      if negb (Bool.eqb d d') then bool_gtb d' d
      else if d then base_greater g h else base_less g h
  | GBoson d _, GBoson d' _ =>
      if negb (Bool.eqb d d') then bool_gtb d' d
      else if d then base_greater g h else base_less g h
  | GSpin m c _, GSpin m' c' _ =>
      if negb (Nat.eqb m m') then Nat.ltb m' m
      else if negb (base_equal g h) then base_greater g h
      else Nat.ltb (comp_code c') (comp_code c)
  | _, _ => false
  end.

(** operator==, <, > of generators: generator.hpp l.57-75 *)
Definition gen_eqb (g h : gen I) : bool :=
  Z.eqb (algebra_id g) (algebra_id h) && gen_equal g h.
Definition gen_ltb (g h : gen I) : bool :=
  if negb (Z.eqb (algebra_id g) (algebra_id h))
  then Z.ltb (algebra_id g) (algebra_id h) else gen_less g h.
Definition gen_gtb (g h : gen I) : bool :=
  if negb (Z.eqb (algebra_id g) (algebra_id h))
  then Z.ltb (algebra_id h) (algebra_id g) else gen_greater g h.

Definition b2z (b : bool) : Z := if b then 1%Z else 0%Z.

(** swap_with(): generator_fermion.hpp l.57-63, generator_boson.hpp l.57-63,
    generator_spin.hpp l.70-85 with swap_with_spin_one_half (l.209-225) and
    swap_with_higher_spin (l.230-247); the free function is
    generator.hpp l.157-168.  [make_shared<generator_spin>(g2_.spin(), z,
    g2_.indices())] has multiplicity int(2 * ((m-1)/2.0) + 1) = m. *)
Definition gen_swap (g h : gen I) : var_number * linfun (gen I) :=
  match g, h with
  | GFermion d _, GFermion d' _ =>
      (VInt (-1),
       mk_linfun (VInt (b2z (base_equal g h && negb (Bool.eqb d d')))) [])
  | GBoson d _, GBoson d' _ =>
      (VInt 1,
       mk_linfun (VInt (b2z (base_equal g h && negb (Bool.eqb d d')))) [])
  | GSpin m c _, GSpin m' c' i' =>
      if base_equal g h && Nat.eqb m m' then
        if Nat.eqb m 2 then
          (VInt 0,
           match c with
           | Zcomp =>
               match c' with
               | Plus => mk_linfun (VInt 0) [(h, VRat 1 2)]
               | _ => mk_linfun (VInt 0) [(h, VRat (-1) 2)]
               end
           | _ => mk_linfun (VRat 1 2) [(GSpin m' Zcomp i', VInt (-1))]
           end)
        else
          (VInt 1,
           match c with
           | Zcomp =>
               match c' with
               | Plus => mk_linfun (VInt 0) [(h, VInt 1)]
               | _ => mk_linfun (VInt 0) [(h, VInt (-1))]
               end
           | _ => mk_linfun (VInt 0) [(GSpin m' Zcomp i', VInt (-2))]
           end)
      else (VInt 1, mk_linfun (VInt 0) [])
  | _, _ => (VInt 1, mk_linfun (VInt 0) [])
  end.

(** simplify_prod(): generator_fermion.hpp l.65-72, generator.hpp l.104-107
    (bosons use the default), generator_spin.hpp l.94-121; free function:
    generator.hpp l.172-183.
    NOTE: generator_spin::simplify_prod does not look at the multiplicity of
    its argument. *)
Definition gen_simplify (g h : gen I) : option (linfun (gen I)) :=
  match g, h with
  | GFermion _ _, GFermion _ _ =>
      if gen_eqb g h then Some (mk_linfun (VInt 0) []) else None
  | GBoson _ _, GBoson _ _ => None
  | GSpin m c _, GSpin m' c' i' =>
      if negb (base_equal g h) || negb (Nat.eqb m 2) then None
      else
        Some
          (if comp_eqb c c' then
             mk_linfun (if comp_eqb c Zcomp then VRat 1 4 else VInt 0) []
           else
             if comp_eqb c' Zcomp then
               if comp_eqb c Plus then mk_linfun (VInt 0) [(g, VRat (-1) 2)]
               else mk_linfun (VInt 0) [(g, VRat 1 2)]
             else mk_linfun (VRat 1 2) [(GSpin m' Zcomp i', VInt 1)])
  | _, _ => None
  end.

(** reduce_power(): generator.hpp l.116-119, generator_spin.hpp l.123-127.
    The spin version returns without writing to f, which at the only call
    site (expression.hpp l.707) is default-constructed, i.e. zero. *)
Definition gen_reduce (g : gen I) (power : nat) : option (linfun (gen I)) :=
  match g with
  | GSpin m c _ =>
      if negb (comp_eqb c Zcomp) && Nat.leb m power
      then Some (mk_linfun (VInt 0) []) else None
  | _ => None
  end.

Definition conj_comp (c : spin_component) : spin_component :=
  match c with Zcomp => Zcomp | Plus => Minus | Minus => Plus end.

(** conj(): generator_fermion.hpp l.78-82, generator_boson.hpp l.69-71,
    generator_spin.hpp l.135-144 *)
Definition gen_conj_gen (g : gen I) : gen I :=
  match g with
  | GFermion d i => GFermion (negb d) i
  | GBoson d i => GBoson (negb d) i
  | GSpin m c i => GSpin m (conj_comp c) i
  end.
Definition gen_conj (g : gen I) : linfun (gen I) :=
  mk_linfun (VInt 0) [(gen_conj_gen g, VInt 1)].

Definition std_gen_ops : gen_ops (gen I) :=
  mk_gen_ops _ gen_eqb gen_ltb gen_gtb gen_swap gen_simplify gen_reduce gen_conj.

End Generators.

(** ** Monomials: monomial.hpp *)
Section Monomials.
Context {G : Type} (go : gen_ops G).

(** class monomial holds std::vector<gen_ptr_type>: monomial.hpp l.258 *)
Definition mono : Type := list G.

(** operator==: monomial.hpp l.133-136 (std::equal after a size check) *)
Fixpoint equal_range (m n : mono) : bool :=
  match m, n with
  | [], _ => true
  | g :: m', h :: n' => g_eq go g h && equal_range m' n'
  | _ :: _, [] => false
  end.
Definition mono_eqb (m n : mono) : bool :=
  Nat.eqb (length m) (length n) && equal_range m n.

(** std::lexicographical_compare with a comparator *)
Fixpoint lex_compare (lt : G -> G -> bool) (m n : mono) : bool :=
  match m, n with
  | _, [] => false
  | [], _ :: _ => true
  | g :: m', h :: n' =>
      if lt g h then true else if lt h g then false else lex_compare lt m' n'
  end.

(** operator<: monomial.hpp l.142-151 *)
Definition mono_lt (m n : mono) : bool :=
  if negb (Nat.eqb (length m) (length n)) then Nat.ltb (length m) (length n)
  else lex_compare (g_lt go) m n.

(** operator>: monomial.hpp l.152-163 *)
Definition mono_gt (m n : mono) : bool :=
  if negb (Nat.eqb (length m) (length n)) then Nat.ltb (length n) (length m)
  else lex_compare (g_gt go) m n.

(** is_ordered(): monomial.hpp l.166 (std::is_sorted: no element is less than
    its predecessor) *)
Fixpoint is_ordered (m : mono) : bool :=
  match m with
  | g :: ((h :: _) as t) => negb (g_lt go h g) && is_ordered t
  | _ => true
  end.

(** swap_generators(n1, n2): monomial.hpp l.179-183, used only with
    n1 = n - 1, n2 = n *)
Definition swap_at (n : nat) (a b : G) (m : mono) : mono :=
  firstn (n - 1) m ++ b :: a :: skipn (n + 1) m.

End Monomials.

(** ** std::map<monomial, S> *)
Section Maps.
Context {G S : Type} (go : gen_ops G).
Notation lt := (mono_lt go).

Definition emap : Type := list (@mono G * S).

(** std::map::find *)
Fixpoint map_find (k : @mono G) (m : emap) : option S :=
  match m with
  | [] => None
  | (x, v) :: t =>
      if lt x k then map_find k t else if lt k x then None else Some v
  end.

(** std::map::emplace: (new map, inserted?) — the map is unchanged when an
    equivalent key is present.  emplace_hint has the same effect. *)
Fixpoint map_emplace (k : @mono G) (c : S) (m : emap) : emap * bool :=
  match m with
  | [] => ([(k, c)], true)
  | (x, v) :: t =>
      if lt x k then let (t', b) := map_emplace k c t in ((x, v) :: t', b)
      else if lt k x then ((k, c) :: m, true)
      else (m, false)
  end.

(** assignment through an iterator obtained by find *)
Fixpoint map_assign (k : @mono G) (c : S) (m : emap) : emap :=
  match m with
  | [] => []
  | (x, v) :: t =>
      if lt x k then (x, v) :: map_assign k c t
      else if lt k x then m else (x, c) :: t
  end.

(** std::map::erase(it) *)
Fixpoint map_erase (k : @mono G) (m : emap) : emap :=
  match m with
  | [] => []
  | (x, v) :: t =>
      if lt x k then (x, v) :: map_erase k t
      else if lt k x then m else t
  end.

End Maps.

(** ** Expressions: expression.hpp *)
Section Expressions.
Context {G S : Type} (go : gen_ops G) (so : scalar_ops S).
Notation emap := (@emap G S).
Notation mono := (@mono G).

(** store_monomial: expression.hpp l.607-619 *)
Definition store_monomial (m : mono) (coeff : S) (target : emap) : emap :=
  let (t', is_new) := map_emplace go m coeff target in
  if is_new then t'
  else
    match map_find go m t' with
    | None => t'
    | Some v =>
        let v' := s_add so v coeff in
        let t'' := map_assign go m v' t' in
        if s_is_zero so v' then map_erase go m t'' else t''
    end.

(** the lambda process_f inside normalize_and_store: expression.hpp l.636-655;
    [rec] is the recursive call, [pre]/[post] are m[0..n-2] and m[n+1..] *)
Fixpoint process_terms (rec : mono -> S -> emap -> res emap)
  (pre post : mono) (coeff : S) (ts : list (G * var_number)) (target : emap)
  : res emap :=
  match ts with
  | [] => Ok target
  | (g, v) :: ts' =>
      match s_make so v with
      | None => Throw
      | Some x =>
          rbind (rec (pre ++ g :: post) (s_mul so coeff x) target)
                (process_terms rec pre post coeff ts')
      end
  end.

Definition process_f (rec : mono -> S -> emap -> res emap)
  (pre post : mono) (coeff : S) (f : linfun G) (target : emap) : res emap :=
  rbind
    (if vn_is_zero (const_term f) then Ok target
     else
       match s_make so (const_term f) with
       | None => Throw
       | Some x => rec (pre ++ post) (s_mul so coeff x) target
       end)
    (process_terms rec pre post coeff (terms f)).

(** State after one execution of the for loop (or of all do-while
    iterations) of normalize_and_store *)
Inductive loop_res : Type :=
| LDone (m : mono) (coeff : S) (is_swapped : bool) (target : emap)
| LReturn (target : emap)
| LThrow
| LBad.

(** The for loop: expression.hpp l.661-687; [k] is the number of remaining
    iterations n_max - n + 1 *)
Fixpoint sort_pass (rec : mono -> S -> emap -> res emap)
  (k n : nat) (m : mono) (coeff : S) (is_swapped : bool) (target : emap)
  : loop_res :=
  match k with
  | O => LDone m coeff is_swapped target
  | Datatypes.S k' =>
      match nth_error m (n - 1), nth_error m n with
      | Some prev, Some cur =>
          if g_gt go prev cur then
            let (c, f) := g_swap go prev cur in
            match process_f rec (firstn (n - 1) m) (skipn (n + 1) m) coeff f target with
            | Throw => LThrow
            | Bad => LBad
            | Ok target' =>
                if vn_eqb c (VInt 0) then LReturn target'
                else
                  match s_make so c with
                  | None => LThrow
                  | Some x =>
                      sort_pass rec k' (n + 1) (swap_at n prev cur m)
                                (s_mul so coeff x) true target'
                  end
            end
          else
            match g_simplify go prev cur with
            | Some f =>
                match process_f rec (firstn (n - 1) m) (skipn (n + 1) m) coeff f target with
                | Throw => LThrow
                | Bad => LBad
                | Ok target' => LReturn target'
                end
            | None => sort_pass rec k' (n + 1) m coeff is_swapped target
            end
      | _, _ => LBad
      end
  end.

(** The do-while loop: expression.hpp l.659-689.  A pass with n_max = 0 makes
    no comparison and leaves is_swapped = false. *)
Fixpoint sort_loop (rec : mono -> S -> emap -> res emap)
  (n_max : nat) (m : mono) (coeff : S) (target : emap) : loop_res :=
  match sort_pass rec n_max 1 m coeff false target with
  | LDone m' coeff' true target' =>
      match n_max with
      | O => LBad
      | Datatypes.S n' => sort_loop rec n' m' coeff' target'
      end
  | r => r
  end.

(** the loop over f.terms in reduce_powers_and_store: expression.hpp l.729-739 *)
Fixpoint reduce_terms (rec : mono -> S -> emap -> res emap)
  (pre post : mono) (coeff : S) (ts : list (G * var_number)) (target : emap)
  : res emap :=
  match ts with
  | [] => Ok target
  | (g, v) :: ts' =>
      match s_make so v with
      | None => Throw
      | Some x =>
          rbind (if s_is_zero so x then Ok target
                 else rec (pre ++ g :: post) (s_mul so coeff x) target)
                (reduce_terms rec pre post coeff ts')
      end
  end.

(** the for loop of reduce_powers_and_store: expression.hpp l.711-746;
    [it] is the position of the iterator, [k] the remaining iterations,
    [nrec]/[rrec] the recursive calls of normalize_and_store and
    reduce_powers_and_store *)
Fixpoint reduce_scan (nrec rrec : mono -> S -> emap -> res emap)
  (k it power : nat) (m : mono) (coeff : S) (target : emap) : res emap :=
  match k with
  | O => Ok target
  | Datatypes.S k' =>
      if Nat.eqb (it + 1) (length m) then Ok (store_monomial m coeff target)
      else
        match nth_error m it, nth_error m (it + 1) with
        | Some cur, Some next =>
            if g_eq go next cur then
              let power := power + 1 in
              match (if Nat.ltb 2 power then g_reduce go cur power else None) with
              | Some f =>
                  if lf_vanishing f then Ok target
                  else
                    let pre := firstn (it + 2 - power) m in
                    let post := skipn (it + 2) m in
                    match s_make so (const_term f) with
                    | None => Throw
                    | Some v =>
                        rbind (if s_is_zero so v then Ok target
                               else rrec (pre ++ post) (s_mul so coeff v) target)
                              (reduce_terms nrec pre post coeff (terms f))
                    end
              | None => reduce_scan nrec rrec k' (it + 1) power m coeff target
              end
            else reduce_scan nrec rrec k' (it + 1) 1 m coeff target
        | _, _ => Bad
        end
  end.

(** normalize_and_store: expression.hpp l.622-697 and
    reduce_powers_and_store: expression.hpp l.699-747 (mutually recursive; the
    fuel replaces the C++ call stack) *)
Fixpoint normalize_and_store (fuel : nat) (m : mono) (coeff : S) (target : emap)
  {struct fuel} : res emap :=
  match fuel with
  | O => Bad
  | Datatypes.S fuel' =>
      if Nat.leb 2 (length m) then
        match sort_loop (normalize_and_store fuel') (length m - 1) m coeff target with
        | LDone m' coeff' _ target' =>
            if s_is_zero so coeff' then Ok target'
            else reduce_powers_and_store fuel' m' coeff' target'
        | LReturn target' => Ok target'
        | LThrow => Throw
        | LBad => Bad
        end
      else reduce_powers_and_store fuel' m coeff target
  end
with reduce_powers_and_store (fuel : nat) (m : mono) (coeff : S) (target : emap)
  {struct fuel} : res emap :=
  match fuel with
  | O => Bad
  | Datatypes.S fuel' =>
      match m with
      | [] => Ok (store_monomial m coeff target)
      | _ =>
          reduce_scan (normalize_and_store fuel') (reduce_powers_and_store fuel')
                      (length m) 0 1 m coeff target
      end
  end.

(** The call stack of the C++ code is unbounded; 2*|m|+2 is always enough
    (C08). *)
Definition norm_fuel (m : mono) : nat := 2 * length m + 2.
Definition normalize (m : mono) (coeff : S) (target : emap) : res emap :=
  normalize_and_store (norm_fuel m) m coeff target.

(** expression(S const& x): expression.hpp l.89-94 *)
Definition e_const (x : S) : emap := if s_is_zero so x then [] else [([], x)].

(** expression(S const& x, monomial_t const&): expression.hpp l.97-104 *)
Definition e_mono (x : S) (m : mono) : res emap :=
  if s_is_zero so x then Ok [] else normalize m x [].

(** operator+=(expression): expression.hpp l.248-259 *)
Definition add_entry (p : mono * S) (e : emap) : emap :=
  match map_find go (fst p) e with
  | None => fst (map_emplace go (fst p) (snd p) e)
  | Some v =>
      let v' := s_add so v (snd p) in
      let e' := map_assign go (fst p) v' e in
      if s_is_zero so v' then map_erase go (fst p) e' else e'
  end.
Definition e_add_assign (a b : emap) : emap :=
  fold_left (fun e p => add_entry p e) b a.

(** operator-=(expression): expression.hpp l.262-274 *)
Definition sub_entry (p : mono * S) (e : emap) : emap :=
  match map_find go (fst p) e with
  | None => fst (map_emplace go (fst p) (s_sub so (s_zero so) (snd p)) e)
  | Some v =>
      let v' := s_sub so v (snd p) in
      let e' := map_assign go (fst p) v' e in
      if s_is_zero so v' then map_erase go (fst p) e' else e'
  end.
Definition e_sub_assign (a b : emap) : emap :=
  fold_left (fun e p => sub_entry p e) b a.

(** operator+ / operator- with the same scalar type copy and do the same:
    expression.hpp l.449-464 (add_impl, true_type), l.516-533 (sub_impl,
    true_type) *)
Definition e_add (a b : emap) : emap := e_add_assign a b.
Definition e_sub (a b : emap) : emap := e_sub_assign a b.

(** operator*=(expression): expression.hpp l.277-288 *)
Fixpoint mul_row (m1 : mono) (c1 : S) (b : emap) (target : emap) : res emap :=
  match b with
  | [] => Ok target
  | (m2, c2) :: b' =>
      rbind (normalize (m1 ++ m2) (s_mul so c1 c2) target) (mul_row m1 c1 b')
  end.
Fixpoint mul_rows (a b : emap) (target : emap) : res emap :=
  match a with
  | [] => Ok target
  | (m1, c1) :: a' => rbind (mul_row m1 c1 b target) (mul_rows a' b)
  end.
Definition e_mul (a b : emap) : res emap := mul_rows a b [].

(** e += e and e -= e with aliasing operands (operator+= and operator-= of
    expression.hpp l.248-274 called with expr == *this).  The range-for loop
    walks over the map that is being modified: the iterator found by [find] is
    the loop's own position, so no element is ever inserted; erasing it
    invalidates the loop iterator, which is undefined behaviour ([Bad]).
    [i] is the position of the loop iterator. *)
Fixpoint assign_self_loop (op : S -> S -> S) (k i : nat) (e : emap) : res emap :=
  match k with
  | O => Ok e
  | Datatypes.S k' =>
      match nth_error e i with
      | None => Ok e
      | Some (m, x) =>
          match map_find go m e with
          | None => Bad (* not reached: m is a key of e *)
          | Some v =>
              let v' := op v x in
              if s_is_zero so v' then Bad
              else assign_self_loop op k' (i + 1) (map_assign go m v' e)
          end
      end
  end.
Definition e_add_assign_self (e : emap) : res emap := assign_self_loop (s_add so) (length e) 0 e.
Definition e_sub_assign_self (e : emap) : res emap := assign_self_loop (s_sub so) (length e) 0 e.

(** unary minus: expression.hpp l.584-590 (both versions, l.584-600) *)
Definition e_neg (a : emap) : emap := map (fun p => (fst p, s_neg so (snd p))) a.

(** operator*(S alpha), alpha * e, operator*=(S): expression.hpp l.301-322,
    l.378-386, l.753-799 *)
Definition e_mul_const_post (a : emap) (alpha : S) : emap :=
  if s_is_zero so alpha then [] else map (fun p => (fst p, s_mul so (snd p) alpha)) a.
Definition e_mul_const_pre (alpha : S) (a : emap) : emap :=
  if s_is_zero so alpha then [] else map (fun p => (fst p, s_mul so alpha (snd p))) a.

(** e + alpha, alpha + e, e += alpha: expression.hpp l.325-340, l.389-404,
    l.805-885 (all overloads do the same when the scalar types agree) *)
Definition e_add_const (a : emap) (alpha : S) : emap :=
  if s_is_zero so alpha then a
  else
    match map_find go [] a with
    | None => fst (map_emplace go [] alpha a)
    | Some v =>
        let v' := s_add so v alpha in
        let a' := map_assign go [] v' a in
        if s_is_zero so v' then map_erase go [] a' else a'
    end.

(** e += alpha: expression.hpp l.389-404 (inserts 0 + alpha) *)
Definition e_add_assign_const (a : emap) (alpha : S) : emap :=
  if s_is_zero so alpha then a
  else
    match map_find go [] a with
    | None => fst (map_emplace go [] (s_add so (s_zero so) alpha) a)
    | Some v =>
        let v' := s_add so v alpha in
        let a' := map_assign go [] v' a in
        if s_is_zero so v' then map_erase go [] a' else a'
    end.

(** e - alpha, e -= alpha: expression.hpp l.343-349, l.407-421, l.891-932 *)
Definition e_sub_const (a : emap) (alpha : S) : emap :=
  if s_is_zero so alpha then a
  else
    match map_find go [] a with
    | None => fst (map_emplace go [] (s_sub so (s_zero so) alpha) a)
    | Some v =>
        let v' := s_sub so v alpha in
        let a' := map_assign go [] v' a in
        if s_is_zero so v' then map_erase go [] a' else a'
    end.

(** alpha - e: expression.hpp l.352-371 *)
Definition e_const_sub (alpha : S) (a : emap) : emap :=
  e_add_const (map (fun p => (fst p, s_sub so (s_zero so) (snd p))) a) alpha.

(** expression(linear_function const&): expression.hpp l.108-120 *)
Fixpoint linfun_terms (ts : list (G * var_number)) (e : emap) : res emap :=
  match ts with
  | [] => Ok e
  | (g, v) :: ts' =>
      match s_make so v with
      | None => Throw
      | Some x =>
          if s_is_zero so x then linfun_terms ts' e
          else rbind (e_mono x [g]) (fun d => linfun_terms ts' (e_add_assign e d))
      end
  end.
Definition e_linfun (f : linfun G) : res emap :=
  rbind
    (if vn_is_zero (const_term f) then Ok []
     else
       match s_make so (const_term f) with
       | None => Throw
       | Some x => Ok [([], x)]
       end)
    (linfun_terms (terms f)).

(** conj(expression): expression.hpp l.196-213.  [m_contrib] is declared
    outside the loop, so when the conjugated coefficient is zero the previous
    contribution is added again. *)
Fixpoint conj_mono (rev_m : mono) (contrib : emap) : res emap :=
  match rev_m with
  | [] => Ok contrib
  | g :: t =>
      rbind (e_linfun (g_conj go g))
            (fun ef => rbind (e_mul contrib ef) (conj_mono t))
  end.
Fixpoint conj_loop (e : emap) (m_contrib out : emap) : res emap :=
  match e with
  | [] => Ok out
  | (m, x) :: e' =>
      let coeff := s_conj so x in
      rbind (if s_is_zero so coeff then Ok m_contrib
             else conj_mono (rev m) (e_const coeff))
            (fun contrib => conj_loop e' contrib (e_add_assign out contrib))
  end.
Definition e_conj (e : emap) : res emap := conj_loop e [] [].

(** expr + hc, expr - hc: hc.hpp l.30-43 *)
Definition e_plus_hc (e : emap) : res emap := rbind (e_conj e) (fun d => Ok (e_add e d)).
Definition e_minus_hc (e : emap) : res emap := rbind (e_conj e) (fun d => Ok (e_sub e d)).

(** operator==(expression, expression): expression.hpp l.149-151
    (std::map equality: same size and element-wise == of the pairs; [eqS] is
    == of the scalar type) *)
Fixpoint e_eqb (eqS : S -> S -> bool) (a b : emap) : bool :=
  match a, b with
  | [], [] => true
  | (m, x) :: a', (n, y) :: b' => mono_eqb go m n && eqS x y && e_eqb eqS a' b'
  | _, _ => false
  end.

End Expressions.

(** transform(expr, f): expression.hpp l.178-193; the result type may differ *)
Definition e_transform {G S S' : Type} (go : gen_ops G) (so' : scalar_ops S')
  (f : list G -> S -> S') (e : @emap G S) : @emap G S' :=
  fold_left (fun r p =>
               let v := f (fst p) (snd p) in
               if s_is_zero so' v then r else fst (map_emplace go (fst p) v r))
            e [].

(** add_impl / sub_impl with different scalar types (std::false_type):
    expression.hpp l.468-508, l.537-577.  [op] is the mixed operator + (or -),
    [z1], [z2] are make_const(0) of the operand types, [z] is is_zero of the
    result type.  [fuel] bounds the while loop; the sum of lengths is
    enough. *)
Section Merge.
Context {G S1 S2 S3 : Type} (go : gen_ops G).
Context (op : S1 -> S2 -> S3) (z1 : S1) (z2 : S2) (isz : S3 -> bool).

Definition put (k : list G) (v : S3) (r : @emap G S3) : @emap G S3 :=
  fst (map_emplace go k v r).

Fixpoint merge_loop (fuel : nat) (a : @emap G S1) (b : @emap G S2)
  (r : @emap G S3) : @emap G S3 :=
  match fuel with
  | O => r
  | S fuel' =>
      match a, b with
      | (m1, x1) :: a', (m2, x2) :: b' =>
          if mono_lt go m1 m2 then merge_loop fuel' a' b (put m1 (op x1 z2) r)
          else if mono_lt go m2 m1 then merge_loop fuel' a b' (put m2 (op z1 x2) r)
          else
            let val := op x1 x2 in
            merge_loop fuel' a' b' (if isz val then r else put m1 val r)
      | [], _ => fold_left (fun r p => put (fst p) (op z1 (snd p)) r) b r
      | _, [] => fold_left (fun r p => put (fst p) (op (snd p) z2) r) a r
      end
  end.

Definition e_merge (a : @emap G S1) (b : @emap G S2) : @emap G S3 :=
  merge_loop (length a + length b + 1) a b [].
End Merge.

(** ** Dynamic index sequences: dyn_indices.hpp l.37-118 with
    IndexTypes = int, std::string (l.128).  std::variant compares the
    alternative index first, then the values; std::string compares
    characters as unsigned char, lexicographically. *)
Inductive dyn_index : Type := DInt (i : Z) | DStr (s : string).

Fixpoint str_ltb (s t : string) : bool :=
  match s, t with
  | _, EmptyString => false
  | EmptyString, String _ _ => true
  | String a s', String b t' =>
      if Nat.ltb (nat_of_ascii a) (nat_of_ascii b) then true
      else if Nat.ltb (nat_of_ascii b) (nat_of_ascii a) then false
      else str_ltb s' t'
  end.

Definition dyn_index_eqb (a b : dyn_index) : bool :=
  match a, b with
  | DInt i, DInt j => Z.eqb i j
  | DStr s, DStr t => String.eqb s t
  | _, _ => false
  end.
Definition dyn_index_ltb (a b : dyn_index) : bool :=
  match a, b with
  | DInt i, DInt j => Z.ltb i j
  | DStr s, DStr t => str_ltb s t
  | DInt _, DStr _ => true
  | DStr _, DInt _ => false
  end.

(** std::vector == and < *)
Fixpoint vec_eqb {A} (eqb : A -> A -> bool) (a b : list A) : bool :=
  match a, b with
  | [], [] => true
  | x :: a', y :: b' => eqb x y && vec_eqb eqb a' b'
  | _, _ => false
  end.
Fixpoint vec_ltb {A} (ltb : A -> A -> bool) (a b : list A) : bool :=
  match a, b with
  | _, [] => false
  | [], _ :: _ => true
  | x :: a', y :: b' =>
      if ltb x y then true else if ltb y x then false else vec_ltb ltb a' b'
  end.

(** operator==, <, > of dyn_indices_generic: dyn_indices.hpp l.79-102;
    std::vector's a > b is b < a *)
Definition dyn_eqb (a b : list dyn_index) : bool := vec_eqb dyn_index_eqb a b.
Definition dyn_ltb (a b : list dyn_index) : bool :=
  if negb (Nat.eqb (length a) (length b)) then Nat.ltb (length a) (length b)
  else vec_ltb dyn_index_ltb a b.
Definition dyn_gtb (a b : list dyn_index) : bool :=
  if negb (Nat.eqb (length a) (length b)) then Nat.ltb (length b) (length a)
  else vec_ltb dyn_index_ltb b a.
Definition dyn_index_ops : index_ops (list dyn_index) :=
  mk_index_ops _ dyn_eqb dyn_ltb dyn_gtb.

(** std::tuple<A, Rest...> compares lexicographically: ==, < and > as defined
    by the C++ standard [tuple.rel]; used for static indices. *)
Definition tuple_index_ops {A B} (oa : index_ops A) (ob : index_ops B)
  : index_ops (A * B) :=
  mk_index_ops _
    (fun x y => i_eq oa (fst x) (fst y) && i_eq ob (snd x) (snd y))
    (fun x y => if i_lt oa (fst x) (fst y) then true
                else if i_lt oa (fst y) (fst x) then false
                else i_lt ob (snd x) (snd y))
    (fun x y => if i_lt oa (fst y) (fst x) then true
                else if i_lt oa (fst x) (fst y) then false
                else i_lt ob (snd y) (snd x)).
Definition unit_index_ops : index_ops unit :=
  mk_index_ops _ (fun _ _ => true) (fun _ _ => false) (fun _ _ => false).
Definition int_index_ops : index_ops Z :=
  mk_index_ops _ Z.eqb Z.ltb (fun a b => Z.ltb b a).
Definition string_index_ops : index_ops string :=
  mk_index_ops _ String.eqb str_ltb (fun a b => str_ltb b a).

(** ** Concrete scalar types used in examples *)
(** integral types: scalar_traits.hpp l.52-75 (unbounded) *)
Definition int_scalar_ops : scalar_ops Z :=
  mk_scalar_ops _ 0%Z 1%Z Z.add Z.sub Z.mul Z.opp (Z.eqb 0)
    (fun v => match v with VInt i => Some i | _ => None end) (fun x => x).
(** rational types: scalars/boost_rational.hpp l.28-57, scalars/gmpxx.hpp
    l.110-137 (mpq_class); unbounded canonical fractions.  A structure constant
    of type double is rejected. *)
Definition qc_of_vn (v : var_number) : option Qc :=
  match v with
  | VInt i => Some (Q2Qc (inject_Z i))
  | VRat p q =>
      if Z.eqb q 0 then None (* boost::bad_rational / division by zero *)
      else Some (Q2Qc (inject_Z p) / Q2Qc (inject_Z q))%Qc
  | VReal _ => None
  end.
Definition qc_eqb (x y : Qc) : bool := Qeq_bool (this x) (this y).
Definition rational_scalar_ops : scalar_ops Qc :=
  mk_scalar_ops _ (Q2Qc 0) (Q2Qc 1) Qcplus Qcminus Qcmult Qcopp (qc_eqb (Q2Qc 0))
    qc_of_vn (fun x => x).

(** floating point types: scalar_traits.hpp l.80-93, with exact (rational)
    arithmetic and an exact zero test (TolModel.v has the tolerance); operator
    double() of var_number: utility.hpp l.229-236 *)
Definition flt_of_vn (v : var_number) : option Qc :=
  match v with VReal x => Some (Q2Qc x) | _ => qc_of_vn v end.
Definition double_scalar_ops : scalar_ops Qc :=
  mk_scalar_ops _ (Q2Qc 0) (Q2Qc 1) Qcplus Qcminus Qcmult Qcopp (qc_eqb (Q2Qc 0))
    flt_of_vn (fun x => x).

(** complex types: scalar_traits.hpp l.98-111, with exact (rational) real and
    imaginary parts instead of floating point ones *)
Definition cx : Type := (Qc * Qc)%type.
Definition cx_scalar_ops : scalar_ops cx :=
  mk_scalar_ops _ (Q2Qc 0, Q2Qc 0) (Q2Qc 1, Q2Qc 0)
    (fun x y => (fst x + fst y, snd x + snd y)%Qc)
    (fun x y => (fst x - fst y, snd x - snd y)%Qc)
    (fun x y => (fst x * fst y - snd x * snd y, fst x * snd y + snd x * fst y)%Qc)
    (fun x => (- fst x, - snd x)%Qc)
    (fun x => qc_eqb (Q2Qc 0) (fst x) && qc_eqb (Q2Qc 0) (snd x))
    (fun v => option_map (fun x => (x, Q2Qc 0)) (flt_of_vn v))
    (fun x => (fst x, - snd x)%Qc).

(** ** Factory functions: factories.hpp l.59-104 (DEFINE_FACTORY l.33-52) and
    factories_dyn.hpp: one generator (or c^+ c for n) with coefficient 1 *)
Definition factory {G S} (go : gen_ops G) (so : scalar_ops S) (g : G) : res (@emap G S) :=
  e_mono go so (s_one so) [g].
Definition factory_n {I S} (io : index_ops I) (so : scalar_ops S) (i : I) : res (@emap (gen I) S) :=
  e_mono (std_gen_ops io) so (s_one so) [GFermion true i; GFermion false i].
(** S_x, S_y: factories.hpp l.110-135 (S_p and S_m of real type are mapped to
    the complex type first, which gives the same coefficients) *)
Definition cx_half : cx := (Q2Qc (1 # 2), Q2Qc 0).
Definition cx_mihalf : cx := (Q2Qc 0, Q2Qc (-1 # 2)).
Definition factory_Sx {I} (io : index_ops I) (m : nat) (i : I) : res (@emap (gen I) cx) :=
  rbind (factory (std_gen_ops io) cx_scalar_ops (GSpin m Plus i)) (fun p =>
  rbind (factory (std_gen_ops io) cx_scalar_ops (GSpin m Minus i)) (fun q =>
  Ok (e_mul_const_pre cx_scalar_ops cx_half (e_add (std_gen_ops io) cx_scalar_ops p q)))).
Definition factory_Sy {I} (io : index_ops I) (m : nat) (i : I) : res (@emap (gen I) cx) :=
  rbind (factory (std_gen_ops io) cx_scalar_ops (GSpin m Plus i)) (fun p =>
  rbind (factory (std_gen_ops io) cx_scalar_ops (GSpin m Minus i)) (fun q =>
  Ok (e_mul_const_pre cx_scalar_ops cx_mihalf (e_sub (std_gen_ops io) cx_scalar_ops p q)))).
