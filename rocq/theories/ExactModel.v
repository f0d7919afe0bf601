(** * Linear operators with integer and rational ScalarTypes
    scalar_traits<S>::make_const(double) throws std::runtime_error when the
    number is not an integer, for integral types (scalar_traits.hpp l.56-62),
    mpz_class and mpq_class (scalars/gmpxx.hpp l.85-91, l.115-121) and
    boost::rational (scalars/boost_rational.hpp l.35-41).  This file repeats the
    functions act() of LOpModel.v, with the exceptions.

    Simplifications: std::sqrt and std::pow are exact, integers do not overflow. *)
From Coq Require Import NArith ZArith List Bool.
From Verif Require Import BitsModel ExprModel HSModel LOpModel.
Import ListNotations.
Open Scope N_scope.
Open Scope list_scope.

(** the doubles created by act(): std::sqrt(n) and std::pow(z / 2.0, p) *)
Inductive dval : Type := DSqrt (n : N) | DHalf (z : Z) (p : nat).

(** std::nearbyint(x), if it is equal to x; [None]: the exception.
    sqrt(n) is an integer iff n is a square; (z/2)^p is an integer iff z is even
    or p = 0. *)
Definition int_const (d : dval) : option Z :=
  match d with
  | DSqrt n => let r := N.sqrt n in if N.eqb (r * r) n then Some (Z.of_N r) else None
  | DHalf z p => if (p =? 0)%nat || Z.even z then Some (Z.pow (z / 2) (Z.of_nat p)) else None
  end.

(** What act() can do: return false, return true, throw, or undefined behaviour *)
Inductive tres (S : Type) : Type := TZero | TVal (c : S) (i : N) | TThrow | TBad.
Arguments TZero {S}.
Arguments TVal {S} _ _.
Arguments TThrow {S}.
Arguments TBad {S}.
(** success, exception, or undefined behaviour *)
Inductive xres (A : Type) : Type := XOk (a : A) | XThrow | XBad.
Arguments XOk {A} _.
Arguments XThrow {A}.
Arguments XBad {A}.

Section Actions.
Context {S : Type} (so : scalar_ops S) (mk : dval -> option S). (* [mk]: make_const(double) *)

(** make_const(sqr_root(n)): monomial_action_boson.hpp l.66-71, l.148-158,
    monomial_action_spin.hpp l.67-72, l.135-146 *)
Definition x_sqr_root (size n : N) : xres S :=
  if (n <? max_sqrt) && (size <=? n) then XBad
  else match mk (DSqrt n) with Some r => XOk r | None => XThrow end.

(** mul_assign(coeff, make_const(sqr_root(n))) for a sequence of n *)
Fixpoint x_mul_roots (size : N) (ns : list N) (coeff : S) : xres S :=
  match ns with
  | [] => XOk coeff
  | n :: t => match x_sqr_root size n with
              | XOk r => x_mul_roots size t (s_mul so coeff r)
              | XThrow => XThrow
              | XBad => XBad
              end
  end.

(** one iteration of the loop in monomial_action<boson>::act():
    monomial_action_boson.hpp l.139-160 *)
Definition x_boson_update_act (size : N) (u : boson_update) (index : N) (coeff : S) : tres S :=
  let n_part := N.land (N.shiftr index (Z.to_N (bu_shift u))) (bu_mask u) in
  let new_n := (Z.of_N n_part + bu_change u)%Z in
  if (new_n <? 0)%Z || (Z.of_N (bu_nmax u) <? new_n)%Z then TZero
  else
    let ns :=
      if (0 <? bu_change u)%Z
      then map (fun d => n_part + (d + 1)) (zrange (Z.to_nat (bu_change u)))
      else map (fun d => sub64 n_part d) (zrange (Z.to_nat (- bu_change u))) in
    match x_mul_roots size ns coeff with
    | XBad => TBad
    | XThrow => TThrow
    | XOk c => TVal c (z_to_u64 (Z.of_N index + bu_state_change u))
    end.

(** for(b = size; b-- != 0;): the updates in reverse order *)
Fixpoint x_run {U} (f : U -> N -> S -> tres S) (us : list U) (index : N) (coeff : S) : tres S :=
  match us with
  | [] => TVal coeff index
  | u :: t => match f u index coeff with TVal c i => x_run f t i c | r => r end
  end.
(** monomial_action<boson>::act(): monomial_action_boson.hpp l.134-162 *)
Definition x_boson_act (a : boson_action) (index : N) (coeff : S) : tres S :=
  if ba_vanishing a then TZero
  else x_run (x_boson_update_act (ba_sqrt a)) (rev (ba_updates a)) index coeff.

(** one iteration of the loop in monomial_action<spin>::act():
    monomial_action_spin.hpp l.129-157 *)
Definition x_spin_update_act (size : N) (u : spin_update) (index : N) (coeff : S) : tres S :=
  let n := N.land (N.shiftr index (Z.to_N (su_shift u))) (su_mask u) in
  let s2 := su_s2 u in
  match su_c u with
  | Plus =>
      if s2 <? n + su_power u then TZero
      else
        match x_mul_roots size (map (fun d => w64 (sub64 s2 (n + d) * (n + d + 1))) (zrange (N.to_nat (su_power u)))) coeff with
        | XBad => TBad
        | XThrow => TThrow
        | XOk c => TVal c (w64 (index + w64 (N.shiftl (su_power u) (Z.to_N (su_shift u)))))
        end
  | Minus =>
      if n <? su_power u then TZero
      else
        match x_mul_roots size (map (fun d => w64 ((sub64 s2 (n - d) + 1) * (n - d))) (zrange (N.to_nat (su_power u)))) coeff with
        | XBad => TBad
        | XThrow => TThrow
        | XOk c => TVal c (sub64 index (w64 (N.shiftl (su_power u) (Z.to_N (su_shift u)))))
        end
  | Zcomp =>
      if N.even s2 && N.eqb n (s2 / 2) then TZero
      else match mk (DHalf (2 * Z.of_N n - Z.of_N s2) (N.to_nat (su_power u))) with
           | None => TThrow
           | Some f => TVal (s_mul so coeff f) index
           end
  end.
(** monomial_action<spin>::act(): monomial_action_spin.hpp l.126-159 *)
Definition x_spin_act (a : spin_action) (index : N) (coeff : S) : tres S :=
  x_run (x_spin_update_act (sa_sqrt a)) (rev (sa_updates a)) index coeff.

(** monomial_action<fermion>::act() only creates the constant -1 *)
Definition x_fermion_act (a : fermion_action) (index : N) (coeff : S) : tres S :=
  match fermion_act so a index coeff with AZero => TZero | AVal c i => TVal c i | ABad => TBad end.

Definition x_single_act (a : action) (index : N) (coeff : S) : tres S :=
  match a with
  | ActF f => x_fermion_act f index coeff
  | ActB b => x_boson_act b index coeff
  | ActS s => x_spin_act s index coeff
  end.
(** monomial_action<AlgebraIDs...>::act(): monomial_action.hpp l.94-98, l.113-117, l.149-153 *)
Definition x_mono_run (l : list action) (index : N) (coeff : S) : tres S := x_run x_single_act l index coeff.
End Actions.

(** ** loperator::act_impl: loperator.hpp l.124-144 *)
(** the target vector after the normal end or the exception, or undefined behaviour *)
Inductive vres (V : Type) : Type := VOk (v : V) | VThrow (v : V) | VBad.
Arguments VOk {V} _.
Arguments VThrow {V} _.
Arguments VBad {V}.
Section Apply.
Context {S V : Type} (so : scalar_ops S) (mk : dval -> option S) (sv : sv_ops V S).
(** the inner loop over the monomials: l.136-142 *)
Fixpoint x_act_monos (L : lop S) (in_index : N) (a : S) (dst : V) : vres V :=
  match L with
  | [] => VOk dst
  | (m, c) :: t =>
      match x_mono_run so mk m in_index (s_one so) with
      | TBad => VBad
      | TThrow => VThrow dst
      | TZero => x_act_monos t in_index a dst
      | TVal k index =>
          match sv_add sv dst index (s_mul so (s_mul so c k) a) with
          | None => VBad
          | Some dst' => x_act_monos t in_index a dst'
          end
      end
  end.
(** foreach(src, ...) with the calls [l]: l.133-143 *)
Fixpoint x_act_entries (L : lop S) (l : list (N * S)) (dst : V) : vres V :=
  match l with
  | [] => VOk dst
  | (x, a) :: t => match x_act_monos L x a dst with VOk dst' => x_act_entries L t dst' | r => r end
  end.
(** operator()(src, dst): l.109-115; operator()(sv) (l.101-107) is the case of a
    new vector dst = zeros_like(sv) *)
Definition x_lop_apply_to (L : lop S) (l : list (N * S)) (dst : V) : vres V :=
  x_act_entries L l (sv_zero sv dst).
End Apply.
