(** Specification: rounding errors of linear operators. *)
From Coq Require Import Reals NArith ZArith List Bool.
From Verif Require Import BitsModel ExprModel ExprSpec HSModel HSSpec LOpModel LOpSpec.
Import ListNotations.
Local Open Scope R_scope.

(** absolute values of scalars *)
Record norm_laws {S} (so : scalar_ops S) (nrm : S -> R) : Prop := {
  nl_pos : forall x, 0 <= nrm x;
  nl_0 : nrm (s_zero so) = 0;
  nl_1 : nrm (s_one so) = 1;
  nl_neg : forall x, nrm (s_neg so x) = nrm x;
  nl_add : forall x y, nrm (s_add so x y) <= nrm x + nrm y;
  nl_mul : forall x y, nrm (s_mul so x y) = nrm x * nrm y
}.

(** The operations [fo] of a floating point type approximate the exact ones,
    [so], with the relative error [u] (the unit roundoff); tests for zero
    recognise only numbers up to [tol]. *)
Record rounds {S} (so fo : scalar_ops S) (sq sqf : N -> S) (half halff : Z -> S) (nrm : S -> R) (u tol : R) : Prop := {
  ro_u : 0 <= u;
  ro_0 : s_zero fo = s_zero so;
  ro_1 : s_one fo = s_one so;
  ro_neg : forall x, s_neg fo x = s_neg so x;
  ro_add : forall x y, nrm (s_sub so (s_add fo x y) (s_add so x y)) <= u * nrm (s_add so x y);
  ro_mul : forall x y, nrm (s_sub so (s_mul fo x y) (s_mul so x y)) <= u * nrm (s_mul so x y);
  (* n is converted to the floating point type first *)
  ro_sq : forall n, nrm (s_sub so (sqf n) (sq n)) <= ((1 + u) ^ 2 - 1) * nrm (sq n);
  ro_half : forall z, nrm (s_sub so (halff z) (half z)) <= u * nrm (half z);
  ro_zero : s_is_zero fo (s_zero so) = true;
  ro_tol : forall x, s_is_zero fo x = true -> nrm x <= tol
}.

Section Spec.
Context {I S : Type} (io : index_ops I) (so : scalar_ops S) (sq : N -> S) (half : Z -> S) (nrm : S -> R).

(** the sum of the absolute values of the contributions of the monomials of e to
    the matrix element <y| e |x> *)
Fixpoint mel_abs (l : list (espace I)) (e : list (list (gen I) * S)) (y x : N) : R :=
  match e with
  | [] => 0
  | (m, c) :: t => nrm c * nrm (amp1 so (mono_act io so sq half l m x) y) + mel_abs l t y x
  end.
Fixpoint rsum (f : N -> R) (l : list N) : R :=
  match l with [] => 0 | x :: t => f x + rsum f t end.
End Spec.

(** the length of the longest monomial *)
Definition degree {I S} (e : list (list (gen I) * S)) : nat := fold_right (fun mc n => Nat.max (length (fst mc)) n) 0%nat e.

(** e(v)_y, computed with real numbers *)
Definition exact_amp {I S} (io : index_ops I) (so : scalar_ops S) sq half (l : list (espace I)) (e : list (list (gen I) * S))
  (bas : list N) (v : N -> S) (y : N) : S :=
  ssum so (fun x => s_mul so (mel io so sq half l e y x) (v x)) bas.

(** A state vector of floating point numbers.  foreach() may leave out the
    amplitudes with the property [skipped], [drop] is the absolute error update_add_element()
    may make in addition to the rounding error. *)
Record sv_rounds {V S} (so : scalar_ops S) (sv : sv_ops V S) (ok : V -> Prop) (amp : V -> N -> S) (size : V -> N)
  (nrm : S -> R) (u : R) (skipped : S -> bool) (drop : R) : Prop := {
  svr_visits : forall v, exists l, sv_entries sv v l;
  svr_entries : forall v l, ok v -> sv_entries sv v l ->
    NoDup (map fst l) /\ (forall x a, In (x, a) l -> a = amp v x /\ a <> s_zero so) /\
    (forall x, ~ In x (map fst l) -> amp v x = s_zero so \/ skipped (amp v x) = true);
  svr_add : forall v n x, ok v -> (n < size v)%N -> exists v', sv_add sv v n x = Some v' /\ ok v' /\ size v' = size v /\
    (forall y, y <> n -> amp v' y = amp v y) /\
    nrm (s_sub so (amp v' n) (s_add so (amp v n) x)) <= u * nrm (s_add so (amp v n) x) + drop;
  svr_zero : forall v, ok v -> ok (sv_zero sv v) /\ size (sv_zero sv v) = size v /\
    forall y, amp (sv_zero sv v) y = s_zero so
}.

(** |x| < 100 epsilon *)
Definition tiny (x : R) : bool := if Rlt_dec (Rabs x) (100 / 2 ^ 52) then true else false.

(** The bound on the error of the amplitude y: rounding, amplitudes of the
    argument that were left out, amplitudes of the result that were dropped. *)
Definition error_bound {I S} (io : index_ops I) (so : scalar_ops S) sq half (nrm : S -> R) (u : R) (skipped : S -> bool) (drop : R)
  (l : list (espace I)) (e : list (list (gen I) * S)) (bas : list N) (v : N -> S) (y : N) : R :=
  ((1 + u) ^ (3 * degree e + 2 + length e) - 1) * rsum (fun x => mel_abs io so sq half nrm l e y x * nrm (v x)) bas +
  rsum (fun x => if skipped (v x) then mel_abs io so sq half nrm l e y x * nrm (v x) else 0) bas +
  drop * INR (length e) * (1 + u) ^ length e.
