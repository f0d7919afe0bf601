(** * What programs with monomials mean: each variable is a sequence of generators *)
From Coq Require Import List Bool Arith.
From Verif Require Import MonModel.
Import ListNotations.

Section SPEC.
  Context {G : Type}.
  Definition values := list (list G).
  Definition slice {X} (a b : nat) (l : list X) : list X := firstn (b - a) (skipn a l).
  Definition upd_val (A : values) (i : nat) (f : list G -> list G) : option values :=
    match nth_error A i with Some l => Some (setl A i (f l)) | None => None end.
  Definition swapped {X} (l : list X) (n1 n2 : nat) : option (list X) :=
    match nth_error l n1, nth_error l n2 with
    | Some x, Some y => Some (setl (setl l n1 y) n2 x)
    | _, _ => None
    end.
  Definition part_value (A : values) (p : part) : option (list G) :=
    match p with
    | PGen j n => match nth_error A j with
                  | Some l => match nth_error l n with Some g => Some [g] | None => None end
                  | None => None end
    | PMono j => nth_error A j
    | PRange j a b => match nth_error A j with
                      | Some l => if (a <=? b) && (b <=? length l) then Some (slice a b l) else None
                      | None => None end
    end.
  Fixpoint parts_value (A : values) (ps : list part) : option (list G) :=
    match ps with
    | [] => Some []
    | p :: t => match part_value A p, parts_value A t with Some x, Some y => Some (x ++ y) | _, _ => None end
    end.
  (** [None]: arguments out of range *)
  Definition astep (A : values) (o : mop) : option values :=
    match o with
    | MNew gs => Some (A ++ [gs])
    | MCopy j => match nth_error A j with Some l => Some (A ++ [l]) | None => None end
    | MAssign i j => match nth_error A j with Some l => upd_val A i (fun _ => l) | None => None end
    | MMove j => match nth_error A j with Some l => Some (setl A j [] ++ [l]) | None => None end
    | MDestroy i => upd_val A i (fun _ => [])
    | MAppendGen i j n => match part_value A (PGen j n) with Some x => upd_val A i (fun l => l ++ x) | None => None end
    | MAppendMono i j => match part_value A (PMono j) with Some x => upd_val A i (fun l => l ++ x) | None => None end
    | MAppendRange i j a b => match part_value A (PRange j a b) with Some x => upd_val A i (fun l => l ++ x) | None => None end
    | MAppendLocal i g => None
    | MConcat ps => match parts_value A ps with Some x => Some (A ++ [x]) | None => None end
    | MSwap i n1 n2 => match nth_error A i with
                       | Some l => match swapped l n1 n2 with Some l' => Some (setl A i l') | None => None end
                       | None => None end
    end.
  Fixpoint arun (A : values) (p : list mop) : option values :=
    match p with [] => Some A | o :: t => match astep A o with Some A' => arun A' t | None => None end end.
  (** no range of a monomial is appended to that monomial itself *)
  Definition no_self_range (o : @mop G) : Prop :=
    match o with MAppendRange i j _ _ => i <> j | _ => True end.
End SPEC.
