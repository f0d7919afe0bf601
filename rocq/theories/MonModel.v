(** * Monomials as vectors of shared generators
    Source: /repo/include/libcommute/expression/monomial.hpp

    class monomial holds std::vector<std::shared_ptr<const generator>> (l.258).  The model
    has a heap of generator objects with use counts, and for every vector its buffer
    (an identity that changes when the vector reallocates), its capacity and the
    addresses of its generators.  Iterators (l.262-) are positions in a buffer.
    The growth of capacities is implementation-defined: the parameter [grow].
    Simplifications: generators created by make_shared have no other owner than
    monomials (a further owner only keeps an object alive longer); within one
    buffer an iterator stays usable as long as the vector does not reallocate
    (this includes past-the-end iterators, as in every implementation);
    moved-from vectors are empty. *)
From Coq Require Import List Bool Arith.
Import ListNotations.

Section MON.
  Context {G : Type} (grow : nat -> nat).

  Record vec := { v_buf : nat; v_cap : nat; v_ids : list nat }.
  (** heap: address -> Some (generator, use count), or None if it has been destroyed *)
  Definition heap := list (option (G * nat)).
  Record mstate := { m_heap : heap; m_next : nat; m_vars : list vec }.

  Inductive outcome := Done (s : mstate) | Thrown (s : mstate) | UB.
  Definition obind (o : outcome) (f : mstate -> outcome) : outcome :=
    match o with Done s => f s | Thrown s => Thrown s | UB => UB end.

  Fixpoint setl {X} (l : list X) (i : nat) (x : X) : list X :=
    match l, i with
    | [], _ => []
    | _ :: l', O => x :: l'
    | y :: l', S i' => y :: setl l' i' x
    end.
  Definition lookup (h : heap) (id : nat) : option G :=
    match nth_error h id with Some (Some (g, _)) => Some g | _ => None end.
  (** copying a shared_ptr / shared_from_this(): None if the object is gone *)
  Definition retain (h : heap) (id : nat) : option heap :=
    match nth_error h id with Some (Some (g, n)) => Some (setl h id (Some (g, S n))) | _ => None end.
  (** ~shared_ptr(): the last owner destroys the object *)
  Definition release (h : heap) (id : nat) : option heap :=
    match nth_error h id with
    | Some (Some (g, S O)) => Some (setl h id None)
    | Some (Some (g, S n)) => Some (setl h id (Some (g, n)))
    | _ => None
    end.
  Fixpoint retain_all (h : heap) (ids : list nat) : option heap :=
    match ids with [] => Some h | i :: t => match retain h i with Some h' => retain_all h' t | None => None end end.
  Fixpoint release_all (h : heap) (ids : list nat) : option heap :=
    match ids with [] => Some h | i :: t => match release h i with Some h' => release_all h' t | None => None end end.

  (** vector::emplace_back of a shared_ptr to [id] (already retained) *)
  Definition push (s : mstate) (i : nat) (v : vec) (h : heap) (id : nat) : mstate :=
    if length (v_ids v) <? v_cap v
    then {| m_heap := h; m_next := m_next s;
            m_vars := setl (m_vars s) i {| v_buf := v_buf v; v_cap := v_cap v; v_ids := v_ids v ++ [id] |} |}
    else {| m_heap := h; m_next := S (m_next s);
            m_vars := setl (m_vars s) i {| v_buf := m_next s; v_cap := grow (v_cap v); v_ids := v_ids v ++ [id] |} |}.
  (** vector::reserve *)
  Definition reserve (s : mstate) (i n : nat) : outcome :=
    match nth_error (m_vars s) i with
    | None => UB
    | Some v => if n <=? v_cap v then Done s
                else Done {| m_heap := m_heap s; m_next := S (m_next s);
                             m_vars := setl (m_vars s) i {| v_buf := m_next s; v_cap := n; v_ids := v_ids v |} |}
    end.

  (** l.225-227 append(generator const&): the generator at address [id] *)
  Definition append_id (s : mstate) (i id : nat) : outcome :=
    match nth_error (m_vars s) i with
    | None => UB
    | Some v => match retain (m_heap s) id with
                | None => UB
                | Some h => Done (push s i v h id)
                end
    end.
  Definition append_gen (s : mstate) (i j n : nat) : outcome :=
    match nth_error (m_vars s) j with
    | None => UB
    | Some w => match nth_error (v_ids w) n with None => UB | Some id => append_id s i id end
    end.
  (** l.238-239: for(auto it = r.first; it != r.second; ++it)
        generators_.emplace_back(it->shared_from_this());
      [buf], [pos]: the iterator [it]; [cnt]: its distance from r.second *)
  Fixpoint append_loop (cnt : nat) (s : mstate) (i j buf pos : nat) : outcome :=
    match nth_error (m_vars s) j with
    | None => UB
    | Some w =>
        if buf =? v_buf w then
          match cnt with
          | O => Done s
          | S c => match nth_error (v_ids w) pos with
                   | None => UB
                   | Some id => obind (append_id s i id) (fun s' => append_loop c s' i j buf (S pos))
                   end
          end
        else UB     (* invalidated iterator *)
    end.
  (** l.237-240 append(range_type const&): the range [a, b) of monomial [j] *)
  Definition append_range (s : mstate) (i j a b : nat) : outcome :=
    match nth_error (m_vars s) i, nth_error (m_vars s) j with
    | Some _, Some w => if (a <=? b) && (b <=? length (v_ids w)) then append_loop (b - a) s i j (v_buf w) a else UB
    | _, _ => UB
    end.
  (** l.229-235 append(monomial const&): reserve, then std::transform over [begin, end) *)
  Definition append_mono (s : mstate) (i j : nat) : outcome :=
    match nth_error (m_vars s) i, nth_error (m_vars s) j with
    | Some v, Some w =>
        obind (reserve s i (length (v_ids v) + length (v_ids w)))
          (fun s1 => match nth_error (m_vars s1) j with
                     | None => UB
                     | Some w1 => append_loop (length (v_ids w1)) s1 i j (v_buf w1) 0
                     end)
    | _, _ => UB
    end.

  (** l.170-176, l.205-221, l.243-256 concatenate(parts...) *)
  Inductive part := PGen (j n : nat) | PMono (j : nat) | PRange (j a b : nat).
  Definition part_size (s : mstate) (p : part) : nat :=
    match p with
    | PGen _ _ => 1
    | PMono j => match nth_error (m_vars s) j with Some w => length (v_ids w) | None => 0 end
    | PRange _ a b => b - a
    end.
  Definition append_part (s : mstate) (i : nat) (p : part) : outcome :=
    match p with
    | PGen j n => append_gen s i j n
    | PMono j => append_mono s i j
    | PRange j a b => append_range s i j a b
    end.
  Fixpoint append_parts (s : mstate) (i : nat) (ps : list part) : outcome :=
    match ps with [] => Done s | p :: t => obind (append_part s i p) (fun s' => append_parts s' i t) end.
  (** a new variable holding an empty vector *)
  Definition new_var (s : mstate) : mstate :=
    {| m_heap := m_heap s; m_next := S (m_next s); m_vars := m_vars s ++ [{| v_buf := m_next s; v_cap := 0; v_ids := [] |}] |}.
  (** [part_var]: the arguments are existing monomials (or parts of them) *)
  Definition part_var (p : part) : nat := match p with PGen j _ => j | PMono j => j | PRange j _ _ => j end.
  Definition concatenate (s : mstate) (ps : list part) : outcome :=
    if forallb (fun p => part_var p <? length (m_vars s)) ps
    then obind (reserve (new_var s) (length (m_vars s)) (list_sum (map (part_size s) ps)))
           (fun s1 => append_parts s1 (length (m_vars s)) ps)
    else UB.

  (** l.40-48, l.65-69: monomial(generators...): make_shared for each *)
  Fixpoint emplace_new (s : mstate) (i : nat) (gs : list G) : outcome :=
    match gs with
    | [] => Done s
    | g :: t => match nth_error (m_vars s) i with
                | None => UB
                | Some v => emplace_new (push s i v (m_heap s ++ [Some (g, 1)]) (length (m_heap s))) i t
                end
    end.
  Definition construct (s : mstate) (gs : list G) : outcome := emplace_new (new_var s) (length (m_vars s)) gs.

  (** l.80 copy constructor (of std::vector) *)
  Definition copy (s : mstate) (j : nat) : outcome :=
    match nth_error (m_vars s) j with
    | None => UB
    | Some w => match retain_all (m_heap s) (v_ids w) with
                | None => UB
                | Some h => Done {| m_heap := h; m_next := S (m_next s);
                                    m_vars := m_vars s ++ [{| v_buf := m_next s; v_cap := length (v_ids w); v_ids := v_ids w |}] |}
                end
    end.
  (** l.82 copy assignment: the new elements are copied before the old ones are
      destroyed (a self-assignment changes nothing) *)
  Definition assign (s : mstate) (i j : nat) : outcome :=
    match nth_error (m_vars s) i, nth_error (m_vars s) j with
    | Some v, Some w =>
        if i =? j then Done s
        else match retain_all (m_heap s) (v_ids w) with
             | None => UB
             | Some h => match release_all h (v_ids v) with
                         | None => UB
                         | Some h' => Done {| m_heap := h'; m_next := S (m_next s);
                                              m_vars := setl (m_vars s) i {| v_buf := m_next s; v_cap := length (v_ids w); v_ids := v_ids w |} |}
                         end
             end
    | _, _ => UB
    end.
  (** l.81 move constructor: the buffer changes hands *)
  Definition move (s : mstate) (j : nat) : outcome :=
    match nth_error (m_vars s) j with
    | None => UB
    | Some w => Done {| m_heap := m_heap s; m_next := S (m_next s);
                        m_vars := setl (m_vars s) j {| v_buf := m_next s; v_cap := 0; v_ids := [] |} ++ [w] |}
    end.
  (** l.84 destructor (the variable becomes an empty monomial) *)
  Definition destroy (s : mstate) (i : nat) : outcome :=
    match nth_error (m_vars s) i with
    | None => UB
    | Some v => match release_all (m_heap s) (v_ids v) with
                | None => UB
                | Some h => Done {| m_heap := h; m_next := S (m_next s);
                                    m_vars := setl (m_vars s) i {| v_buf := m_next s; v_cap := 0; v_ids := [] |} |}
                end
    end.
  (** l.179-183 swap_generators; the asserts *)
  Definition swap (s : mstate) (i n1 n2 : nat) : outcome :=
    match nth_error (m_vars s) i with
    | None => UB
    | Some v =>
        match nth_error (v_ids v) n1, nth_error (v_ids v) n2 with
        | Some x, Some y => Done {| m_heap := m_heap s; m_next := m_next s;
            m_vars := setl (m_vars s) i {| v_buf := v_buf v; v_cap := v_cap v; v_ids := setl (setl (v_ids v) n1 y) n2 x |} |}
        | _, _ => UB
        end
    end.

  Inductive mop :=
  | MNew (gs : list G) | MCopy (j : nat) | MAssign (i j : nat) | MMove (j : nat) | MDestroy (i : nat)
  | MAppendGen (i j n : nat) | MAppendMono (i j : nat) | MAppendRange (i j a b : nat)
  | MAppendLocal (i : nat) (g : G)   (* append() of a generator object that no shared_ptr owns *)
  | MConcat (ps : list part) | MSwap (i n1 n2 : nat).

  (** shared_from_this() of an object without owner throws std::bad_weak_ptr
      (since C++17; undefined behaviour in C++11/14) *)
  Definition mstep (s : mstate) (o : mop) : outcome :=
    match o with
    | MNew gs => construct s gs
    | MCopy j => copy s j
    | MAssign i j => assign s i j
    | MMove j => move s j
    | MDestroy i => destroy s i
    | MAppendGen i j n => append_gen s i j n
    | MAppendMono i j => append_mono s i j
    | MAppendRange i j a b => append_range s i j a b
    | MAppendLocal i g => Thrown s
    | MConcat ps => concatenate s ps
    | MSwap i n1 n2 => swap s i n1 n2
    end.
  Fixpoint mrun (s : mstate) (p : list mop) : outcome :=
    match p with [] => Done s | o :: t => obind (mstep s o) (fun s' => mrun s' t) end.
  Definition mempty : mstate := {| m_heap := []; m_next := 0; m_vars := [] |}.

  (** size() and operator[] l.87, l.127-129 *)
  Definition m_value (s : mstate) (v : vec) : list (option G) := map (lookup (m_heap s)) (v_ids v).
End MON.
