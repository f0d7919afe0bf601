# Formal model of libcommute in Rocq (Coq 8.16.1) — design

Source: `/repo` (krivenko/libcommute, header-only C++). The model is hand-written executable Gallina read off the
headers; the code is never run. Every definition of a `*Model.v` file cites the file and lines it models and says
where it simplifies.

## Layout (`rocq/theories/`)

| file group | contents |
|---|---|
| `*Model.v`  | executable definitions only, with citations of `/repo` |
| `*Spec.v`   | small independent specifications (mathematical counterparts, no reference to the code) |
| `*Proofs.v`, `*Main.v`, other | lemmas |
| `Prop*.v`   | property theorems, each followed by `Print Assumptions`, with a non-vacuity `Example` beside it |

| area | model | specification | properties |
|---|---|---|---|
| generators, monomials, expressions, factories (`expression/*.hpp`, `scalar_traits.hpp`, `utility.hpp`) | `ExprModel`, `TolModel`, `UserModel` (`examples/gamma.hpp`, `examples/virasoro_algebra.cpp`), `PrintModel` | `ExprSpec`, `FockSpec`, `TolSpec`, `AssocSpec`, `MixSpec`, `PrintSpec` | `PropAssoc`, `PropVirasoro`, `PropConjUser`, `PropMix`, `PropPrint`, `PropExpr`, `PropExpr2`, `PropFactories`, `PropUnique`, `PropConj`, `PropLin` (vocabulary `LinSpec`), `PropTol` |
| bit primitives (`bit_ops.hpp`) | `BitsModel` | `BitsSpec` | `PropBits`, `PropPopcount` |
| Hilbert spaces (`elementary_space*.hpp`, `es_constructor.hpp`, `hilbert_space.hpp`) | `HSModel` | `HSSpec` | `PropHS`, `PropNest` |
| monomial actions, linear operators, state vectors (`monomial_action*.hpp`, `loperator.hpp`, `state_vector.hpp`, `sparse_state_vector.hpp`) | `LOpModel`, `ExactModel` (act() with a make_const() that throws), `UserActModel` (user-defined `monomial_action<>`, `examples/gamma.loperator.cpp`) | `LOpSpec`, `ExactSpec`, `UserActSpec` | `PropLOp`, `PropExact`, `PropUserAct`, `PropLOp2`, `PropLOp3`, `PropAdjoint`, `PropSV`, `UFock`, `UFock2`, `UFock3`, `PropBos`, `Cutoff`, `PropCut` |
| ranking and unranking, sectors, multisectors (`n_fermion_sector_view.hpp`) | `RankModel`, `TrieModel`, `SectorModel` | `RankSpec`, `SectorSpec` | `PropRank`, `PropTrie`, `PropSector`, `PropMulti`, `PropSectorAct` |
| disjoint sets, space partition (`disjoint_sets.hpp`, `space_partition.hpp`) | `DSModel`, `SPModel` | `DSSpec`, `SPSpec` | `PropDS`, `PropSP` |
| operations on expressions with different scalar types (`expression.hpp`) | `ConvModel` | `ConvSpec` | `PropConv` |
| exceptions at every point of the operations on expressions (`expression.hpp`) | `CrashModel` | - | `PropCrash` |
| exceptions at every point of `hilbert_space::add()` and of the copy assignment | `HSCrashModel` | - | `PropHSCrash` (`HSCrashProofs`) |
| the example program `examples/heisenberg_chain.cpp`, for every number of spins | `HeisModel` | `HeisSpec` | `PropHeis` (`HeisSum`, `HeisDen`, `HeisLocal`, `HeisProofs`, `HeisPairs`) |
| rounding errors of expression arithmetic (double, complex<double>) | `RoundModel` (with `ExprModel`) | `ERoundSpec` | `PropERound` (`ERoundProofs`, `ERoundSize`) |
| `space_partition` applied to linear operators, work in a subspace through mapped views | `PartLModel` (with `SPModel`, `LOpModel`, `ViewModel`) | `PartLSpec` | `PropPartL`, `PropPartX`, `PropViewX` (on `ViewExact`) |
| `var_number`, `linear_function`: comparison, `set()`, `vanishing()` | `ExprModel`, `LfModel` | `LfSpec` | `PropLf` |
| example `parametric_loperator.cpp`: class `polynomial`, `scalar_traits<polynomial>`, the displaced oscillator | `PolyModel` | `PolySpec` | `PolyProofs`, `PolyConv`, `PolyExpr`, `PolyOsc`, `PropPoly`, `PropParam` |
| example `jaynes_cummings.cpp`: Hamiltonian, number operator, index sums, energies, dressed states | `JCModel` | `JCSpec` | `JCExpr`, `JCAct`, `PropJC` |
| example `holstein.cpp`: lattice, hopping, phonons, coupling, both checks | `HolModel` | `HolSpec` | `HolProofs`, `PropHol` |
| example `hubbard_holstein.cpp`: lattice, the four groups of terms, N, S_z, the three checks | `HHModel` | `HHSpec`, `HolSpec` | `HHProofs`, `PropHH` |
| example `hubbard_holstein_1d.cpp`: l.60-77 (the Hamiltonian) and the numbers of electrons of each spin | `ChModel` | `HolSpec` | `ChProofs`, `PropCh` |
| example `spin1_heisenberg.cpp`: l.48-52 (the Hamiltonian), the projection of the total spin | `SrModel` | `HolSpec` | `SrProofs`, `PropSr` |
| examples `n_fermion_sectors.cpp`, `spin1_heisenberg.cpp`: the loops that fill a matrix | `MatrixModel` | `PropMatrix` (`matrix_of`) | `PropMatrix` |
| example `kanamori.cpp` (t_2g shell, integrals of motion) | `KanModel` | `KanSpec` | `PropKan` (proofs: `KanDen`, `KanVals`, `KanLin`) |
| exceptions while partitioning (`space_partition.hpp`) | `PartCrashModel` | `SPSpec` | `PropPartCrash` |
| scalar arguments referring into the expression (`expression.hpp`) | `AliasModel` | `ExprSpec` | `PropAlias` |
| monomials as vectors of shared generators (`monomial.hpp`) | `MonModel` | `MonSpec` | `MonProofs`, `PropMon` |
| recursion depth of `find_root` (`disjoint_sets.hpp`) | `DSModel` | `PropDSDepth` (`find_calls`) | `DSDepth`, `PropDSDepth` |
| concurrent `find_root`, `in_same_set` on one `disjoint_sets` (mutable `parents_`) | `ConcModel` (interleaved reads and writes) | `ConcSpec` | `PropConc` |
| concurrent `foreach` over sector, multisector and compressed views and sparse Hilbert spaces (mutable members) | `ConcLoopModel` | `ConcLoopSpec` | `PropConcLoop` |
| mapped and compressed views (`mapped_basis_view.hpp`, `compressed_state_view.hpp`) | `ViewModel` | `ViewSpec` | `PropView`, `WindowSpec`, `PropWindow`, `PropComp` |
| Eigen 3 adaptors (`state_vector_eigen3.hpp`) | `EigenModel` | `EigenSpec` | `PropEigen` |
| loops over sector views with shared state (`n_fermion_sector_view.hpp`) | `ReentModel` | `ReentSpec` | `PropReent` |
| number of bits of an elementary space in binary64 (`elementary_space_*.hpp`) | `NBitsModel` | `NBitsSpec` | `PropNBits` |
| `double` and `std::complex<double>` scalars, `std::sqrt` and half-integers in binary64 (`scalar_traits.hpp`, `monomial_action_{boson,spin}.hpp`) | `RoundModel` (operations for `LOpModel`) | `RoundSpec` | `PropRound` |

## Modelling conventions

* `sv_index_type` (`std::uint64_t`) is `N`; every operation of the C++ code that can wrap is written with an explicit
  reduction modulo 2^64 (`w64`, `sub64`, `not64`); `int` arithmetic whose overflow matters (F3, F11) is reduced to 32 bits.
  Other `int`/`unsigned int` values (bit positions, numbers of modes, powers) are `nat` or `Z`.
* `std::map`, `std::set` are association lists kept sorted by the model of the C++ insertion; for `std::unordered_map`
  and `std::multimap` traversals the theorems quantify over every order.
* Exceptions are a distinct outcome; undefined behaviour (out-of-bounds access, over-long shift, use of an invalid iterator,
  failing `assert`) is a distinct outcome as well (`None`, `LUnknown`, ...), so a theorem that concludes `Some`/`Ok` includes
  the absence of undefined behaviour.
* Scalar types are a record of operations with a separate record of laws (`scalar_laws`: commutative ring, `is_zero` exact;
  where needed no zero divisors, conjugation, square roots). They are instantiated with `Z`, rationals, `Z/4`, real and complex
  numbers over Coq's reals. **Rounding of floating-point numbers is not modelled** except in C74, C75 and C88; see below for the tolerance of `is_zero`.
* Index types are arbitrary types with `==`, `<`, `>` forming a strict total order (`index_order`); tuples of integers and strings and
  `dyn_indices` are shown to be such types (`C01_index_orders`).
* User-defined algebras: normalization, order and canonical form are proved for an arbitrary record of virtual functions (`gen_ops`).
* Loops are structural recursion, or fuelled recursion with a distinct out-of-fuel outcome proved unreachable (termination).

## Per property: what is modelled and how it is proved

* **C01, C02** — generators (fermion, boson, spin, user-defined) with `<`, `>`, `==` as written; case analysis and lexicographic induction.
* **C03** — invariant (sorted, reduced, no zero coefficients, no duplicates) by induction over all histories of the interface (`built`).
* **C04–C06, C14** — an expression is the sorted association list monomial → coefficient with the find/insert/erase steps of the code; a coefficient function
  is the specification.
* **C07–C09** — `normalize_and_store` is the same bubble sort with the same recursion into the lower-order terms. Soundness: for every interpretation of
  the generators in an associative algebra satisfying the (anti)commutation relations, the value is preserved; termination by a measure of inversions/length.
* **C10** — canonical monomials are linearly independent as operators on Fock space (`FockSpec/FockRep/FockUnique`), so `==` is equality of operators, which gives the ring laws.
  **C11** — a computed witness that this fails for spin 1.
* **C59** — every call of `normalize_and_store` computes a linear map: the coefficient of each monomial in the result is `coeff * N(word, monomial)` for a function `N` defined by
  the rewriting itself (`ExprLin`); distributivity etc. follow coefficientwise. Works without uniqueness of normal forms (spin 1) and for user-defined algebras.
* **C60** — the same model instantiated with a scalar type whose arithmetic is exact and whose zero test is `|x| < tol` (`TolModel`). Products: the runs with exact and with
  approximate zero test are simulated side by side (`TolProofs`): control flow differs only where a coefficient below `tol` is dropped; each drop costs `tol`, and `drops n` bounds
  their number. Integers: a homomorphism of scalar types preserves every operation.
* **C61** — Bergman's diamond lemma for the rewriting that `normalize_and_store` performs (`AssocProofs`): `V k w` is the coefficient of the monomial `k` in the normal form of the word `w`
  under leftmost rewriting; local confluence on overlaps `x y z` (which associativity of generators gives) implies that the value does not depend on where one rewrites, by induction on
  a measure (length, inversions); the bubble sort of the code computes `V` once confluence holds.
  **C62** — the overlaps of the gamma matrices are resolved by computation; anticommutators and conjugates for symbolic indices.
  **C63** — for Lie-type algebras the overlap `x > y > z` is resolved iff the Jacobi identity of the library's own commutators holds (`LieProofs`); for Virasoro it reduces to
  two polynomial identities. `double_scalar_ops` (exact arithmetic, real structure constants `VReal`) is the coefficient type.
  **C64** — a functional on words that does not see the rewriting (`Inv`) is carried by conjugation to another one; hence the coefficients of `conj(a*b)` and `conj(b)*conj(a)` agree (`ConjUser`).
  **C65** — `mono_act_charge` (a monomial changes the particle numbers by its charge) and `numbered_action` (a vector whose elements are numbered by a list of states) on top of C45/C46 and the act-through-a-view lemma of C55 (`SectorAct`).
  **C66** — `mix_ops` on a sum type; the embeddings preserve rewriting (`NL_map`), the only new overlaps are `b a a'` and `b b' a` and they resolve (`mix_res`), so C61/C64 apply to the mixture (`MixProofs`, vocabulary `MixSpec`).
  **C67** — `PrintModel` builds the text with Coq strings; every piece is a prefix code with respect to the characters that may follow it (`int_code`, `indices_code`, `gen_code`, `runs_code`, `terms_code`).
  **C68** — `UserActModel` repeats the loops of `loperator` for an arbitrary class `monomial_action<id>` (`builtin_monos`: the built-in ones are an instance); soundness of the normal form (`e_mul_sound`) in the ring of matrices; `conj_star` for the adjoint; the 16 products of gamma matrices are orthogonal with respect to the trace (phases are powers of i, checked by computation for the 256 pairs).
  **C69** — `ExactModel` repeats act() with `make_const` of a number `sqrt n` or `(z/2)^p` that may throw; a simulation of the real operator (`sim_mono`) through the embedding of the scalars into R; `mono_int`: a monomial that does not throw has an integer factor.
  **C70** — `WindowSpec` states what a window into a vector is; the positions are those of C45, C46, C56.
  **C71** — `EigenModel`: a vector is (offset, stride, length) in a common memory; operator() with a live reference to the source amplitude; when src and dst are disjoint it equals the loop over the original entries (`loop_eq`).
  **C72** — Matrix elements of a canonical monomial factorise over the elementary spaces up to one sign that does not depend on the local states' values beyond parities (`factorise`, `sg_agree`); local operators are linearly independent by explicit dual functionals (`mel_independent`), so a combination with zero matrix elements is the empty expression.
  **C73** — `ReentModel`: foreach as a state machine over (generator of the view, program state) with an arbitrary functor; for every reachable generator state init() restarts the enumeration (`ug_state_reset`, `mg_all_part`, the latter for arbitrary stale partial results), a nested loop leaves the generator exhausted (`row_nested`).
  **C74** — `NBitsModel`: conversion to binary64 (Flocq), an arbitrary function for std::log2, ceil; the specification states doubles and faithful rounding in elementary terms. k + 2^-47 is a double not above log2(dim) for 2^k < dim, k <= 47; no double lies between 49 and 49 + 2^-47. `C74_model` discharges the idealisation of `HSModel`.
  **C75** — `RoundModel` instantiates the operations of `LOpModel` with rounded ones (Flocq, 53 digits, unbounded exponents); `RoundSpec` states the standard model of rounding, the sum of absolute contributions and the bound. The code makes the same decisions with rounded and exact scalars (indices do not depend on coefficients), every factor costs at most three roundings, and a monomial is an injective partial map of basis states, so each amplitude receives at most one contribution per monomial.
  **C76** — `ConcModel`: a call of find_root is a state machine with one read or write of `parents_` per step (stack of waiting recursive calls), a schedule is a list of thread numbers. Invariant: every parent is a proper ancestor in the initial forest; each running call has a fixed root and a decreasing measure. `C76_alone` ties the machine to the function model of C47.
  **C77** — `ConcLoopModel`: loops as state machines over objects with mutable members; a schedule is a list of thread numbers. Threads with different objects are shown to act as if alone; a thread alone follows the trace of the generator (C45, C46, C56, C19), which is independent of the history of the object (C73).
  **C78** — `ConvModel`: the operations with a second scalar type and its conversion (`mixed_ops`). Conversion of a sorted map appends at the end; the rest is the homomorphism theorem of `ExprHom` and unfolding of the mixed overloads.
  **C79** — `CrashModel`: the loops of `expression` with a budget of calls that succeed. Each loop is shown equal to the normal one on an initial segment of its input; canonical form then follows from the theorems for the normal operations.
  **C80** — `PartCrashModel`: the loops with a budget of calls that succeed. The collecting phase only compresses paths (`ds_sim`: same roots, ranks and number of sets), and merging and numbering are proved to commute with path compression; numbering is shown to be determined by the partition.
  **C81** — `AliasModel`: the loops with the argument given by its position; every use reads the current value. Induction over the loop.
  **C82** — `MonModel`: heap of generator objects with use counts, vectors with buffer identity and capacity, iterators as positions in a buffer. Refinement of `MonSpec` (lists) by an invariant: use counts are the multiset of references.
  **C83** — Invariant: a height function that increases towards the roots and is bounded by the rank of the root plus a constant, and 2^rank <= size of the set for every element (also for non-roots, because normalize_sets turns them into roots without changing ranks). Each tree is re-rooted at most once per normalization.
  **C84** — The canonical commutation relations do not hold for truncated matrices, so the expressions are evaluated in the ring of linear maps on functions over (fermion/spin state, list of unbounded boson numbers), where all relations hold (`urelations`); canonical monomials (creations to the left of annihilations) have the same matrix elements between truncated states as the untruncated ones (`mel_uexpr`).
  **C85** — `same_state` relates the states of the two spaces field by field; one action on related states gives related states, or both vanish, or the larger one leaves the smaller space (`gact_agree`, `mact_agree`), whence equal matrix elements (`mel_same`); the sum over the larger basis reduces to the embedded smaller basis (`ssum_part`).
  **C86** — Invariant of `hs_history`: the keys of the map are sorted and well-formed, whatever the other members are. `add()` reads only the keys and dim_ (`add_repairs`, `add_outcome`), the crash model agrees with HSModel when nothing throws (`add_c_some`, `add_c_enough`).
  **C87** — Model of main() with its loops. Each expression of the program is proved to have the value of the corresponding polynomial of spin operators in every ring with the spin-1/2 relations (`means`, by soundness of the expression arithmetic). In such a ring the commutator of two sums of translates of local operators is the sum of translates of a commutator density that does not depend on N (`comm_csum`, `check_commute`, operators on disjoint windows commute); the density is computed once inside Coq and vanishes after its monomials are moved to the left end. Chains shorter than two windows (N < 8) are computed with rotations (`check_cyc_commute`). Zero in every ring implies the empty expression by uniqueness of the normal form (C10).
  **C88** — Three runs of the normal-form algorithm side by side: exact, rounded, with absolute values. They take the same branches up to the zero tests (exchanges depend on generators only); the invariant `off` bounds the difference of the first two by `coef_error` of the number of steps and the third. The third run is bounded by a count of stored terms (`grows`).
  **C89** — The columns visited by the loops of the class are proved to be the non-zero matrix elements (`column`), which instantiates the abstract operator of `SPModel`; components carry over by an isomorphism of relations, the view theorem by C55.
  **C90** — `LfModel` runs the assignments, clear() and emplace_back one by one on references; induction over the arguments and the history. vanishing(): evaluation at a unit vector.
  **C91** — The value of every object in every ring (by the homomorphism lemmas); H_K and H_t2g are linear in (U, J), so the two points (1, 0) and (0, 1), computed by the kernel, settle all; canonicity (C10) turns the value 0 into the empty expression. Commutation: the Lie algebra of N, S, L is computed, the rest is ring algebra.
  **C92** — A column of the matrix is a state vector whose updates leave the rest of the memory alone (C71); C65 and C56 give each column, induction over the columns the matrix. Eigenvectors: the sum over all states is the sum over the sector, since H does not leave it.
  **C93** — Two representations of a polynomial can differ by trailing zeros, so the class does not satisfy the laws with Leibniz equality. The canonical coefficient lists do; stripping trailing zeros is an exact conversion (C78), so every expression operation commutes with it, and the theorems about expressions with lawful scalars apply. Evaluation at x is a ring homomorphism, so it turns a ring for the numbers into one for the polynomials. Uniqueness of normal forms (C10) gives equality term by term.
  **C94** — Uniqueness of normal forms (C10) gives the terms of H and N, and the empty commutator from a computation in an arbitrary ring with the relations of the generators. The action of each generator on |n, s> is computed from the fields of the index; sums over the basis collapse to the two states of the block. With tan(alpha) = Omega sqrt(n)/delta the block is a rotation.
  **C95** — The loops with += are programs of expressions (`total`), so that the result has a value in every ring with the relations. There n c+ = c+ (n + 1) for each orbital of a duplicate-free list, by induction over the list; every term of H preserves n. Conjugation is evaluation in the opposite ring; the list of bonds is a permutation of the reversed bonds. Uniqueness of normal forms (C10) turns equal values into equal expressions.
  **C96** — As C95, with the number operators of the two spin projections separately: each commutes with every term of H; N and S_z are combinations of them.
  **C97** — As C96, for a chain; `+ hc` is computed by comparing e_plus_hc with the program that adds the two jumps, by uniqueness of canonical forms.
  **C98** — As C95 with spin operators: the total S_z commutes with each bond because S_+ raises and S_- lowers it by one; values of programs with spins of one multiplicity by soundness of the rewriting (std_sound_on).
* **C12, C13** — conjugation evaluates to the star of the value in every star algebra; with C10, the laws hold up to `==`.
* **C15, C16** — factories: the products are computed by the model for arbitrary indices and scalars; C16: witness for the ignored multiplicity.
* **C17, C18, C58** — integral scalars (throw or exact), zero divisors (witness over `Z/4`), self-aliased `+=`/`-=`.
* **C19–C26, C57** — Hilbert space as the ordered list of elementary spaces with bit ranges; `add`, `recompute_bit_ranges`, `foreach` with merged sizes and the
  mixed-radix counter; invariants over all histories of `add`/`add_all`/copies/assignments (`hs_reachable`); refutations for copies, failed `add`, 2^31 states, nesting.
* **C27–C32, C34–C36** — monomial actions with the masks and update lists exactly as built by the constructors; specification: composition of one-generator actions
  on occupation numbers. C33: products/sums/adjoints via the matrix elements of the canonical expression. C35: exact rejection condition.
* **C37** — histories of operations on the sparse vector refine the mathematical vector.
* **C38, C39** — both preprocessor branches over `N`.
* **C40–C44** — specification: position in the increasing enumeration of the K-subsets (`sector_position`). C44: invariant of the recursive construction with in-place packing
  (every word already treated has a path of in-range cells to a leaf that stores its rank; moving a subtree back preserves paths).
* **C45, C46** — views, sizes, basis states and `foreach` of sectors and multisectors for the three ranking algorithms.
* **C47–C52** — union-find over all histories; specification: equivalence closure; partition of a Hilbert space by an arbitrary sparse operator.
* **C53–C56** — mapped and compressed views; restricted action of operators. C55_exact (`ViewExact`): in a domain of characteristic 0 no action returns a zero coefficient for a non-zero one (induction over the updates; only S_z has zero matrix elements, and the code skips these), so the exception is thrown exactly if a non-zero term leads out of the map.

No property of `properties.jsonl` was dropped as inexpressible. Where the property a user would expect is false of the code, the entry states what is true, and a
`…_refuted` theorem exhibits the violation in the model.

## Trusted base

* The Coq 8.16.1 kernel (`coqc`); `vm_compute` is used for concrete examples and for one table of binomials (its reduction machine is part of the kernel).
* **Axioms**: `Print Assumptions` reports "Closed under the global context" for every theorem named in `MANIFEST.json`, except those of C69 (`C69_make_const`, `C69_types`, `C69_exact`,
  `C69_must_throw`, `C69_never_throws`, `C69_number_refuted`, `C69_half_refuted`) and of C74 (`C74_least`, `C74_spin`, `C74_model`, `C74_large_refuted`, also `Classical_Prop.classic`) and C75 (all but `C75_gamma` also `Classical_Prop.classic`), whose statements are about real numbers. They use three axioms of the standard library's `Reals`:
  `ClassicalDedekindReals.sig_forall_dec`, `ClassicalDedekindReals.sig_not_dec`, `FunctionalExtensionality.functional_extensionality_dep`. The same axioms (and `Classical_Prop.classic` through
  `Reals` lemmas) appear in the real and complex number instances of `LOpReal.v` and in the examples that show that the hypotheses "scalars with square roots" can be met (`lop_hypotheses_met`,
  `C33_adjoint_ex`, `C54_ex`, `C55_ex`, `C56_ex`, `C65_ex`, `C71_ex`). `vcheck` also lists the opaque interfaces of
  `Coq.Reals.Rdefinitions` (`RbaseSymbolsImpl.*`, `RinvImpl.*`, module-sealed definitions) and of `Coq.ssr.ssrunder`; those are standard-library module seals, not axioms of this development.
* No axiom, `Admitted`, functor, module type, plugin or disabled kernel check is used.
* The faithfulness of the hand-written model to the C++ (comments in the `*Model.v` files).

## What is modelled and what is not

Modelled: everything in the table above, including the alternative portable branches of `bit_ops.hpp`, exceptions thrown, and the undefined behaviour listed under Findings.

Not modelled:
* rounding of floating-point arithmetic (scalars are exact, except in C88: sums, differences, products and multiples of expressions, and C75: linear operators in binary64 without overflow and underflow, `std::pow` as repeated multiplication; the tolerance `100*eps` of `scalar_traits<floating>::is_zero` is modelled in C60 and C75 only; `std::log2` is exact in `HSModel`, justified for dimensions up to 2^48 by C74);
* allocation failure (`bad_alloc`) except in C79 and C80, data races except in C76/C77, iterator invalidation other than in C58;
* template metaprogramming and overload resolution, Eigen itself (a vector type is modelled by the positions of its elements), the gmpxx and boost adaptors other than `make_const` (their arithmetic is taken as exact);
* sharing of generators through `std::shared_ptr` outside of `MonModel` (C82 proves that monomials behave like sequences of values; everywhere else generators are immutable values);
* copies of multisector views (dangling reference, F16).

## Findings (violations of an expected property by the code as it is)

* **F1** (C16) `generator_spin::simplify_prod` tests only the multiplicity of its left operand, so an index shared by a spin 1/2 and another spin gives wrong products.
* **F2** (C46_33_modes_refuted) `n_fermion_sector_params_t::init_mask` returns `unsigned int`: multisectors with a mode beyond the 32nd are wrong.
* **F3** (C23_refuted, C56_large_refuted) `std::accumulate(.., 1, ..)` in `sparse_foreach_basis_state`/compressed views multiplies in `int`: nothing is visited for 2^31 states or more.
* **F4** (C40_binomial_63_refuted, C42_unranking_size_63_refuted, C45_63_modes_refuted) `binomial(63, 29..34)` overflows.
* **F5** (C39) the portable `popcount` returns parities of prefixes.
* **F6** (C48_normalize_smallest_refuted) `normalize_sets()` after `compress_sets()` does not make the smallest element the representative.
* **F7** (C25_copy_refuted, C35_copied_space_refuted, C45_copied_space_refuted) copying a `hilbert_space` does not copy `algebra_bit_ranges_`; self-assignment empties the space.
* **F8** (C25_failed_add_refuted) `add()` that throws `hilbert_space_too_big` leaves the new space inserted.
* **F9** (C57) nested `foreach` over one sparse space shares its counter.
* **F10** (C51_one_to_one_refuted) one call of `merge_subspaces` does not make the connections one-to-one.
* **F11** (C54_order_refuted, C54_large_N_refuted) `basis_mapper(O_list, hs, N)` applies the first operator of the list first; `N >= 2^31` gives an empty map.
* **F12** (C18) scalars with zero divisors lead to stored zero coefficients.
* **F13** (C58_sub_self_refuted) `e -= e` iterates over a container it erases from.
* **F14** (C11) multiplication is not associative up to `==` for spins >= 1.
* **F15** (C34, C21) truncated bosons break the product law at the top; the number of bits is computed with `double` `log2` (C74).
* **F16** (C56_one_dimension_refuted, C45_no_bits_refuted, C36_moved_arguments_refuted, C35_unknown_boson_refuted) one-dimensional compressed views visit nothing; the sector of a space without bits is empty;
  `parametric_loperator` forwards rvalue arguments repeatedly; a vanishing bosonic factor hides unknown generators. A copied `n_fermion_multisector_view` refers to the sector parameters of the original.
* **F17** (C47_root_union_self_refuted) `root_union(x, x)` decrements the number of sets.
* **F18** (C37_read_refuted) reading an absent element of a sparse vector through `operator[]` stores a zero.
* **F19** (C25_equality_refuted) `operator==` of Hilbert spaces ignores the truncation of bosons.
* **F20** (C35_assigned_space_refuted) a Hilbert space that was assigned to keeps the old algebra ranges: operators with wrong signs.
* **F21** the constructors of boson and spin monomial actions increment an end iterator on an empty range.
* **F22** (C44_63_modes_refuted) `trie_ranking` with 63 modes shifts by 64 bits.
* `L(v, v)` (source and destination aliased) gives the zero vector (C32_aliased).
* **F23** (C60_conj_refuted) `conj` of an expression with a stored coefficient below the zero tolerance adds the preceding monomial's conjugate twice:
  `conj(c_dag(0) + 1e-10*(1e-10*c_dag(1))) == 2*c(0)`. Such coefficients are stored by sums, scalings and short products without a test (C60_sums, C60_scaling_refuted).
* **F24** (C63_virasoro_not_associative) `generator_virasoro::simplify_prod` of `examples/virasoro_algebra.cpp` sends `L_n*L_n` to 0, which no representation of the Virasoro algebra satisfies: products are not associative.
* **F25** (C65_not_conserving_refuted) `n_fermion_sector_view` does not detect states outside of its sector: `map_index` returns the position of another state (mapped views throw `std::out_of_range`), so operators that do not conserve the number of fermions give wrong amplitudes silently.
* **F26** (C67_strings_refuted) Different expressions print the same when string indices look like integers (`c(1)`, `c("1")`), contain commas, or are empty; in particular the printed form cannot be used as a key.
* **F27** (C67_past_the_end) `operator<<` of monomials computes `m.begin() + 1` also for the empty monomial and increments `next_it` once more after it has reached `end()`: the iterator always ends at `end() + 1`, which is undefined behaviour (harmless with plain pointers, an abort with checked iterators).
* **F28** (C68_gamma_index_refuted, C68_gamma_other_spaces_refuted) In `examples/gamma.loperator.cpp`, `make_gamma(i)` accepts every `int`, but `act()` silently treats any index other than 0..3 as the identity although the algebra simplifies its square to -1; and `act()` uses the index of the whole basis state as an index into arrays of 4 elements, so that a Hilbert space with any further elementary space is read out of bounds.
* **F29** (C69_number_refuted, C69_half_refuted, C69_after_throw_refuted) With `int`, `mpz_class` or rational scalars, `make_const()` converts each square root separately: the number operator `a_dag()*a()` throws on the state |2> although its matrix elements are 0, 1, 2, ...; for `mpq_class` and `boost::rational`, `S_z()` of a spin 1/2 throws although -1/2 and 1/2 are rational (make_const(double) accepts integers only). The exception leaves the target vector of `L(src, dst)` partially overwritten.
* **F30** (C71_overlap_refuted) `L(src, dst)` with overlapping parts of one Eigen vector or matrix (e.g. two overlapping segments) silently gives a wrong result: `set_zeros(dst)` erases elements of `src`, and the references passed by `foreach(src)` see values already written to `dst`. Disjoint parts are safe (C71_action).
* **F31** (C72_truncation_needed, C72_spin_one_refuted) `loperator` is not faithful outside the conditions of C72_faithful: (a+_i)^d is not the zero expression but its operator is zero when the space of boson i has dimension d, and for spins >= 1 different expressions, e.g. S_z^3 and S_z for spin 1, have the same operator. Comparing expressions with == or testing a commutator for zero is then sufficient, not necessary, for the operators to be equal or commute.
* **F32** (C73_nested_refuted) The generator of basis states is a mutable member of `n_fermion_(multi)sector_view`: a functor that runs `foreach` (e.g. applies an operator to the view) over the view it is called from ends the outer loop after the current state of the fermions; the remaining states are skipped without an error.
* **F33** (C74_large_refuted) `elementary_space_boson(2^49 + 1, ...)` gets 49 bits even with a correctly rounded `std::log2`: `ceil(log2(dim))` in double precision is only right up to dimension 2^48 (2^49 with correct rounding), so `vec_size()` of such a space is smaller than `dim()`.
* **F34** (C75_relative_refuted) the error of a linear operator is small relative to the sum of the absolute values of the contributions, not relative to the result: 2^54 + n_0 - 2^54 n_1 applied to |11> gives 0 instead of 1.
* **F35** (C76_race_after_compress_refuted) `disjoint_sets::find_root() const` writes `parents_`: two threads that only query a const structure can be in a data race (formally undefined behaviour), also after compress_sets(). With sequentially consistent accesses the answers are nevertheless always right (C76_concurrent).
* **F36** (C77_shared_view_refuted, C77_shared_space_refuted) `foreach()` takes const references but changes mutable members of the view (Hilbert space): two threads that loop over one const object can miss states, visit numbers that are not basis states and read beyond the end of the vector. Each thread needs a copy.
* **F37** (C78_narrowing_refuted) Conversions are not followed by a zero test: `expression<int>` constructed or assigned from, added to or multiplied by an `expression<double>` (or a `double`) with a coefficient 0.5 stores a zero coefficient; the result is not `==` to the zero expression and has `size()` 1. (Likewise from `double` to `float`, whose zero tolerance is larger, cf. F23.)
* **F38** (C80_unusable_refuted) `space_partition::merge_subspaces()` rebuilds its map from set roots to subspace numbers in place (`clear()` first): if memory runs out there, the partition is left with only some of its subspaces numbered. `sp[x]` throws for the others, `foreach` and `subspace_basis` throw, and `find_connections()` dereferences the end iterator (undefined behaviour). Another call of `merge_subspaces()` repairs the object (C80_retry).
* **F39** (C81_mul_aliased, C81_mul_aliased_iff) `e *= e.begin()->coeff` (any reference to a coefficient of e, as obtained from its iterators) multiplies the monomials after the referenced one by the square of the coefficient, because `operator*=(S const&)` goes on using the argument after having changed it. `e * c`, `e += c` and `e -= c` are not affected.
* **F40** (C82_self_range) `m.append(r)` with a range r of m itself reads through invalidated iterators as soon as the vector has to grow (`append(monomial const&)` reserves first, the range overload does not). `append()`/`concatenate()` with a generator that no shared_ptr owns (e.g. a local variable) throws `std::bad_weak_ptr` (undefined before C++17).
* **F41** (C86_overlap_refuted, C86_dim_refuted, C86_old_loop_refuted) if memory runs out inside `hilbert_space::add()` the new elementary space stays in the object, the bit ranges can overlap, `vec_size()` can be smaller than `dim()`, `foreach()` is that of the old space; the call cannot be repeated (`elementary_space_exists`), and a later successful `add()` repairs everything except `dim()`, which then lacks a factor for good (so that `foreach()` misses states of power-of-two spaces). Extending a copy and moving it back is all or nothing (C86_copy_and_swap).
* **F42** (C89_view_refuted) a subspace of `space_partition` is invariant under the operator, yet applying the operator to a mapped view of the subspace can throw `std::out_of_range`: H = (c+_1 c_0 + c+_0 c_1)(1 - n_2), subspace {|5>}. The terms of H are added one by one, and those that cancel in a matrix element are written to (absent) states of other subspaces first. The comment in `examples/partition.cpp` ("No exception here because 'Hop' connects subspace 24 only to itself") is not a sufficient reason.
* **F43** (C90_set_variadic, C90_refuted) the variadic `linear_function::set(c, g1, c1, ...)` takes its arguments by reference and assigns `const_term` and clears `terms` before reading them: `f.set(1, f.terms[0].first, 2)` reads a destroyed element, and `f.set(7, g, f.const_term)` stores 7 instead of the old constant. The overload taking a `std::vector` by value is free of this. In the library every call passes values of its own.
* **F44** (C94_spectrum, C94_exchanged) `examples/jaynes_cummings.cpp` l.68-74, 126-141: for w_a < w_c the states called "+" and "-" belong to the energies E_- and E_+ (atan gives a negative angle): `C94_spectrum` states the sign, `C94_exchanged` shows a case. For w_a = w_c the mixing angle divides by zero. The program uses w_a > w_c only, where it is correct.
* **F45** (C95_open, C95_not_periodic) `examples/holstein.cpp` l.48-51: neighbors() compares |i - j| with N, which two coordinates 0 <= i, j < N never reach; the comments promise periodic boundary conditions, but the boundaries are open (`hubbard_holstein.cpp` compares with N - 1). `C95_open` and `C95_not_periodic` prove it; `C95_hamiltonian` describes the operator that is built.
