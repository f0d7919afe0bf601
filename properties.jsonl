{"id": "C01", "title": "Generator ordering is a strict total order", "statement": "For generators of all algebras, `<` is irreflexive, transitive and total with respect to `==`, `>` is its converse, and `==` holds exactly when the algebra ID and every defining field (dagger flag / spin component and multiplicity / index tuple) coincide.", "quantifier": "all pairs and triples of generators of the fermion, boson and spin algebras with arbitrary index tuples and multiplicities", "why_tests_cant": "std::map keyed by monomials silently corrupts if the order is not strict/total for even one triple; the triples are unbounded.", "anchors": ["include/libcommute/expression/generator.hpp: operator==, <, >", "include/libcommute/expression/generator_fermion.hpp: less, greater", "include/libcommute/expression/generator_boson.hpp: less, greater", "include/libcommute/expression/generator_spin.hpp: equal, less, greater"]}
{"id": "C02", "title": "Monomial ordering is a strict total order and is_ordered means sorted", "statement": "Monomials are compared by length and then lexicographically; the comparison is a strict total order consistent with ==, and is_ordered() is true exactly when no adjacent pair of generators is in descending order.", "quantifier": "all monomials of any length", "why_tests_cant": "map keys and canonical form rely on it for all lengths.", "anchors": ["include/libcommute/expression/monomial.hpp: operator==, operator<, operator>, is_ordered"]}
{"id": "C03", "title": "Expressions are always in canonical form", "statement": "After any finite sequence of expression operations (construction from a scalar or monomial, +=, -=, *=, +, -, *, unary minus, conj) over an integral-domain scalar type, every stored monomial is in non-decreasing canonical order with no further simplifiable adjacent pair for fermions, no two stored monomials are equal, the map is sorted, and no stored coefficient is zero.", "quantifier": "all reachable expressions, i.e. all operation sequences on all generators", "why_tests_cant": "the set of operation histories is infinite; one missed zero or unsorted monomial breaks ==, size() and every later operation.", "anchors": ["include/libcommute/expression/expression.hpp: expression, operator+=, operator-=, operator*=, normalize_and_store, store_monomial"]}
{"id": "C04", "title": "Addition and subtraction are coefficient-wise", "statement": "For every monomial m, the coefficient of m in a+b (a-b) is the sum (difference) of the coefficients of m in a and b; consequently + is commutative, associative, has neutral element 0, and a-a is the empty expression.", "quantifier": "all expressions, all monomials", "why_tests_cant": "requires all overlap patterns between the two ordered maps, including cancellations.", "anchors": ["include/libcommute/expression/expression.hpp: operator+=, operator-=, operator+, operator-, add_impl"]}
{"id": "C05", "title": "Heterogeneous-path addition agrees with in-place addition", "statement": "operator+(a,b) evaluated by the merge of the two maps (different scalar types) yields the same expression as copying a and applying += b (same scalar type), and the analogous statement for subtraction.", "quantifier": "all pairs of expressions", "why_tests_cant": "two independent code paths must agree on all inputs.", "anchors": ["include/libcommute/expression/expression.hpp: add_impl, sub_impl, operator+, operator-"]}
{"id": "C06", "title": "Scalar arithmetic acts coefficient-wise", "statement": "Adding or subtracting a scalar changes only the coefficient of the unit monomial; multiplication by a scalar multiplies every coefficient; multiplication by zero gives the empty expression; scalar - expr equals -(expr - scalar).", "quantifier": "all expressions and scalars", "why_tests_cant": "the update/erase/insert cases must be right for all maps.", "anchors": ["include/libcommute/expression/expression.hpp: operator+=(scalar), operator-=(scalar), operator*=(scalar), operator-(scalar, expression)"]}
{"id": "C07", "title": "Normalization preserves the algebraic value of every product", "statement": "For every monomial (any ordering, any length) of fermionic, bosonic and spin generators and every coefficient, the expression produced by constructing/multiplying it represents the same element as the un-normalized product in every associative algebra in which the documented (anti-)commutation relations hold.", "quantifier": "all monomials, all coefficients, all algebras/representations satisfying the defining relations", "why_tests_cant": "requires soundness of every swap and simplification under arbitrary interleavings of generators.", "anchors": ["include/libcommute/expression/expression.hpp: normalize_and_store, store_monomial, operator*", "include/libcommute/expression/generator_fermion.hpp: swap_with, simplify_prod", "include/libcommute/expression/generator_boson.hpp: swap_with", "include/libcommute/expression/generator_spin.hpp: swap_with, simplify_prod"]}
{"id": "C08", "title": "Normalization terminates", "statement": "Constructing an expression from any monomial and multiplying any two expressions terminates, with recursion depth bounded by the length of the monomial.", "quantifier": "all monomials and expressions", "why_tests_cant": "non-termination on one input cannot be excluded by finite testing.", "anchors": ["include/libcommute/expression/expression.hpp: normalize_and_store"]}
{"id": "C09", "title": "Multiplication is a homomorphism", "statement": "The product a*b represents the product of the values of a and b in every algebra where the defining relations hold; hence * is associative and distributes over + as operators.", "quantifier": "all expressions a, b, c and all representations", "why_tests_cant": "bilinear extension over all pairs of terms with cancellation between them.", "anchors": ["include/libcommute/expression/expression.hpp: operator*, operator*=(expression)"]}
{"id": "C10", "title": "Normal forms of fermionic, bosonic and spin-1/2 expressions are unique", "statement": "For expressions of fermions, bosons and spins 1/2 over an integral domain (containing 1/2 if there are spins): two stored expressions that have the same value in every ring satisfying the canonical (anti)commutation relations are equal under ==; a non-empty stored expression is not the zero operator; consequently * is associative, distributive over + and unital with respect to ==.", "quantifier": "all fermionic expressions", "why_tests_cant": "needs linear independence of normal-ordered monomials for all sizes.", "anchors": ["include/libcommute/expression/expression.hpp: operator==, operator*", "include/libcommute/expression/generator_fermion.hpp"]}
{"id": "C11", "title": "Multiplication is NOT associative up to == for spin >= 1", "statement": "The stored form of expressions with spin >= 1 generators is not unique: (A*B)*C == A*(B*C) can fail and a stored expression can be the zero operator without being empty.", "quantifier": "existence of expressions", "why_tests_cant": "boundary of property C10: a universally quantified law that fails.", "anchors": ["include/libcommute/expression/generator_spin.hpp: swap_with, simplify_prod", "include/libcommute/expression/expression.hpp: operator*"]}
{"id": "C12", "title": "Hermitian conjugation is an involutive anti-automorphism", "statement": "In every ring satisfying the relations of the algebras: conj(conj(e)) is e, conj(a+b) is conj(a)+conj(b), conj(z e) is conj(e) conj(z), conj(a*b) is conj(b)*conj(a), and if the ring has an involution for which the generators are mutually adjoint, conj(e) is the adjoint of e. For fermions, bosons and spins 1/2 these laws hold with respect to ==. conj(c_i) = c^+_i, conj(a_i) = a^+_i, conj(S_+) = S_-, conj(S_z) = S_z, scalars are conjugated. conj does not throw when the scalar type has fractions or no spin 1/2 occurs.", "quantifier": "all expressions", "why_tests_cant": "requires all orderings of reversed monomials to renormalize correctly.", "anchors": ["include/libcommute/expression/expression.hpp: conj", "include/libcommute/expression/monomial.hpp: conj", "include/libcommute/expression/generator*.hpp: conj"]}
{"id": "C13", "title": "e + hc is self-adjoint", "statement": "e + hc is e + conj(e) and e - hc is e - conj(e). For fermions, bosons and spins 1/2 conj(e + hc) == e + hc and conj(e - hc) == -(e - hc); for every algebra the operators are self-adjoint and anti-self-adjoint.", "quantifier": "all expressions", "why_tests_cant": "cancellations depend on the whole expression.", "anchors": ["include/libcommute/expression/hc.hpp: hc_t, operator+, operator-", "include/libcommute/expression/expression.hpp: conj"]}
{"id": "C14", "title": "transform() is a coefficient map", "statement": "transform(e, f) contains exactly the monomials m of e with f(m, e[m]) non-zero, with coefficient f(m, e[m]).", "quantifier": "all expressions and functors", "why_tests_cant": "all functors.", "anchors": ["include/libcommute/expression/expression.hpp: transform"]}
{"id": "C15", "title": "Canonical (anti-)commutation relations of factory operators", "statement": "c/c_dag, a/a_dag and S_+/S_-/S_z factories of equal or different indices satisfy, as stored expressions, {c_i,c+_j}=delta_ij, {c_i,c_j}=0, [a_i,a+_j]=delta_ij, [a_i,a_j]=0, [S+_i,S-_j]=2 delta_ij Sz_i, [Sz_i,S+-_j]=+- delta_ij S+-_i, and operators of different algebras commute; S+=Sx+iSy and S-=Sx-iSy.", "quantifier": "all index tuples and all multiplicities", "why_tests_cant": "infinitely many index pairs and orderings.", "anchors": ["include/libcommute/expression/factories.hpp: c_dag, c, a_dag, a, S_p, S_m, S_z", "include/libcommute/expression/expression.hpp: operator*"]}
{"id": "C16", "title": "Spin-1/2 product simplification and multiplicities", "statement": "Spin generators of different sites or different multiplicities are independent (their products are only reordered) whenever no site carries both a spin 1/2 and another spin. If one does, the claim fails: products of a spin-1/2 generator with a generator of another multiplicity and the same indices are simplified as if both were spins 1/2 (S_{1/2,+} S_{3/2,+} == 0).", "quantifier": "all pairs of spin generators", "why_tests_cant": "pairs with equal indices but different multiplicities are not exercised by tests.", "anchors": ["include/libcommute/expression/generator_spin.hpp: simplify_prod"]}
{"id": "C17", "title": "Integer scalars either give exact results or throw", "statement": "With an integral scalar type, products whose normal form needs a non-integer structure constant (1/2 from spin-1/2) throw; all other products agree with the exact (rational) result.", "quantifier": "all integral expressions", "why_tests_cant": "no finite test covers all products.", "anchors": ["include/libcommute/scalar_traits.hpp: make_const, make_var", "include/libcommute/expression/generator_spin.hpp: simplify_prod"]}
{"id": "C18", "title": "Zero divisors in the scalar type break the no-zero-coefficients invariant", "statement": "If the scalar ring has zero divisors, multiplication by a scalar or of two expressions can store zero coefficients, so `e == expression()` fails for a zero expression.", "quantifier": "existence of a ring and an expression", "why_tests_cant": "boundary of C03: shows that the integral-domain hypothesis is needed.", "anchors": ["include/libcommute/expression/expression.hpp: operator*=(scalar), normalize_and_store, store_monomial"]}
{"id": "C19", "title": "Bit ranges of elementary spaces tile [0,total_n_bits)", "statement": "For every Hilbert space built by any sequence of add()/constructor calls, the elementary spaces occupy pairwise disjoint consecutive bit ranges in the order of the spaces (algebra ID, then indices), together covering exactly bits 0..total_n_bits()-1, independent of the order of insertion. Queries (index, dim, bit_range) with another object of the same algebra and indices, e.g. a boson of a different dimension, are answered for the stored space; for a space that is not there they throw.", "quantifier": "all sets of elementary spaces and all insertion orders", "why_tests_cant": "permutations and sizes are unbounded.", "anchors": ["include/libcommute/loperator/hilbert_space.hpp: add, recompute_bit_ranges, bit_range, algebra_bit_range", "include/libcommute/loperator/elementary_space.hpp"]}
{"id": "C20", "title": "dim, vec_size, is_sparse", "statement": "dim() is the product of elementary dimensions, vec_size() is 2^total_n_bits(), dim() <= vec_size(), and is_sparse() holds iff dim() < vec_size().", "quantifier": "all Hilbert spaces below the size limit", "why_tests_cant": "all dimension combinations.", "anchors": ["include/libcommute/loperator/hilbert_space.hpp: dim, vec_size, is_sparse, get_dim, get_vec_size"]}
{"id": "C21", "title": "Too-big Hilbert spaces are rejected without wrap-around", "statement": "A Hilbert space is accepted iff the total number of bits does not exceed 63, and neither the dimension nor any bit position wraps for an accepted space.", "quantifier": "all sequences of additions", "why_tests_cant": "the boundary depends on all sums of bit counts.", "anchors": ["include/libcommute/loperator/hilbert_space.hpp: add, recompute_bit_ranges, hilbert_space_too_big"]}
{"id": "C22", "title": "foreach(hs) enumerates exactly the valid basis states", "statement": "foreach visits every basis state index once, in increasing order, dim() in total: exactly the indices all of whose bit fields are below the corresponding elementary dimension, for both dense and sparse Hilbert spaces.", "quantifier": "all Hilbert spaces (any mixture of power-of-two and other dimensions) with dim < 2^31", "why_tests_cant": "merging of adjacent power-of-two spaces and mixed-radix carries over unboundedly many shapes.", "anchors": ["include/libcommute/loperator/hilbert_space.hpp: foreach, sparse_foreach_basis_state, init_sizes"]}
{"id": "C23", "title": "foreach on sparse spaces of dimension >= 2^31", "statement": "The number of iterations of foreach over a sparse Hilbert space equals dim() if and only if dim() < 2^31; beyond that it is wrong, down to no iteration at all.", "quantifier": "all sparse Hilbert spaces", "why_tests_cant": "needs huge spaces that a test cannot iterate over.", "anchors": ["include/libcommute/loperator/hilbert_space.hpp: sparse_foreach_basis_state (std::accumulate with int init)"]}
{"id": "C24", "title": "basis_state_index is injective and decodes", "statement": "basis_state_index(es,n) places n in the bit field of es and zero elsewhere; distinct (space, n) give distinct indices unless n=0, and sums of them over different spaces enumerate all basis states.", "quantifier": "all spaces and all n below the dimension", "why_tests_cant": "all shapes.", "anchors": ["include/libcommute/loperator/hilbert_space.hpp: basis_state_index, index"]}
{"id": "C25", "title": "Failed add(), copies, assignment and equality of Hilbert spaces", "statement": "add() that throws elementary_space_exists leaves the object unchanged; add() that throws hilbert_space_too_big does not: the rejected space stays in the object while dim() keeps its old value. A copy answers all queries like the original except those about algebras (has_algebra, algebra_bit_range), which a copied non-empty space denies; an assigned-to space answers those as before the assignment; self-assignment removes all elementary spaces. operator== holds exactly if the spaces have the same degrees of freedom at the same bits, so it ignores the exact truncation of bosons.", "quantifier": "all histories of add/copy/assign", "why_tests_cant": "histories.", "anchors": ["include/libcommute/loperator/hilbert_space.hpp: add, hilbert_space(hilbert_space const&), operator=, algebra_bit_ranges_"]}
{"id": "C26", "title": "Hilbert space from an expression is sufficient", "statement": "The Hilbert space deduced from an expression contains exactly the elementary spaces of the generators occurring in it, so that constructing the linear operator from the same expression never throws unknown_generator.", "quantifier": "all expressions", "why_tests_cant": "all expressions.", "anchors": ["include/libcommute/loperator/hilbert_space.hpp: hilbert_space(expression,...)", "include/libcommute/loperator/es_constructor.hpp", "include/libcommute/loperator/loperator.hpp"]}
{"id": "C27", "title": "Fermionic monomial action is the product of single-operator actions", "statement": "The bit-mask implementation of a fermionic monomial gives, on every basis state, the same state and sign as applying its creation/annihilation operators one after another with Jordan-Wigner signs.", "quantifier": "all canonical fermionic monomials, all basis states", "why_tests_cant": "signs depend on all occupations of up to 63 modes (2^63 states).", "anchors": ["include/libcommute/loperator/monomial_action_fermion.hpp"]}
{"id": "C28", "title": "Fermionic linear operators satisfy the CAR", "statement": "The linear operators created from c_i, c+_j satisfy the canonical anticommutation relations on the whole basis.", "quantifier": "all modes and basis states", "why_tests_cant": "exponentially many states.", "anchors": ["include/libcommute/loperator/monomial_action_fermion.hpp"]}
{"id": "C29", "title": "Bosonic monomial action is the product of truncated ladder actions", "statement": "The action of a bosonic monomial equals the successive action of truncated a, a+ on each mode: same target state and coefficient, zero exactly when the occupation would leave [0,dim-1].", "quantifier": "all canonical bosonic monomials, dimensions and states", "why_tests_cant": "powers and truncations interact.", "anchors": ["include/libcommute/loperator/monomial_action_boson.hpp"]}
{"id": "C30", "title": "Spin monomial action is the product of single spin actions", "statement": "The action of a spin monomial equals the successive action of S+,S-,Sz in the |S,m> basis.", "quantifier": "all canonical spin monomials, multiplicities and states", "why_tests_cant": "all powers.", "anchors": ["include/libcommute/loperator/monomial_action_spin.hpp"]}
{"id": "C31", "title": "Mixed-algebra monomials act as products of their parts", "statement": "A monomial with generators of several algebras acts as the composition of the per-algebra actions, which touch disjoint bits and commute.", "quantifier": "all monomials, states", "why_tests_cant": "combination of independent code paths.", "anchors": ["include/libcommute/loperator/monomial_action.hpp"]}
{"id": "C32", "title": "Linear operators are linear", "statement": "L(x v + y w) = x L(v) + y L(w), L acts on a vector as the sum over basis states, and the in-place form equals the returning form; the destination is overwritten.", "quantifier": "all operators, vectors and scalars", "why_tests_cant": "all vectors.", "anchors": ["include/libcommute/loperator/loperator.hpp: operator(), act_impl", "include/libcommute/loperator/state_vector.hpp"]}
{"id": "C33", "title": "Operators of products, sums, multiples and conjugates of expressions", "statement": "For expressions of fermions and spins of any multiplicity: the operator of a*b acting on v equals the operator of a acting on the result of the operator of b; the operators of a+b, a-b, z*a and -a are the corresponding combinations; the operator of conj(a) is the Hermitian adjoint: <A+ w|v> = <w|A v>.", "quantifier": "all expressions of fermions and spins, all Hilbert spaces containing their generators, all vectors", "why_tests_cant": "joins the symbolic and numeric halves of the library over all inputs.", "anchors": ["include/libcommute/expression/expression.hpp: operator*", "include/libcommute/loperator/loperator.hpp", "include/libcommute/loperator/monomial_action_fermion.hpp"]}
{"id": "C34", "title": "Bosonic truncation breaks the product law only at the top", "statement": "For truncated bosons (a*a_dag)v - a(a_dag v) is dim times the part of v with the highest occupation dim-1, and nothing else.", "quantifier": "all truncations", "why_tests_cant": "boundary of C33.", "anchors": ["include/libcommute/loperator/monomial_action_boson.hpp"]}
{"id": "C35", "title": "loperator construction rejects unknown generators", "statement": "For a Hilbert space that is not a copy, constructing an operator from a stored expression throws iff some generator that is not skipped by the early-vanishing shortcut of bosonic monomials has no elementary space in the Hilbert space; an accepted operator never accesses a bit outside the space. A bosonic generator after a vanishing power is not checked; copies of a Hilbert space reject all fermionic operators, and assigned-to Hilbert spaces can give operators with wrong signs.", "quantifier": "all expressions and spaces", "why_tests_cant": "all mismatches.", "anchors": ["include/libcommute/loperator/loperator.hpp", "include/libcommute/loperator/monomial_action*.hpp"]}
{"id": "C36", "title": "Parametric operators evaluate pointwise", "statement": "at(args) and the call with args substitute the value of every coefficient functor at the given arguments: P.at(args) acts as P called with args, provided that the functors do not modify their arguments; functors that move from rvalue arguments break this for the second and later monomials.", "quantifier": "all operators and arguments", "why_tests_cant": "all functors.", "anchors": ["include/libcommute/loperator/loperator.hpp: parametric_loperator"]}
{"id": "C37", "title": "Sparse state vector refines the dense one", "statement": "Any sequence of update_add_element/get/set/set_zeros on sparse_state_vector has the same observable contents as on a dense vector; foreach enumerates every non-zero amplitude once, and no zero amplitudes provided that no element was read or zero-assigned through the non-const operator[] since; reading through it makes foreach enumerate zeros.", "quantifier": "all operation sequences", "why_tests_cant": "histories.", "anchors": ["include/libcommute/loperator/sparse_state_vector.hpp", "include/libcommute/loperator/state_vector.hpp"]}
{"id": "C38", "title": "Bit primitives are exact", "statement": "next_pow2 returns the least power of two >= n, count_trailing_zeros the position of the lowest set bit, parity the parity of the number of set bits, and deposit/extract are mutually inverse on the masked bits.", "quantifier": "all 64-bit arguments", "why_tests_cant": "2^64 (2^128) arguments.", "anchors": ["include/libcommute/loperator/bit_ops.hpp"]}
{"id": "C39", "title": "Portable popcount fallback is wrong", "statement": "Bit i < 32 of the result of the portable (non-GNU) popcount is the parity of the number of set bits at positions >= i; therefore it is not the number of set bits: below 2^32 it is right exactly for the arguments 0, 1 and 3.", "quantifier": "all 64-bit arguments", "why_tests_cant": "the fallback branch is not compiled by the tests.", "anchors": ["include/libcommute/loperator/bit_ops.hpp: popcount"]}
{"id": "C40", "title": "binomial is exact within its domain", "statement": "binomial(n,k) returns C(n,k) without intermediate overflow for all n <= 62; it is wrong for some (n,k) with n=63 although C(n,k) fits in 64 bits.", "quantifier": "all n,k", "why_tests_cant": "intermediate overflow at one point only.", "anchors": ["include/libcommute/loperator/n_fermion_sector_view.hpp: detail::binomial"]}
{"id": "C41", "title": "Combination ranking is a bijection onto [0,C(M,N))", "statement": "combination_ranking maps the N-particle states of M modes one-to-one onto 0..C(M,N)-1.", "quantifier": "all M <= 62, N <= M and all states", "why_tests_cant": "exponentially many states.", "anchors": ["include/libcommute/loperator/n_fermion_sector_view.hpp: combination_ranking"]}
{"id": "C42", "title": "Unranking enumerates exactly the sector and inverts ranking", "statement": "unranking_generator yields C(M,N) states; the i-th one has N particles in M modes and rank i; next() never shifts out of range.", "quantifier": "all M <= 62, N and i", "why_tests_cant": "exponentially many.", "anchors": ["include/libcommute/loperator/n_fermion_sector_view.hpp: unranking_generator"]}
{"id": "C43", "title": "Staggered ranking equals combination ranking", "statement": "For every chunk size R, staggered_ranking<R> returns the same rank as combination_ranking and stays inside its lookup tables.", "quantifier": "all R, M, N, states", "why_tests_cant": "table layout arithmetic over all R, M.", "anchors": ["include/libcommute/loperator/n_fermion_sector_view.hpp: staggered_ranking"]}
{"id": "C44", "title": "Trie ranking equals combination ranking", "statement": "For every chunk size R, constructing trie_ranking<R> terminates without out-of-bounds accesses or failing assertions, and operator() returns the same rank as combination_ranking for every state of the sector (M <= 62; with 63 modes the table size is computed by an undefined shift).", "quantifier": "all R in 1..63, M <= 62, N <= M and all N-particle states", "why_tests_cant": "in-place packing of the trie over all shapes.", "anchors": ["include/libcommute/loperator/n_fermion_sector_view.hpp: trie_ranking"]}
{"id": "C45", "title": "N-fermion sector view is consistent", "statement": "For every non-sparse Hilbert space that is not a copy, has at least one bit and at most 62 fermionic modes: n_fermion_sector_view's map_index is a bijection from the basis states of the sector (N fermions, arbitrary other bits) onto [0, sector size), n_fermion_sector_basis_states lists the states in map_index order, and foreach visits (state, amplitude) pairs consistently with map_index. For 63 modes, spaces without bits and copied spaces this fails.", "quantifier": "all non-sparse Hilbert spaces and N", "why_tests_cant": "all states.", "anchors": ["include/libcommute/loperator/n_fermion_sector_view.hpp: n_fermion_sector_view, n_fermion_sector_size, n_fermion_sector_basis_states"]}
{"id": "C46", "title": "N-fermion multisector view is consistent", "statement": "The same for n_fermion_multisector_view with any list of disjoint sectors made of the first 32 fermionic modes, also for copied Hilbert spaces; beyond the 32nd mode the mask is truncated and the claim fails. Overlapping sectors, unknown modes and too many particles are rejected by the view, but multisector_size returns 0 for the latter.", "quantifier": "all Hilbert spaces and sector lists", "why_tests_cant": "all shapes; truncation needs >32 modes.", "anchors": ["include/libcommute/loperator/n_fermion_sector_view.hpp: n_fermion_multisector_view, init_mask"]}
{"id": "C47", "title": "Disjoint sets implement the equivalence closure of the unions", "statement": "After any sequence of make_set/make_sets/set_union/find_root/compress/normalize, in_same_set(x,y) holds iff x and y are connected by the performed unions, find_root returns a fixed representative of the class, and n_sets() is the number of classes.", "quantifier": "all operation sequences", "why_tests_cant": "histories, path compression.", "anchors": ["include/libcommute/loperator/disjoint_sets.hpp"]}
{"id": "C48", "title": "normalize_sets makes the smallest element the representative after full compression", "statement": "After find_root has been called on every element, normalize_sets() makes the smallest element the representative of each set; compress_sets() alone is not sufficient.", "quantifier": "all states", "why_tests_cant": "depends on tree depth left by compress.", "anchors": ["include/libcommute/loperator/disjoint_sets.hpp: compress_sets, normalize_sets"]}
{"id": "C49", "title": "Space partition: subspaces are exactly the connected components", "statement": "Two basis states belong to the same subspace iff they are connected by a chain of non-zero matrix elements of h (in either direction); subspaces are numbered 0..n_subspaces-1 without gaps in order of first basis state; h maps every subspace to itself; the matrix elements recorded are exactly the non-zero ones.", "quantifier": "all Hermitian operators and Hilbert spaces", "why_tests_cant": "all operators.", "anchors": ["include/libcommute/loperator/space_partition.hpp: space_partition, operator[], n_subspaces"]}
{"id": "C50", "title": "merge_subspaces only coarsens and records matrix elements", "statement": "merge_subspaces merges whole subspaces only, terminates, and returns exactly the non-zero matrix elements of Cd and C.", "quantifier": "all operators", "why_tests_cant": "all operators.", "anchors": ["include/libcommute/loperator/space_partition.hpp: merge_subspaces"]}
{"id": "C51", "title": "merge_subspaces and one-to-one connections", "statement": "After merge_subspaces(Cd, C), all states that Cd (or C) reaches from one OLD subspace lie in one new subspace; if the call did not change the number of subspaces, Cd and C connect each subspace to at most one subspace in both directions. A single call does not guarantee the latter.", "quantifier": "all operators Cd with C its conjugate", "why_tests_cant": "all operators; depends on the order of multimap entries.", "anchors": ["include/libcommute/loperator/space_partition.hpp: merge_subspaces, merge_conn_targets"]}
{"id": "C52", "title": "find_connections is exact and subspace bases partition the basis", "statement": "find_connections(op) is exactly the set of (in,out) subspace pairs with a non-zero matrix element; subspace_bases() partition the list of basis states and subspace_basis(i) equals its i-th element and throws iff i>=n_subspaces().", "quantifier": "all operators", "why_tests_cant": "all operators.", "anchors": ["include/libcommute/loperator/space_partition.hpp: find_connections, subspace_basis, subspace_bases"]}
{"id": "C53", "title": "basis_mapper is a bijection between its states and 0..size-1", "statement": "For each way of constructing a basis_mapper, map() and inverse_map() are mutually inverse, the values are 0..size()-1, and for a duplicate-free list of states the i-th state maps to i.", "quantifier": "all lists, operators and generated state sets", "why_tests_cant": "all inputs.", "anchors": ["include/libcommute/loperator/mapped_basis_view.hpp: basis_mapper"]}
{"id": "C54", "title": "basis_mapper from a set of operators collects O_1^{n_1}...O_M^{n_M}|0> states", "statement": "basis_mapper(O_list, hs, N), N < 2^31, maps exactly the basis states occurring in O_M^{n_M}...O_1^{n_1}|0> with sum n_i = N: the first operator of the list acts first, contrary to the documentation; the documented product gives the same states when the operators commute. For N >= 2^31 the map is empty.", "quantifier": "all operator lists", "why_tests_cant": "order of application matters only for non-commuting operators.", "anchors": ["include/libcommute/loperator/mapped_basis_view.hpp: basis_mapper::compositions_impl, apply_op_power", "docs/loperator.rst"]}
{"id": "C55", "title": "Operators act through mapped views as restricted operators", "statement": "Applying an operator through a mapped_basis_view of the source and destination gives the restriction of the full action to the mapped states whenever the image stays in the mapped set; otherwise std::out_of_range is raised.", "quantifier": "all operators, vectors, mappers", "why_tests_cant": "all vectors.", "anchors": ["include/libcommute/loperator/mapped_basis_view.hpp: mapped_basis_view", "include/libcommute/loperator/loperator.hpp"]}
{"id": "C56", "title": "compressed_state_view is a contiguous renumbering", "statement": "compressed_state_view::map_index maps the valid basis states of every Hilbert space order-preservingly onto 0..dim-1; foreach enumerates (state index, amplitude) consistently with it and operators act through the view as on the full vector when 2 <= dim < 2^31; for dim < 2 and for dim >= 2^31 foreach visits nothing.", "quantifier": "all Hilbert spaces", "why_tests_cant": "all shapes.", "anchors": ["include/libcommute/loperator/compressed_state_view.hpp"]}
{"id": "C57", "title": "Nested iteration over one sparse Hilbert space", "statement": "foreach over one sparse Hilbert space must not be nested: the iteration state is shared by the loops. The inner loops visit exactly the basis states, but the outer one visits 0, 1, ..., dim()-1, always including a number that is not a basis state.", "quantifier": "all Hilbert spaces", "why_tests_cant": "mutable state hidden behind const.", "anchors": ["include/libcommute/loperator/hilbert_space.hpp: sparse_foreach_basis_state::indices_", "include/libcommute/loperator/n_fermion_sector_view.hpp: unranking_generator"]}
{"id": "C58", "title": "Self-aliased compound assignment", "statement": "e += e doubles every coefficient; e -= e has undefined behaviour (use of an invalidated iterator) for every non-empty expression.", "quantifier": "all expressions", "why_tests_cant": "aliasing / iterator invalidation.", "anchors": ["include/libcommute/expression/expression.hpp: operator+=, operator-="]}
{"id": "C59", "title": "Products and conjugates are (anti)linear for every algebra", "statement": "For every algebra, built-in (any spins) or user-defined, (a+b)*c == a*c + b*c, c*(a+b) == c*a + c*b and the same with minus; (s*a)*b == s*(a*b), (a*s)*b == a*(s*b) and, for commuting scalars, a*(b*s) == (a*b)*s; conj(a+b) == conj(a)+conj(b) and conj(a*s) == conj(s)*conj(a); the coefficients of a product are sums of products of coefficients weighted by structure constants that depend on the concatenated monomials only. All these are equalities of stored forms. Every expression a program builds is stored sorted and without zero coefficients.", "quantifier": "all algebras whose comparison is a strict total order and whose commutation functions carry no zero coefficients; all scalar types without zero divisors; all expressions", "why_tests_cant": "normalization is a worklist rewriting procedure with in-place updates; linearity must survive every order of cancellation and the early exits on zero coefficients.", "anchors": ["include/libcommute/expression/expression.hpp: operator*, operator*=, normalize_and_store, transform", "include/libcommute/expression/hc.hpp: conj"]}
{"id": "C60", "title": "Effect of the tolerance in the zero test of floating point coefficients", "statement": "With (exactly computed) floating point coefficients and the zero test |x| < tol: a + b and a - b store, for every monomial, the sum/difference of the coefficients unless it is below tol, so each coefficient is off by less than tol; coefficients of monomials present in one operand only are copied untested. Each coefficient of a product differs from the exact one by at most tol times a number depending only on the lengths of the monomials. With integer coefficients (tol <= 1) nothing is lost in any operation. Losses that do happen: multiplication by a scalar below tol gives 0 whatever the expression; conj of an expression with a stored coefficient below tol adds the conjugate of the preceding monomial a second time.", "quantifier": "all algebras (products: those whose commutators have at most one linear term, e.g. the built-in ones), all tolerances, real and complex coefficients, all expressions", "why_tests_cant": "the zero test is applied at many intermediate points of normalization; the accumulated error must be bounded for every coefficient and every rewriting.", "anchors": ["include/libcommute/scalar_traits.hpp: is_zero", "include/libcommute/expression/expression.hpp: store_monomial, normalize_and_store, operator+=, operator-=, conj"]}
{"id": "C61", "title": "Associativity for user-defined algebras", "statement": "For a user-defined algebra (a class derived from generator<...> that overrides swap_with, simplify_prod and conj but not reduce_power): if (x*y)*z == x*(y*z) holds for all triples of generators then (a*b)*c == a*(b*c), as stored forms, for all expressions; it is enough to check the triples in which both x,y and y,z are out of order or simplified by simplify_prod().", "quantifier": "all algebras whose comparison is a strict total order, whose commutation functions carry no zero coefficients and whose constants the scalar type represents; all commutative scalar types without zero divisors; all expressions", "why_tests_cant": "a test multiplies finitely many expressions; normalization of long products interleaves exchanges, lower-order terms and simplifications in an order that depends on the grouping of the factors.", "anchors": ["include/libcommute/expression/expression.hpp: operator*, normalize_and_store", "include/libcommute/expression/generator.hpp: swap_with, simplify_prod"]}
{"id": "C62", "title": "The gamma matrix example is the Clifford algebra", "statement": "For the generator class of examples/gamma.hpp: g_i g_j + g_j g_i == 2 eta(i,j) for all indices, products of all expressions are associative, stored monomials are products of different matrices in increasing order, conj(g_0) == g_0 and conj(g_k) == -g_k; gamma^5 = i g_0 g_1 g_2 g_3 is Hermitian, squares to 1 and anticommutes with every g_mu.", "quantifier": "all integer indices, scalar types and expressions (gamma^5: complex coefficients)", "why_tests_cant": "the example prints 16 anticommutators; the claim is about all products.", "anchors": ["examples/gamma.hpp: generator_gamma", "examples/gamma.expression.cpp", "include/libcommute/expression/expression.hpp: operator*"]}
{"id": "C63", "title": "Lie algebras and the Virasoro example", "statement": "If swap_with returns 1 for all pairs and there is no simplify_prod, then products of expressions are associative iff the Jacobi identity holds for the commutators of generators. For the class of examples/virasoro_algebra.cpp, [L_m, L_n] == (m-n) L_{m+n} + c (m^3-m) delta(m,-n) for all m, n, the Jacobi identity holds, and the recurrences printed by the example hold for all n; but its products are not associative ((L_1 L_1) L_{-1} == 0 != L_1 (L_1 L_{-1})), because simplify_prod sends L_n L_n to 0. Without that function the product is associative.", "quantifier": "all Lie-type algebras; all integer indices; all expressions with real coefficients (exact arithmetic)", "why_tests_cant": "infinitely many generators and products; the Jacobi identity must hold for all integer triples.", "anchors": ["examples/virasoro_algebra.cpp: generator_virasoro", "include/libcommute/expression/expression.hpp: operator*, normalize_and_store"]}
{"id": "C64", "title": "Conjugation in user-defined algebras", "statement": "For a user-defined algebra with associative products (C61): if conj(x*y) == conj(y)*conj(x) for the pairs of generators that are exchanged or simplified, then conj(a*b) == conj(b)*conj(a) for all expressions; if moreover conj(conj(x)) == x for the generators, then conj(conj(a)) == a for all expressions in canonical form. The gamma matrices and the (associative) Virasoro algebra have these properties.", "quantifier": "all algebras as in C61, all commutative scalar types with an involutive conjugation, all expressions", "why_tests_cant": "conj multiplies out the conjugates of the generators in reverse order and renormalizes; equality must hold for every product.", "anchors": ["include/libcommute/expression/expression.hpp: conj", "include/libcommute/expression/generator.hpp: conj", "examples/gamma.hpp", "examples/virasoro_algebra.cpp"]}
{"id": "C65", "title": "Operators acting through sector views", "statement": "Let all monomials of an expression change the number of fermions by n'-n (for multisectors: the number of fermions in every group of modes by the difference of the particle numbers). Applying its operator to a vector seen as a vector of the n-fermion sector, with a destination seen as a vector of the n'-fermion sector, gives the amplitudes of the exact result in the order of n_fermion_sector_basis_states(), for every choice of the ranking algorithms; the exact result has no amplitudes outside of the sector, and elements of the destination beyond the sector become 0. If a monomial leads out of the sector this is not detected: amplitudes are added at positions of other states.", "quantifier": "all non-sparse Hilbert spaces (up to 62 modes; multisectors: the first 32 modes), all N, all expressions, all vectors, all ranking algorithms", "why_tests_cant": "the view's numbering, the enumeration and the operator's action must agree for every state and every operator; tests check a few Hamiltonians.", "anchors": ["include/libcommute/loperator/n_fermion_sector_view.hpp: n_fermion_sector_view, n_fermion_multisector_view, foreach, update_add_element, set_zeros", "include/libcommute/loperator/loperator.hpp: loperator::operator()", "examples/n_fermion_sectors.cpp"]}
{"id": "C66", "title": "Several algebras in one expression", "statement": "Generators of two (hence of any finite number of) user-defined algebras with different algebra IDs may be used in one expression. If the products of the generators of each algebra associate, products of mixed expressions are associative; products and conjugates of expressions over one of the algebras are what they are without the other one; expressions over different algebras commute; the product of canonical expressions a and b over different algebras is their tensor product: the coefficient of the monomial m n is the product of the coefficients of m in a and n in b, and there are no other monomials. If conj() reverses products and is an involution on the generators of each algebra, it does so on all mixed expressions.", "quantifier": "all pairs of algebras as in C61/C64 whose IDs on one side are smaller than those on the other, all commutative scalar types, all expressions", "why_tests_cant": "normalization interleaves exchanges within an algebra, simplifications and exchanges between algebras in every possible order.", "anchors": ["include/libcommute/expression/generator.hpp: operator==, operator<, operator>, swap_with, simplify_prod (free functions)", "include/libcommute/expression/expression.hpp: operator*, conj, normalize_and_store"]}
{"id": "C67", "title": "Printed expressions can be told apart", "statement": "Two expressions with integer coefficients over the built-in generators that are printed (operator<<) as the same text are equal, if the indices are integers or strings that are not empty, contain no commas and closing parentheses and are not decimal representations of integers; the same holds for monomials. With other strings this fails: c(1) and c(\"1\"), c(\"a,b\") and c(\"a\",\"b\"), c() and c(\"\") are different but print the same. Printing a monomial moves an iterator past end().", "quantifier": "all expressions with integer coefficients over fermions, bosons and spins of any multiplicity, all index sequences", "why_tests_cant": "injectivity is a statement about all pairs of expressions; tests compare a few outputs with literals.", "anchors": ["include/libcommute/expression/expression.hpp: operator<<", "include/libcommute/expression/monomial.hpp: operator<<", "include/libcommute/expression/generator_fermion.hpp, generator_boson.hpp, generator_spin.hpp: to_string", "include/libcommute/expression/dyn_indices.hpp: to_string", "include/libcommute/utility.hpp: tuple_to_string"]}
{"id": "C68", "title": "Linear operators of user-defined algebras", "statement": "Let a user-defined algebra be given by swap_with(), simplify_prod() and conj(), and a specialization of monomial_action<> whose act() multiplies basis states by some matrices. The linear operator of an expression acts as the matrix of the expression. If the matrices satisfy the relations declared by the generators, the operator of a product of expressions is the product of their operators; if conj(g) is the adjoint matrix of g, the operator of conj(e) is the adjoint of the operator of e. The gamma matrices of the examples satisfy these conditions for indices 0 to 3, and different expressions in them are different operators. For other indices, and in a Hilbert space with further elementary spaces, this fails.", "quantifier": "all user-defined algebras with such matrices of any dimension, all expressions, all state vectors and implementations of the StateVector interface", "why_tests_cant": "the examples print the action of gamma^5 only; the statement is about every algebra, expression and vector", "anchors": ["include/libcommute/loperator/loperator.hpp: loperator, loperator_base", "examples/gamma.loperator.cpp: monomial_action<gamma>::act", "examples/gamma.hpp: generator_gamma"]}
{"id": "C69", "title": "Linear operators with integer and rational scalars are exact or throw", "statement": "With a ScalarType of integers (integral types, mpz_class) or rationals (mpq_class, boost::rational), make_const(double) is exact or throws, and it throws for exactly the numbers that are not integers. The action of a linear operator on a state vector either throws, or the resulting amplitudes are exactly those of the operator with real coefficients: nothing is ever rounded. It throws whenever some monomial takes a basis state with a non-zero amplitude to a multiple of a basis state by a factor that is not an integer. It never throws for operators made of fermions, S+ and S- of spin 1/2 and Sz of integer spins. It may throw although all matrix elements are integers (a+ a) or rationals (Sz of spin 1/2), and the target vector is then left partially overwritten.", "quantifier": "all expressions in fermions, bosons and spins, all Hilbert spaces, all state vectors and implementations of the StateVector interface, all scalar types with an exact embedding into the real numbers", "why_tests_cant": "tests apply operators with double and complex coefficients, and a few integer fermionic ones; absence of rounding is about every expression and vector", "anchors": ["include/libcommute/scalar_traits.hpp: make_const", "include/libcommute/scalars/gmpxx.hpp: make_const", "include/libcommute/scalars/boost_rational.hpp: make_const", "include/libcommute/loperator/monomial_action_boson.hpp: act", "include/libcommute/loperator/monomial_action_spin.hpp: act", "include/libcommute/loperator/loperator.hpp: act_impl"]}
{"id": "C70", "title": "Element access through views of state vectors", "statement": "An n_fermion_sector_view, n_fermion_multisector_view or compressed_state_view of a state vector shows the element number i of the vector as the amplitude of the i-th basis state of the sector (of the Hilbert space): get_element() reads it, update_add_element() changes it and no other element of the vector, and set_zeros() makes all elements of the vector zero. A mapped_basis_view does the same for the element number given by its map, and throws std::out_of_range, without changing anything, for a state that is not in the map.", "quantifier": "all Hilbert spaces, sectors and ranking algorithms, all basis states, all vectors and implementations of the StateVector interface", "why_tests_cant": "tests read and write a few elements of a few vectors", "anchors": ["include/libcommute/loperator/n_fermion_sector_view.hpp: get_element, update_add_element, set_zeros", "include/libcommute/loperator/mapped_basis_view.hpp: get_element, update_add_element, set_zeros", "include/libcommute/loperator/compressed_state_view.hpp: get_element, update_add_element, set_zeros"]}
{"id": "C71", "title": "Eigen 3 vectors, segments, columns, blocks and maps as state vectors", "statement": "An Eigen vector, vector segment, matrix column, Nx1-submatrix or Map implements the StateVector interface: get_element, update_add_element, set_zeros, zeros_like and foreach access the element number n of the segment, column, ... for both storage orders, and no other element of the underlying vector or matrix is changed. L(src, dst), where src and dst are parts of the same vector or matrix without common elements (different columns, disjoint segments), makes dst the product of the operator and src and changes nothing else. With overlapping parts the result is wrong.", "quantifier": "all sizes, offsets and storage orders, all expressions, Hilbert spaces and vectors", "why_tests_cant": "tests use a few fixed vectors; the statement is about every layout and operator", "anchors": ["include/libcommute/loperator/state_vector_eigen3.hpp: get_element, update_add_element, set_zeros, zeros_like, foreach", "include/libcommute/loperator/loperator.hpp: operator()"]}
{"id": "C72", "title": "Linear operators represent expressions faithfully", "statement": "For expressions of fermions, spins-1/2 and bosons whose powers of a+_i and a_i stay below the dimension of the bosonic space, two expressions are equal (==) if and only if their linear operators produce the same result for every state vector. Hence the operators of two expressions of fermions and spins-1/2 commute exactly when a*b - b*a is the zero expression, and an operator is self-adjoint exactly when conj(e) == e. For (a+_i)^d in a bosonic space of dimension d, and for spins of length 1 or more, different expressions have the same operator.", "quantifier": "all expressions, Hilbert spaces, scalar types with the field laws and state vector types", "why_tests_cant": "needs linear independence of the operators of all monomials on an arbitrary Hilbert space", "anchors": ["include/libcommute/loperator/loperator.hpp: loperator, make_loperator, operator()", "include/libcommute/expression/expression.hpp: operator==, operator-", "include/libcommute/expression/hc.hpp: conj"]}
{"id": "C73", "title": "Repeated, interrupted and nested loops over sector views", "statement": "foreach(view, f) over an N-fermion sector or multisector view runs f for exactly the basis states of the sector with non-zero amplitudes, in the order of n_fermion_(multi)sector_basis_states, whatever loops over the same view were run before, including loops that were ended by an exception thrown by f; f may modify the underlying vector during the loop. A functor that itself loops over the same view breaks the outer loop: it ends after the first group of states with equal fermionic part in which such a loop was run.", "quantifier": "all Hilbert spaces, sectors, ranking algorithms, histories of the view, functors and vectors", "why_tests_cant": "the state left in the view depends on the history; tests iterate once over fresh views", "anchors": ["include/libcommute/loperator/n_fermion_sector_view.hpp: unranking_generator, multisector_unranking_generator, foreach"]}
{"id": "C74", "title": "Double-precision logarithm gives the least number of bits", "statement": "n_bits() of every elementary space of dimension 1 <= dim <= 2^48 (in particular of every spin whose multiplicity fits in an int), computed as ceil(log2(dim)) in double precision with any faithfully rounded log2, is the least n with dim <= 2^n. It is not so for larger spaces: with a correctly rounded log2 a bosonic space of dimension 2^49 + 1 gets 49 bits.", "quantifier": "all faithfully rounded implementations of std::log2 and all dimensions up to 2^48", "why_tests_cant": "2^48 dimensions and all implementations of log2; the failures are next to powers of two where the rounding error matters", "anchors": ["include/libcommute/loperator/elementary_space_boson.hpp: elementary_space_boson, n_bits", "include/libcommute/loperator/elementary_space_spin.hpp: elementary_space_spin, n_bits"]}
{"id": "C75", "title": "Rounding error of linear operators", "statement": "Applying a linear operator with coefficients and amplitudes of type double to a state vector gives, for every expression, Hilbert space and vector, amplitudes that differ from the exact ones by at most (1+u)^k - 1, u = 2^-53, k = 3 degree + 2 + number of monomials, times the sum of the absolute values of the contributions; independent of the dimension of the space. In addition std::vector arguments lose the contributions of amplitudes below 100 epsilon, and sparse_state_vector results are off by up to about 100 epsilon per monomial. The same holds for std::complex<double> with 3u. There is no bound relative to the exact amplitude.", "quantifier": "all expressions, Hilbert spaces, state vectors and orders in which foreach() visits the elements (no overflow or underflow)", "why_tests_cant": "tests compare a few results up to a tolerance; the worst case over all coefficients and amplitudes cannot be sampled", "anchors": ["include/libcommute/loperator/loperator.hpp: loperator::operator(), act_impl", "include/libcommute/loperator/monomial_action_boson.hpp: act, sqr_root", "include/libcommute/loperator/monomial_action_spin.hpp: act, sqr_root", "include/libcommute/scalar_traits.hpp: is_zero, make_const", "include/libcommute/loperator/sparse_state_vector.hpp: update_add_element", "include/libcommute/loperator/state_vector.hpp: foreach"]}
{"id": "C76", "title": "Concurrent queries of disjoint_sets", "statement": "Several threads may call find_root() and in_same_set() on one disjoint_sets object. Whatever the interleaving of their reads and writes of parents_, every call returns what it returns in a single thread, ends after a bounded number of its own steps, never leaves the arrays, and the object represents the same sets with the same representatives at any moment, also for all later operations. The calls are in a data race in general, even after compress_sets(); there is none when find_root() has been called for every element since the last union.", "quantifier": "all histories of the structure, numbers of threads, sequences of calls and schedules", "why_tests_cant": "the number of interleavings is unbounded and the schedule is not under control of a test", "anchors": ["include/libcommute/loperator/disjoint_sets.hpp: disjoint_sets::parents_, find_root, in_same_set, compress_sets"]}
{"id": "C77", "title": "Loops and linear operators in several threads", "statement": "Threads that run foreach() over view objects or sparse Hilbert spaces of their own (e.g. copies), with any functors, do not influence each other: in every schedule each loop visits exactly its basis states in the documented order, also when functors throw and whatever loops were run over the objects before, and ends after a bounded number of its own steps. Hence threads may apply one shared linear operator to a shared source vector through views of their own. Sharing one const view or sparse Hilbert space is not allowed: loops then miss states, visit numbers that are not basis states, or read beyond the end of the vector.", "quantifier": "all Hilbert spaces, sectors, views, histories of the objects, functors, numbers of threads and schedules", "why_tests_cant": "the schedule is not under control of a test; the number of interleavings is unbounded", "anchors": ["include/libcommute/loperator/hilbert_space.hpp: sparse_foreach_basis_state::indices_, operator(), foreach", "include/libcommute/loperator/compressed_state_view.hpp: foreach", "include/libcommute/loperator/n_fermion_sector_view.hpp: unranking_generator, multisector_unranking_generator, foreach", "include/libcommute/loperator/loperator.hpp: act_impl"]}
{"id": "C78", "title": "Expressions with different scalar types", "statement": "Constructing or assigning an expression from one with another scalar type converts the coefficients, keeps the monomials, forgets the old value of the target and gives an expression in canonical form. If the conversion is exact (int to rational to floating point to complex), it does not matter whether one converts before or after +, -, *, conj, scalar arithmetic or construction from a monomial; compound assignments and binary operators with operands of different scalar types give the same as first converting the operands to the type of the result. Conversions that can turn a nonzero number into zero (double to int) break the canonical form exactly if that happens for some coefficient.", "quantifier": "all pairs of scalar types and conversions, all expressions, all algebras (commutation) or the built-in ones (canonical form)", "why_tests_cant": "the scalar types, conversions and expressions are unbounded; the overloads for equal and different result types are separate code", "anchors": ["include/libcommute/expression/expression.hpp: expression(expression<S> const&), operator=, operator+=, operator-=, operator*=, operator*, mul_const_postfix_impl, mul_const_prefix_impl, add_const_postfix_impl, add_const_prefix_impl, sub_const_postfix_impl", "include/libcommute/scalar_traits.hpp: add_assign, sub_assign, mul_assign"]}
{"id": "C79", "title": "Exceptions in the middle of operations on expressions", "statement": "If a call made by `a += b` or `a -= b` throws (allocation of a map node, arithmetic of the scalar type), a is left in canonical form, an initial part of the monomials of b has been added/subtracted and the others not at all; `a *= b`, `a += x` and `a -= x` leave a as it was; `a *= x` leaves an initial part of the coefficients multiplied and the others unchanged; assignment from another scalar type leaves an initial part of the new value. Consequently after any sequence of operations in which any number of exceptions were thrown at arbitrary points and caught, all expressions are in canonical form.", "quantifier": "all expressions, all crash points, all sequences of statements, each with its own crash point", "why_tests_cant": "every call is a possible crash point and the number of calls grows with the operands; tests do not inject allocation failures", "anchors": ["include/libcommute/expression/expression.hpp: operator+=, operator-=, operator*=, operator=, store_monomials"]}
{"id": "C80", "title": "Exceptions while partitioning a Hilbert space", "statement": "If an operator throws or memory runs out while `merge_subspaces()` collects the connections, the partition is as before the call (every state keeps its subspace number). If memory runs out while the subspaces are renumbered, exactly the subspaces of the basis states visited so far have their new number and the other states have none; if it runs out in the return statement, the partition is the new one. Whatever happened, another call of `merge_subspaces()` gives a complete partition: the one it would give without the failed call, or after a successful one. An interrupted constructor leaves in the caller's map of matrix elements an initial part of the elements, all with the right values, and the other entries untouched.", "quantifier": "all Hilbert spaces, partitions reached through the interface, operators, crash points and retries", "why_tests_cant": "every operator application and map insertion is a possible crash point, and their number grows with the space; tests do not inject failures", "anchors": ["include/libcommute/loperator/space_partition.hpp: space_partition, merge_subspaces, update_root_to_subspace, operator[], find_connections"]}
{"id": "C81", "title": "Scalar arguments that are coefficients of the expression itself", "statement": "The iterators of an expression give references to its coefficients. e += c and e -= c with such a reference have the same effect as with a copy of the number. e *= c multiplies the monomials up to the one of c by c and all later ones by c*c; so it agrees with multiplication by a copy exactly if c = 1 or c belongs to the last monomial.", "quantifier": "all expressions, scalars and positions", "why_tests_cant": "aliasing of arguments; depends on the position of the coefficient", "anchors": ["include/libcommute/expression/expression.hpp: operator*=(S const&), operator+=(S const&), operator-=(S const&), const_iterator::value_type"]}
{"id": "C82", "title": "Monomials are values although they share generators", "statement": "Whatever sequence of constructions, copies, assignments, moves, destructions, append(), concatenate() and swap_generators() is applied to monomials: if the arguments are in range and no range of a monomial is appended to the monomial itself, no operation touches a destroyed generator or an invalidated iterator, and every monomial contains exactly the sequence of generators the operations describe (changing one monomial never changes another). A generator lives exactly as long as some monomial contains it, with a use count equal to the number of places where it occurs; nothing is left when all monomials are gone. m.append(m) doubles m; m.append(range of m) is undefined exactly if the range is non-empty and the vector has to grow.", "quantifier": "all programs over monomials, all growth policies of std::vector", "why_tests_cant": "arbitrary histories of sharing, aliasing and reallocation; lifetime errors need not be visible", "anchors": ["include/libcommute/expression/monomial.hpp: monomial, append, concatenate, swap_generators, range_type", "include/libcommute/expression/generator.hpp: enable_shared_from_this"]}
{"id": "C83", "title": "The recursion of find_root is logarithmic", "statement": "After any history of make_set, make_sets, find_root, in_same_set, root_union, set_union, compress_sets and normalize_sets on a structure of (finally) n elements, find_root of any element returns after at most (m+1)*log2(n)+m-1 nested recursive calls, m being the number of calls of normalize_sets. If normalize_sets is only called directly after compress_sets (as space_partition does) the bound is log2(n)+2, whatever m is. Directly after compress_sets at most one recursive call is made.", "quantifier": "all sizes, histories and elements", "why_tests_cant": "a bound on the stack depth over all histories", "anchors": ["include/libcommute/loperator/disjoint_sets.hpp: find_root, root_union, compress_sets, normalize_sets", "include/libcommute/loperator/space_partition.hpp: update_root_to_subspace"]}
{"id": "C84", "title": "Products and Hermitian conjugates of operators with bosons", "statement": "Let a and b be expressions over any fermions, bosons and spins of the space. For every vector v such that no monomial of b lifts a basis state of v above the truncation (number of bosons in the state + creations - annihilations < dimension, for each boson), applying the operator of a * b to v gives the same vector as applying the operator of b and then that of a. If b contains no bosonic creation operators this holds for all vectors. The operator of conj(a) is the adjoint of the operator of a, <A+ w|v> = <w|A v>, for all vectors, bosons included. If the powers of all bosonic operators are below the truncation (and spins are spins 1/2), the operator of a is Hermitian exactly if a is unchanged by conj().", "quantifier": "all index types, scalar types with exact square roots, spaces, expressions built through the interface, state vectors and foreach orders", "why_tests_cant": "all expressions, spaces, truncations and states", "anchors": ["include/libcommute/loperator/loperator.hpp: loperator", "include/libcommute/loperator/monomial_action_boson.hpp: act", "include/libcommute/expression/expression.hpp: operator*, normalize_and_store", "include/libcommute/expression/expression.hpp: conj"]}
{"id": "C85", "title": "Enlarging the boson truncation does not change amplitudes below it", "statement": "Build the operator of one expression on two spaces that differ only in the dimensions of the bosonic elementary spaces. Applied to vectors that agree on the smaller space (and vanish outside of it), the two operators give the same amplitudes on the smaller space: a larger truncation adds amplitudes, it does not change those that were there. The bit layout of the two spaces may differ.", "quantifier": "all index types, scalar types with exact square roots, pairs of spaces, canonical expressions, state vectors and foreach orders", "why_tests_cant": "all expressions, pairs of truncations and states", "anchors": ["include/libcommute/loperator/monomial_action_boson.hpp: act", "include/libcommute/loperator/loperator.hpp: loperator", "include/libcommute/loperator/elementary_space_boson.hpp: elementary_space_boson", "include/libcommute/loperator/hilbert_space.hpp: recompute_bit_ranges"]}
{"id": "C86", "title": "Exceptions while a Hilbert space is extended or assigned", "statement": "A program catches std::bad_alloc thrown at any allocation of add() or of the copy assignment (and the library's own exceptions) and goes on using the object. After any such history: the list of elementary spaces is sound and has() tells what is in it; bad_alloc out of add(e) either changed nothing or left e in the space, so that repeating the call throws elementary_space_exists; later calls of add() have the same outcomes as on an intact object, and a successful one makes the object equal to the space constructed in one go from its elementary spaces, except that dim() is the old dim() times dim(e); repeating a failed assignment gives what the first would have given; adding to a copy and moving it back is all or nothing. Right after bad_alloc bit ranges can overlap, vec_size() can be smaller than dim(), and foreach() can visit wrong states.", "quantifier": "all index types, histories of constructions, additions, copies and assignments, and crash points", "why_tests_cant": "every allocation of every call in every history", "anchors": ["include/libcommute/loperator/hilbert_space.hpp: add", "include/libcommute/loperator/hilbert_space.hpp: operator=", "include/libcommute/loperator/hilbert_space.hpp: recompute_bit_ranges", "include/libcommute/loperator/hilbert_space.hpp: init_foreach_alg"]}
{"id": "C87", "title": "Heisenberg chain: the printed commutators vanish for every chain length", "statement": "The example program heisenberg_chain.cpp, run with any number of spins N and any exchange constant g, throws nothing and prints zero for all nine commutators: the Hamiltonian of the periodic spin-1/2 chain commutes with the three components of the total spin and with the charges Q3, Q4, Q5, and the charges commute with each other. The expressions H, S_tot, Q3, Q4, Q5 it builds are, in every ring of operators of N spins 1/2, the documented sums of scalar and vector products of neighbouring spins.", "quantifier": "all chain lengths N and exchange constants g (exact complex coefficients)", "why_tests_cant": "a run checks one N (20 in the example); the claim needs the normal form of products with O(N^2) terms for every N", "anchors": ["examples/heisenberg_chain.cpp: main", "examples/heisenberg_chain.cpp: dot", "examples/heisenberg_chain.cpp: cross", "include/libcommute/expression/expression.hpp: operator*", "include/libcommute/expression/factories.hpp: make_spin"]}
{"id": "C88", "title": "Rounding errors of sums and products of expressions are bounded", "statement": "For expressions with double or std::complex<double> coefficients, evaluated in rounded arithmetic: a coefficient of a sum or difference is off by at most one rounding of the exact value plus 100 epsilon, a coefficient of a multiple by one rounding. The product throws nothing for the built-in algebras, and each coefficient of it (also of monomials that only one of the two results contains) differs from the coefficient of the exact product by at most ((1+u)^n - 1) M + 100 epsilon n (1+u)^n, where n is a number that depends on the lengths of the monomials alone and M is the coefficient of the same product computed with absolute values of all coefficients and structure constants; M itself is at most the sum over pairs of terms of |c1||c2| times a number depending on the lengths of the monomials. In complex arithmetic u is three units of roundoff and the zero test lets pass sqrt(2) times as much.", "quantifier": "all expressions, all built-in algebras and spins (and user algebras with small exact structure constants), all real and complex coefficients without overflow and underflow", "why_tests_cant": "a test compares a few products within a chosen tolerance; the bound must cover every order of exchanges, cancellations and values that fall just below the zero test", "anchors": ["include/libcommute/expression/expression.hpp: expression::operator*=", "include/libcommute/expression/expression.hpp: expression::operator+=", "include/libcommute/expression/expression.hpp: expression::operator-=", "include/libcommute/expression/expression.hpp: normalize_and_store", "include/libcommute/expression/expression.hpp: store_monomial", "include/libcommute/scalar_traits.hpp: is_zero"]}
{"id": "C89", "title": "Partitioning with a linear operator and working in a subspace", "statement": "make_space_partition(H, hs, me) for a linear operator H made from an expression: two basis states get the same subspace number exactly if they are connected by a chain of non-zero matrix elements <y|H|x> (as defined by the actions of generators on basis states), and me contains exactly the non-zero matrix elements. merge_subspaces(Cd, C) returns exactly the non-zero matrix elements of Cd and C and keeps every invariant operator block diagonal. In such a partition an amplitude of H|v> depends on the amplitudes of the same subspace only; a basis_mapper made from subspace_basis(k) turns H(psi_view, phi_view) on vectors of the dimension of the subspace into the product with the block of H, without exceptions, provided no two monomials of H cancel in an off-diagonal matrix element. Without this condition the view throws although the subspace is invariant.", "quantifier": "all Hilbert spaces, expressions, scalar types with exact arithmetic, orders of unordered_map, sequences of merges, subspaces, vectors", "why_tests_cant": "the shipped example runs one Hamiltonian and never meets cancelling terms; equality of subspaces and couplings concerns all chains of states", "anchors": ["include/libcommute/loperator/space_partition.hpp: space_partition", "include/libcommute/loperator/space_partition.hpp: merge_subspaces", "include/libcommute/loperator/space_partition.hpp: subspace_basis", "include/libcommute/loperator/loperator.hpp: loperator::operator()", "include/libcommute/loperator/mapped_basis_view.hpp: mapped_basis_view", "examples/partition.cpp: main"]}
{"id": "C90", "title": "Structure constants and linear functions of generators", "statement": "var_number: == holds exactly between numbers of the same kind with the same stored values (so it is an equivalence that implies equality of the numbers, but 1 and 2/2 differ); is_zero() holds exactly if the number is zero. linear_function: constructors and every form of set() give the object exactly the constant and the terms, in order, whatever it held before; this includes calls whose arguments refer to members of the object itself, except in the variadic form, where a reference to one of its own terms is dangling and a reference to its own constant gives the new one. vanishing() implies that the function is zero for all values of the basis objects, and is equivalent to it if the objects are distinct and the coefficients are not zero.", "quantifier": "all numbers, basis types, terms, histories of set() calls, arguments that may refer to the object", "why_tests_cant": "the unit tests set a few constants and never pass members of the object itself; the statement on vanishing() ranges over all values", "anchors": ["include/libcommute/utility.hpp: var_number", "include/libcommute/utility.hpp: linear_function", "include/libcommute/utility.hpp: linear_function::set", "include/libcommute/utility.hpp: linear_function::vanishing"]}
{"id": "C91", "title": "kanamori.cpp: Eq. (7) for every U and J", "statement": "For all values of the Coulomb integrals U and J the example program kanamori.cpp runs to its end, and the difference H_K - H_t2g it prints is 0. The objects H_K, N, S, S^2, L, L^2 and H_t2g it builds are the operators of Eqs. (2), (4) and (7) of the reference, in every ring of operators of the shell. N, S^2, L^2 and every component of S and L commute with H_K: both products are stored as the same expression.", "quantifier": "all U and J, all rings of operators of the six spin orbitals", "why_tests_cant": "the program is run for U = 4, J = 0.2 only and nothing checks its output", "anchors": ["examples/kanamori.cpp: main", "include/libcommute/expression/expression.hpp: expression", "include/libcommute/expression/factories.hpp: static_indices::n"]}
{"id": "C92", "title": "Matrices filled column by column through views", "statement": "The loops of the example programs (reset psi to a basis vector, make a view of the i-th column of a matrix, let the operator act from the view of psi to the view of the column) fill a square matrix with the matrix elements <x_j|H|x_i>, whatever the matrix held before and in whichever order it is stored: for the states x_i of an N-fermion sector or of a multisector, if H conserves the fermion numbers, and for all states of a sparse space with compressed views. H does not leave the sector; the eigenvectors of the matrix are those eigenvectors of H that vanish outside of it, with the same eigenvalues; and the matrix of an expression equal to its conjugate is Hermitian, which SelfAdjointEigenSolver assumes.", "quantifier": "all Hilbert spaces, sectors, multisectors, expressions that conserve the fermion numbers, initial contents and storage orders of the matrix", "why_tests_cant": "the examples print a few eigenvalues of one model; a column that misses an element, or keeps an old one, shows for some operators only", "anchors": ["examples/n_fermion_sectors.cpp: main", "examples/spin1_heisenberg.cpp: main", "include/libcommute/loperator/n_fermion_sector_view.hpp: n_fermion_sector_view, n_fermion_multisector_view", "include/libcommute/loperator/compressed_state_view.hpp: compressed_state_view", "include/libcommute/loperator/state_vector_eigen3.hpp: update_add_element"]}
{"id": "C93", "title": "A user-defined coefficient type: polynomials in a parameter", "statement": "With the coefficient type of the example (polynomials whose traits are defined by the user), expressions can be built by the same operations as with numbers: evaluating the finished expression at x gives the operator that the same program computes with the values of the polynomials at x (in every ring with the relations of the algebras), and even the same expression, term by term, apart from stored terms that vanish at x. The parametric operator made of it, called with x, is the operator made of the expression at x. For all polynomials w0 and g the Hamiltonian of the example is made without an exception and is w0/2 + w0 (a+ - g)(a - g); acting on the ground state with x it gives w0(x) (1/2 + g(x)^2) |0> - w0(x) g(x) |1>, in every Hilbert space with that boson and for every kind of state vector. The polynomial class itself computes sums, differences, products and multiples of polynomials, degrees add up, and is_zero() is true for the zero polynomials only.", "quantifier": "all polynomials, points x, programs of library operations on fermions, bosons and spins 1/2, base number types without zero divisors, Hilbert spaces and state vector types", "why_tests_cant": "the example runs one Hamiltonian at four points; a coefficient type whose is_zero() or product is slightly wrong, or a stored term that vanishes, shows for some polynomials only", "anchors": ["examples/parametric_loperator.cpp: polynomial, scalar_traits<polynomial>, main", "include/libcommute/expression/expression.hpp: expression (arithmetic)", "include/libcommute/scalar_traits.hpp: scalar_traits", "include/libcommute/loperator/loperator.hpp: parametric_loperator, make_param_loperator"]}
{"id": "C94", "title": "The Jaynes-Cummings example, for all parameters", "statement": "For all values of hbar, w_c, w_a and Omega the Hamiltonian H = hbar w_c a+ a + hbar w_a S_z + hbar/2 Omega (a S+ + a+ S-) and the number operator N = a+ a + S_z of the example are built without an exception, with exactly these terms, and H * N - N * H is the empty expression. In every Hilbert space with that boson (d states) and that spin 1/2, whatever else it contains, and for every kind of state vector, the linear operator made of H has |0, g> as an eigenvector with the eigenvalue -hbar w_a/2; for every 1 <= n < d it maps c1 |n-1, e> + c2 |n, g> to the vector given by the 2 x 2 matrix of the model; and, for w_a <> w_c, the two dressed states of the program are eigenvectors with the energies hbar w_c (n - 1/2) +- hbar/2 sqrt(delta^2 + n Omega^2), the first one with the sign of delta = w_a - w_c. The basis states are those whose indices the program computes as sums of basis_state_index().", "quantifier": "all parameters, bosonic cutoffs d, excitation numbers 1 <= n < d, amplitudes c1 and c2, Hilbert spaces, index values and state vector types", "why_tests_cant": "the example runs one set of parameters, twenty excitation numbers and two vectors for each; a wrong matrix element of a ladder operator near the cutoff or an error in the order of the elementary spaces shows for some of them only", "anchors": ["examples/jaynes_cummings.cpp: main", "include/libcommute/hilbert_space.hpp: basis_state_index()", "include/libcommute/loperator/monomial_action_boson.hpp", "include/libcommute/loperator/monomial_action_spin.hpp", "include/libcommute/expression/expression.hpp: operator*, operator+, operator-"]}
{"id": "C95", "title": "The Holstein example, for all lattice sizes and parameters", "statement": "For every lattice size N, all t, w0 and g, and every index type, the Holstein example builds its Hamiltonian without an exception; the result is the operator -t sum c+(i,s) c(j,s) over pairs of sites one step apart, plus w0 sum a+(i) a(i) over the sites, plus g sum n(i,s) (a+(i) + a(i)) over the sites and spin projections. The commutator of H with the total number of electrons is the empty expression. When t, w0 and g are real, conj(H) is H and H - conj(H) is empty. The condition the example uses for neighbors describes open boundaries (not the periodic ones its comment names).", "quantifier": "all lattice sizes N, parameters, index types and injective index assignments, scalar types, rings with operators that satisfy the canonical relations", "why_tests_cant": "the example runs one lattice and prints zeros; the expressions have hundreds of terms, and a wrong sign in reordering or a lost term may cancel for one lattice size or for special parameters", "anchors": ["examples/holstein.cpp: main, neighbors", "include/libcommute/expression/expression.hpp: operator*, operator+=, operator-, conj()", "include/libcommute/expression/factories.hpp: c_dag(), c(), n(), a_dag(), a()"]}
{"id": "C96", "title": "The Hubbard-Holstein example, for all lattice sizes and parameters", "statement": "For all lattice sizes Nx and Ny, all t, U and g, and every index type, the Hubbard-Holstein example builds H, N and S_z without an exception. H is the operator -t sum c+(i,s) c(j,s) over pairs of neighbors on the lattice with periodic boundaries, plus U sum n(i,up) n(i,down), plus sum a+(i) a(i), plus g sum n(i,s) (a+(i) + a(i)); N is sum (n(i,up) + n(i,down)) and S_z is 0.5 sum (n(i,up) - n(i,down)). The commutators [H, N] and [H, S_z] are the empty expression, and for real parameters conj(H) is H and conj(H) - H is empty. The conditions neighbors_x and neighbors_y describe periodic boundaries for every size.", "quantifier": "all lattice sizes, parameters, index types and injective index assignments, scalar types, rings with operators that satisfy the canonical relations", "why_tests_cant": "the example runs one 10 x 10 lattice and prints zeros; small and odd sizes, where bonds across the boundary coincide with others or join a site to itself, and other parameters are not run", "anchors": ["examples/hubbard_holstein.cpp: main, neighbors_x, neighbors_y", "include/libcommute/expression/expression.hpp: operator*, operator+=, operator+, operator-, conj()", "include/libcommute/expression/factories.hpp: c_dag(), c(), n(), a_dag(), a()"]}
{"id": "C97", "title": "The Hubbard-Holstein chain example, for all lengths and parameters", "statement": "For all lengths L of the chain, all t, mu, U, w and g, and every index type, the one-dimensional Hubbard-Holstein example builds its Hamiltonian without an exception. H is the operator -t sum (c+(i,s) c(i+1,s) + c+(i+1,s) c(i,s)) over the sites i that are followed by another and the two spins, minus mu sum (n(i,up) + n(i,down)), plus U sum n(i,up) n(i,down), plus w sum a+(i) a(i), plus g sum (n(i,up) + n(i,down)) (a+(i) + a(i)). So `+ hc` adds exactly the hops in the other direction. H commutes with the number of electrons of each spin (the commutator is the empty expression), which is what makes one sector of n_fermion_sector_view invariant; and for real parameters conj(H) is H, so the matrix the example diagonalizes is Hermitian.", "quantifier": "all chain lengths, parameters, index types and injective index assignments, scalar types with a conjugation, rings with operators that satisfy the canonical relations", "why_tests_cant": "the example runs one chain of 4 sites with one set of parameters and prints eigenvalues that nothing checks; the lengths 0 and 1, whose loop over links is empty, are never run", "anchors": ["examples/hubbard_holstein_1d.cpp: main", "include/libcommute/expression/hc.hpp: operator+", "include/libcommute/expression/expression.hpp: operator*, operator+=, operator+, conj()", "include/libcommute/expression/factories.hpp: c_dag(), c(), n(), a_dag(), a()"]}
{"id": "C98", "title": "The ring of spins of the spin-1 example, for all numbers of spins", "statement": "For every number N of spins and every multiplicity other than 2 (3 in the program), the spin-1 Heisenberg example builds its Hamiltonian without an exception, and H is the operator sum over i of S_z(i) S_z(i+1) + 0.5 (S_+(i) S_-(i+1) + S_-(i) S_+(i+1)), where the site after the last is the first. H can be multiplied by the projection of the total spin, and the products in the two orders are the same operator. conj(H) does not throw and is the same operator as H, so the matrix the example diagonalizes is Hermitian. N = 0, 1 (a spin coupled to itself) and 2 (both bonds between the same spins) are included.", "quantifier": "all numbers of spins, multiplicities other than 2, index types and injective index assignments, scalar types, rings with operators that satisfy the canonical relations", "why_tests_cant": "the example runs one ring of 6 spins 1 and prints eigenvalues that nothing checks; short rings and other spins are not run", "anchors": ["examples/spin1_heisenberg.cpp: main", "include/libcommute/expression/expression.hpp: operator*, operator+=, operator+, conj()", "include/libcommute/expression/generator_spin.hpp: swap_with, simplify_prod", "include/libcommute/expression/factories.hpp: S_z(), S_p(), S_m()"]}
