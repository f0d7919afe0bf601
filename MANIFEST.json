{
 "claims": [
  {
   "property": "C01",
   "status": "proved",
   "theorems": [
    "C01_generator_order",
    "C01_index_orders"
   ],
   "note": ""
  },
  {
   "property": "C02",
   "status": "proved",
   "theorems": [
    "C02_monomial_order",
    "C02_is_ordered",
    "C02_any_algebra"
   ],
   "note": ""
  },
  {
   "property": "C03",
   "status": "proved",
   "theorems": [
    "C03_canonical_form",
    "C03_no_duplicates"
   ],
   "note": "All expressions reachable by the operations of the interface, spin sites used consistently."
  },
  {
   "property": "C04",
   "status": "proved",
   "theorems": [
    "C04_add_coefficients",
    "C04_sub_coefficients",
    "C04_equality",
    "C04_group_laws",
    "C04_eqb"
   ],
   "note": ""
  },
  {
   "property": "C05",
   "status": "proved",
   "theorems": [
    "C05_heterogeneous_add",
    "C05_heterogeneous_sub"
   ],
   "note": ""
  },
  {
   "property": "C06",
   "status": "proved",
   "theorems": [
    "C06_scalar_arithmetic"
   ],
   "note": ""
  },
  {
   "property": "C07",
   "status": "proved",
   "theorems": [
    "C07_normalization_sound"
   ],
   "note": "Spin sites must be used consistently (finding F1)."
  },
  {
   "property": "C08",
   "status": "proved",
   "theorems": [
    "C08_termination",
    "C08_total"
   ],
   "note": ""
  },
  {
   "property": "C09",
   "status": "proved",
   "theorems": [
    "C09_product_value",
    "C09_sum_value",
    "C09_operator_laws"
   ],
   "note": ""
  },
  {
   "property": "C10",
   "status": "proved",
   "theorems": [
    "C10_unique_normal_form",
    "C10_nonzero",
    "C10_ring_laws"
   ],
   "note": "Fermions, bosons and spins 1/2 (for spin >= 1 it is false: C11). Uniqueness through linear independence of canonical monomials on Fock space."
  },
  {
   "property": "C11",
   "status": "proved",
   "theorems": [
    "C11_not_associative_refuted"
   ],
   "note": "Finding F14: associativity up to == fails for spin 1; the counterexample is the zero operator in every representation."
  },
  {
   "property": "C12",
   "status": "proved",
   "theorems": [
    "C12_operator",
    "C12_adjoint",
    "C12_laws",
    "C12_elements",
    "C12_never_throws",
    "star_ring_exists"
   ],
   "note": "as operators for every algebra and multiplicity (C12_operator, C12_adjoint); with respect to == for fermions, bosons and spins 1/2 (C12_laws)"
  },
  {
   "property": "C13",
   "status": "proved",
   "theorems": [
    "C13_hc",
    "C13_hc_operator"
   ],
   "note": "with respect to == for fermions, bosons and spins 1/2; as operators for every algebra"
  },
  {
   "property": "C14",
   "status": "proved",
   "theorems": [
    "C14_transform"
   ],
   "note": ""
  },
  {
   "property": "C15",
   "status": "proved",
   "theorems": [
    "C15_factories",
    "C15_fermions",
    "C15_bosons",
    "C15_spin_site",
    "C15_spin_sites",
    "C15_mixed",
    "C15_SxSy",
    "C15_number"
   ],
   "note": "Any scalar type without zero divisors, any index type."
  },
  {
   "property": "C16",
   "status": "proved",
   "theorems": [
    "C16_multiplicity_ignored_refuted",
    "C16_different_sites"
   ],
   "note": "The documented claim is FALSE (finding F1); it holds when no index is shared between a spin-1/2 and another spin."
  },
  {
   "property": "C17",
   "status": "proved",
   "theorems": [
    "C17_exact",
    "C17_throws",
    "C17_never_throws"
   ],
   "note": "Integers are unbounded in the model."
  },
  {
   "property": "C18",
   "status": "proved",
   "theorems": [
    "C18_zero_coefficients_stored"
   ],
   "note": ""
  },
  {
   "property": "C19",
   "status": "proved",
   "theorems": [
    "C19_tiling",
    "C19_insertion_order",
    "C19_algebra_ranges",
    "C19_queries",
    "C19_algebra_ids"
   ],
   "note": "Every reachable Hilbert space. Algebra ranges are stated for objects that are not the target of a copy (see C25)."
  },
  {
   "property": "C20",
   "status": "proved",
   "theorems": [
    "C20_dimensions"
   ],
   "note": ""
  },
  {
   "property": "C21",
   "status": "proved",
   "theorems": [
    "C21_add",
    "C21_vector",
    "C21_no_wrap"
   ],
   "note": "std::log2 is taken to be exact (F15)."
  },
  {
   "property": "C22",
   "status": "proved",
   "theorems": [
    "C22_foreach"
   ],
   "note": "Sparse spaces: dim() < 2^31, which is necessary (C23_iff)."
  },
  {
   "property": "C23",
   "status": "proved",
   "theorems": [
    "C23_iff",
    "C23_refuted"
   ],
   "note": "False of the code beyond 2^31 states: C23_iff gives the exact boundary, C23_refuted a space of 3*2^32 states on which foreach never calls f."
  },
  {
   "property": "C24",
   "status": "proved",
   "theorems": [
    "C24_decodes",
    "C24_injective",
    "C24_sums"
   ],
   "note": ""
  },
  {
   "property": "C25",
   "status": "proved",
   "theorems": [
    "C25_exists_unchanged",
    "C25_failed_add_refuted",
    "C25_copy",
    "C25_copy_refuted",
    "C25_self_assign_refuted",
    "C25_equality",
    "C25_equality_refuted"
   ],
   "note": "The property splits into a true part (elementary_space_exists leaves the object unchanged; copies agree in all queries but those on algebras) and a false one (failed add() with hilbert_space_too_big; algebra ranges of copies; self-assignment; operator== ignores boson truncation)."
  },
  {
   "property": "C26",
   "status": "proved",
   "theorems": [
    "C26_from_expression",
    "C26_failures"
   ],
   "note": ""
  },
  {
   "property": "C27",
   "status": "proved",
   "theorems": [
    "C27_fermion_action"
   ],
   "note": ""
  },
  {
   "property": "C28",
   "status": "proved",
   "theorems": [
    "C28_car"
   ],
   "note": ""
  },
  {
   "property": "C29",
   "status": "proved",
   "theorems": [
    "C29_boson_action",
    "C29_powers"
   ],
   "note": ""
  },
  {
   "property": "C30",
   "status": "proved",
   "theorems": [
    "C30_spin_action"
   ],
   "note": ""
  },
  {
   "property": "C31",
   "status": "proved",
   "theorems": [
    "C31_mixed_action",
    "C31_parts_commute",
    "C31_local"
   ],
   "note": ""
  },
  {
   "property": "C32",
   "status": "proved",
   "theorems": [
    "C32_action",
    "C32_linear",
    "C32_in_place",
    "C32_aliased",
    "C32_dense",
    "C32_sparse"
   ],
   "note": ""
  },
  {
   "property": "C33",
   "status": "proved",
   "theorems": [
    "C33_product",
    "C33_linear",
    "C33_adjoint"
   ],
   "note": "Products, sums, differences, scalar multiples and Hermitian adjoints, for fermions and spins of every multiplicity; with bosons see C34 and C84. Non-vacuity: lop_hypotheses_met, C33_adjoint_ex."
  },
  {
   "property": "C34",
   "status": "proved",
   "theorems": [
    "C34_truncation"
   ],
   "note": "The exact difference between (a*a_dag)v and a(a_dag v) for every truncation and vector."
  },
  {
   "property": "C35",
   "status": "proved",
   "theorems": [
    "C35_construction",
    "C35_throws",
    "C35_no_bosons",
    "C35_in_range",
    "C35_unknown_boson_refuted",
    "C35_copied_space_refuted",
    "C35_assigned_space_refuted"
   ],
   "note": "Exact condition for throwing, for Hilbert spaces that are not copies; false of copied spaces (always throws for fermions) and of assigned-to spaces (wrong signs)."
  },
  {
   "property": "C36",
   "status": "proved",
   "theorems": [
    "C36_at",
    "C36_substitution",
    "C36_moved_arguments_refuted"
   ],
   "note": "For functors that do not modify their arguments; false of functors that move from rvalue arguments."
  },
  {
   "property": "C37",
   "status": "proved",
   "theorems": [
    "C37_contents",
    "C37_foreach",
    "C37_no_zeros",
    "C37_read_refuted"
   ],
   "note": "The last part (zeros are never enumerated) is false after reading an element through operator[]; the exact condition is in C37_no_zeros."
  },
  {
   "property": "C38",
   "status": "proved",
   "theorems": [
    "C38_next_pow2_least",
    "C38_next_pow2_branches_agree",
    "C38_ctz_lowest",
    "C38_ctz_branches_agree",
    "C38_parity",
    "C38_popcount",
    "C38_extract",
    "C38_deposit",
    "C38_extract_deposit_inverse",
    "C38_deposit_extract_inverse"
   ],
   "note": "Both preprocessor branches are modelled and shown equal where both are correct."
  },
  {
   "property": "C39",
   "status": "proved",
   "theorems": [
    "C39_value",
    "C39_right_iff",
    "C39_popcount_portable_refuted"
   ],
   "note": "Finding F5: the portable fallback returns prefix parities; below 2^32 it is right exactly for 0, 1 and 3."
  },
  {
   "property": "C40",
   "status": "proved",
   "theorems": [
    "C40_binomial_exact",
    "C40_binomial_63_refuted",
    "C40_binomial_63_exact_set"
   ],
   "note": "Exact for n<=62; for n=63 wrong exactly at k=29..34 (finding F4)."
  },
  {
   "property": "C41",
   "status": "proved",
   "theorems": [
    "C41_combination_rank_is_position",
    "C41_combination_rank_bijective"
   ],
   "note": ""
  },
  {
   "property": "C42",
   "status": "proved",
   "theorems": [
    "C42_unranking_inverts_ranking",
    "C42_unranking_complete",
    "C42_restart",
    "C42_unranking_size_63_refuted"
   ],
   "note": "Proved for M<=62; size wrong for M=63 at N=29..34 because of F4."
  },
  {
   "property": "C43",
   "status": "proved",
   "theorems": [
    "C43_staggered_equals_combination",
    "C43_staggered_constructible"
   ],
   "note": "Hypothesis: the lookup table has fewer than 2^64 entries (otherwise it cannot be allocated)."
  },
  {
   "property": "C44",
   "status": "proved",
   "theorems": [
    "C44_trie_equals_combination",
    "C44_trie_rank_is_position",
    "C44_63_modes_refuted"
   ],
   "note": "every chunk size, M <= 62; termination, absence of out-of-bounds accesses and of assertion failures in the constructor are part of the theorem; with M = 63 the constructor shifts by 64 bits"
  },
  {
   "property": "C45",
   "status": "proved",
   "theorems": [
    "C45_sector",
    "C45_rejections",
    "C45_no_bits_refuted",
    "C45_63_modes_refuted",
    "C45_copied_space_refuted"
   ],
   "note": "C45_sector: for every non-sparse, not copied space with 1..62 fermionic modes (or none) and at least one bit, every N and ranking algorithm (combination, staggered<R>, R<=51, trie<R>). The property as first stated is false for spaces without bits, for 63 modes and for copied Hilbert spaces: the three _refuted theorems."
  },
  {
   "property": "C46",
   "status": "proved",
   "theorems": [
    "C46_multisector",
    "C46_rejections",
    "C46_33_modes_refuted"
   ],
   "note": "C46_multisector: every non-sparse space (also copies), every list of disjoint sectors of the first 32 fermionic modes. False beyond the 32nd mode (init_mask returns unsigned int): C46_33_modes_refuted. A copied or moved view refers to the sector parameters of the original; such views are not modelled."
  },
  {
   "property": "C47",
   "status": "proved",
   "theorems": [
    "C47_in_same_set_iff_connected",
    "C47_find_root_representative",
    "C47_n_sets_counts_classes",
    "C47_calls_never_fail",
    "C47_root_union_self_refuted"
   ],
   "note": "All histories; root_union(x,x) is excluded because the code silently decrements n_sets (finding F17, refuted theorem)."
  },
  {
   "property": "C48",
   "status": "proved",
   "theorems": [
    "C48_normalize_smallest_refuted",
    "C48_normalize_after_full_compression"
   ],
   "note": "False of compress_sets();normalize_sets() (finding F6); true after find_root on every element."
  },
  {
   "property": "C49",
   "status": "proved",
   "theorems": [
    "C49_constructor_succeeds",
    "C49_subspaces_are_components",
    "C49_subspaces_invariant",
    "C49_numbering",
    "C49_matrix_elements"
   ],
   "note": "Any Hilbert space (list of visited states) and any operator given by its non-zero matrix elements."
  },
  {
   "property": "C50",
   "status": "proved",
   "theorems": [
    "C50_merge_coarsens_minimally",
    "C50_merge_matrix_elements"
   ],
   "note": "All partitions reachable through the interface."
  },
  {
   "property": "C51",
   "status": "proved",
   "theorems": [
    "C51_each_old_subspace_has_one_target",
    "C51_one_to_one_at_fixpoint",
    "C51_one_to_one_refuted"
   ],
   "note": "The documented claim is FALSE for a single call (finding F10, C51_one_to_one_refuted); what is guaranteed, and that the claim holds when the call leaves the number of subspaces unchanged, is proved."
  },
  {
   "property": "C52",
   "status": "proved",
   "theorems": [
    "C52_find_connections_exact",
    "C52_subspace_bases_partition"
   ],
   "note": ""
  },
  {
   "property": "C53",
   "status": "proved",
   "theorems": [
    "C53_bijection",
    "C53_list",
    "C53_duplicates"
   ],
   "note": "all three constructors; any order of the traversal of unordered maps"
  },
  {
   "property": "C54",
   "status": "proved",
   "theorems": [
    "C54_one_operator",
    "C54_compositions",
    "C54_commuting",
    "C54_order_refuted",
    "C54_large_N_refuted"
   ],
   "note": "the documented order of application is wrong: the first operator of the list acts first (C54_order_refuted); the documented set is obtained for commuting operators (C54_commuting)"
  },
  {
   "property": "C55",
   "status": "proved",
   "theorems": [
    "C55_action",
    "C55_exact",
    "C55_out_of_range"
   ],
   "note": "source and destination vectors of any type"
  },
  {
   "property": "C56",
   "status": "proved",
   "theorems": [
    "C56_map_index",
    "C56_foreach",
    "C56_action",
    "C56_one_dimension_refuted",
    "C56_large_refuted"
   ],
   "note": "map_index for every Hilbert space; foreach and the action of operators for dimensions in [2, 2^31); outside of this range foreach visits nothing (the two _refuted theorems)"
  },
  {
   "property": "C57",
   "status": "proved",
   "theorems": [
    "C57_nested",
    "C57_refuted"
   ],
   "note": "Finding F9: nested loops over one sparse space: the inner loops are right, the outer one visits 0..dim-1, always including a state that does not exist. Successive loops: every loop starts by resetting the shared state (C22_foreach holds for each of them)."
  },
  {
   "property": "C58",
   "status": "proved",
   "theorems": [
    "C58_add_self",
    "C58_sub_self_refuted"
   ],
   "note": "e += e doubles; e -= e is undefined behaviour for every non-empty expression (finding F13)."
  },
  {
   "property": "C59",
   "status": "proved",
   "theorems": [
    "C59_stored",
    "C59_distributive",
    "C59_scalars",
    "C59_structure_constants",
    "C59_conj",
    "C59_builtin"
   ],
   "note": "every algebra; exact scalar arithmetic (for the floating point tolerance see C60)"
  },
  {
   "property": "C60",
   "status": "proved",
   "theorems": [
    "C60_sums",
    "C60_sum_error",
    "C60_product",
    "C60_product_complex",
    "C60_builtin",
    "C60_integers",
    "C60_conj_small",
    "C60_conj_refuted",
    "C60_scaling_refuted"
   ],
   "note": "arithmetic exact, zero test approximate; rounding is added in C88. The _refuted theorems are the losses the statement lists."
  },
  {
   "property": "C61",
   "status": "proved",
   "theorems": [
    "C61_associative",
    "C61_overlaps"
   ],
   "note": "the algebra must not override reduce_power"
  },
  {
   "property": "C62",
   "status": "proved",
   "theorems": [
    "C62_clifford_relations",
    "C62_gamma_associative",
    "C62_gamma_conj",
    "C62_gamma_canonical"
   ],
   "note": "gamma^5 statements are the Examples C62_gamma5_*"
  },
  {
   "property": "C63",
   "status": "proved",
   "theorems": [
    "C63_jacobi_iff_associative",
    "C63_virasoro_commutators",
    "C63_virasoro_jacobi",
    "C63_virasoro_not_associative",
    "C63_virasoro_enveloping",
    "C63_virasoro_recurrences"
   ],
   "note": "exact real arithmetic; int overflow of m*m*m not modelled"
  },
  {
   "property": "C64",
   "status": "proved",
   "theorems": [
    "C64_conj_product",
    "C64_conj_involutive",
    "C64_gamma",
    "C64_virasoro"
   ],
   "note": ""
  },
  {
   "property": "C65",
   "status": "proved",
   "theorems": [
    "C65_sector_action",
    "C65_multisector_action",
    "C65_not_conserving_refuted"
   ],
   "note": ""
  },
  {
   "property": "C66",
   "status": "proved",
   "theorems": [
    "C66_regular",
    "C66_associative",
    "C66_conservative",
    "C66_commute",
    "C66_tensor",
    "C66_conj"
   ],
   "note": ""
  },
  {
   "property": "C67",
   "status": "proved",
   "theorems": [
    "C67_injective",
    "C67_int_indices",
    "C67_monomials",
    "C67_strings_refuted",
    "C67_past_the_end"
   ],
   "note": "coefficients of other types than int are not modelled (operator<< of floating point numbers rounds)"
  },
  {
   "property": "C68",
   "status": "proved",
   "theorems": [
    "C68_action",
    "C68_product",
    "C68_adjoint",
    "C68_gamma",
    "C68_gamma_faithful",
    "C68_gamma_index_refuted",
    "C68_gamma_other_spaces_refuted"
   ],
   "note": "one algebra ID; algebras that do not override reduce_power"
  },
  {
   "property": "C69",
   "status": "proved",
   "theorems": [
    "C69_make_const",
    "C69_types",
    "C69_exact",
    "C69_must_throw",
    "C69_never_throws",
    "C69_number_refuted",
    "C69_half_refuted",
    "C69_after_throw_refuted"
   ],
   "note": "std::sqrt of perfect squares and std::pow are exact; integers do not overflow"
  },
  {
   "property": "C70",
   "status": "proved",
   "theorems": [
    "C70_sector",
    "C70_multisector",
    "C70_compressed",
    "C70_mapped"
   ],
   "note": ""
  },
  {
   "property": "C71",
   "status": "proved",
   "theorems": [
    "C71_types",
    "C71_disjoint_parts",
    "C71_state_vector",
    "C71_action",
    "C71_overlap_refuted"
   ],
   "note": "Eigen is modelled by the positions of elements"
  },
  {
   "property": "C72",
   "status": "proved",
   "theorems": [
    "C72_faithful",
    "C72_commutator",
    "C72_hermitian",
    "C72_truncation_needed",
    "C72_spin_one_refuted"
   ],
   "note": ""
  },
  {
   "property": "C73",
   "status": "proved",
   "theorems": [
    "C73_sector",
    "C73_multisector",
    "C73_nested_refuted"
   ],
   "note": ""
  },
  {
   "property": "C74",
   "status": "proved",
   "theorems": [
    "C74_least",
    "C74_spin",
    "C74_model",
    "C74_large_refuted"
   ],
   "note": "Uses the axioms of the standard library's Reals (and classic)."
  },
  {
   "property": "C75",
   "status": "proved",
   "theorems": [
    "C75_dense",
    "C75_sparse",
    "C75_dense_complex",
    "C75_sparse_complex",
    "C75_gamma",
    "C75_relative_refuted"
   ],
   "note": "Uses the axioms of the standard library's Reals (and classic)."
  },
  {
   "property": "C76",
   "status": "proved",
   "theorems": [
    "C76_concurrent",
    "C76_alone",
    "C76_no_race_after_finding_all",
    "C76_race_after_compress_refuted"
   ],
   "note": "Sequentially consistent accesses of vector elements; the C++ standard leaves the racy executions undefined (the last two theorems say when there are none). No axioms."
  },
  {
   "property": "C77",
   "status": "proved",
   "theorems": [
    "C77_own_objects",
    "C77_operators",
    "C77_shared_view_refuted",
    "C77_shared_space_refuted"
   ],
   "note": "One step is the initialisation, a test, a call of next() or one iteration of a loop; steps are interleaved in any order. No axioms."
  },
  {
   "property": "C78",
   "status": "proved",
   "theorems": [
    "C78_conversion",
    "C78_commutes",
    "C78_mixed_assignments",
    "C78_mixed_operators",
    "C78_conversions",
    "C78_any_conversion",
    "C78_narrowing_refuted"
   ],
   "note": "Sums and differences of expressions with a third result type are C05. Overload resolution itself is not modelled. No axioms."
  },
  {
   "property": "C79",
   "status": "proved",
   "theorems": [
    "C79_add_assign",
    "C79_sub_assign",
    "C79_all_or_nothing",
    "C79_scale",
    "C79_assign_from",
    "C79_programs",
    "C79_statement_effect"
   ],
   "note": "Assumed not to throw: `is_zero`, `find`, `erase`, swap of maps, comparison of monomials; compound assignments of the scalar type are assumed to leave their target unchanged when they throw. += and -= of an expression and itself are C58. No axioms."
  },
  {
   "property": "C80",
   "status": "proved",
   "theorems": [
    "C80_interrupted_merge",
    "C80_retry",
    "C80_interrupted_constructor",
    "C80_unusable_refuted"
   ],
   "note": "find_root, root_union, compress_sets, normalize_sets, set_zeros and clear do not throw. Allocation of the sparse vectors before the first state is the crash point 0. No axioms."
  },
  {
   "property": "C81",
   "status": "proved",
   "theorems": [
    "C81_mul_aliased",
    "C81_mul_aliased_iff",
    "C81_add_sub_aliased"
   ],
   "note": "Compound assignment of a scalar to itself (x *= x) is taken to be x*x, as for built-in types, std::complex and mpq_class. No axioms."
  },
  {
   "property": "C82",
   "status": "proved",
   "theorems": [
    "C82_values",
    "C82_finished",
    "C82_lifetime",
    "C82_self_range",
    "C82_self_append"
   ],
   "note": "Iterators stay usable within one buffer; generators have no owners other than monomials. No axioms."
  },
  {
   "property": "C83",
   "status": "proved",
   "theorems": [
    "C83_depth",
    "C83_depth_compressed",
    "C83_after_compress"
   ],
   "note": "The number of nested calls is the fuel with which the model of find_root succeeds; C83_sharp shows that log2(n)-1 is attained. No axioms."
  },
  {
   "property": "C84",
   "status": "proved",
   "theorems": [
    "C84_product",
    "C84_product_no_creation",
    "C84_adjoint",
    "C84_hermitian"
   ],
   "note": "Generalises C33_product and C33_adjoint, which exclude bosons; C34 shows that the condition cannot be dropped for products. C84_ex, C84_ex_states: hypotheses met by an example with two fermions, a boson of dimension 5 and a spin 1. No axioms."
  },
  {
   "property": "C85",
   "status": "proved",
   "theorems": [
    "C85_larger_truncation"
   ],
   "note": "Canonical monomials have creations to the left of annihilations, so between two states of the smaller space no intermediate state leaves it. C85_ex: boson with 5 and 9 states, a+ on the state with 3 bosons. No axioms."
  },
  {
   "property": "C86",
   "status": "proved",
   "theorems": [
    "C86_spaces_sound",
    "C86_bad_alloc_add",
    "C86_add_outcome",
    "C86_success_repairs",
    "C86_bad_alloc_assign",
    "C86_no_bad_alloc",
    "C86_copy_and_swap",
    "C86_overlap_refuted",
    "C86_dim_refuted",
    "C86_old_loop_refuted"
   ],
   "note": "The crash point is the number of allocations that succeed; hs_history closes the object states over all operations, failed or not. C86_ex, C86_assign_ex: concrete histories. No axioms."
  },
  {
   "property": "C87",
   "status": "proved",
   "theorems": [
    "C87_charges_commute",
    "C87_values"
   ],
   "note": "No bound on N. C87_values_ex: rings meeting the hypotheses exist for every N; C87_ex: the operators of the program are not trivial. No axioms."
  },
  {
   "property": "C88",
   "status": "proved",
   "theorems": [
    "C88_product",
    "C88_product_complex",
    "C88_sums",
    "C88_sums_complex",
    "C88_scale",
    "C88_builtin",
    "C88_builtin_complex",
    "C88_apriori",
    "C88_apriori_complex"
   ],
   "note": "Binary64 with unbounded exponents (no overflow, underflow, inf, nan). C88_builtin and C88_apriori hold for all expressions over the built-in algebras; C88_product for user algebras with constants_exact. Assumes the axioms of Coq's reals (and of Flocq's use of them)."
  },
  {
   "property": "C89",
   "status": "proved",
   "theorems": [
    "C89_partition",
    "C89_merge",
    "C89_blocks",
    "C89_view",
    "C89_view_exact",
    "C89_view_refuted"
   ],
   "note": "Composes C37, C32, C49-C53 and C55. C89_ex: the hypotheses are met. C89_view_refuted is finding F42."
  },
  {
   "property": "C90",
   "status": "proved",
   "theorems": [
    "C90_numbers",
    "C90_set",
    "C90_set_variadic",
    "C90_history",
    "C90_vanishing",
    "C90_refuted"
   ],
   "note": "C90_ex: the hypotheses are met. C90_refuted is finding F43. Integers are unbounded and doubles are the rational numbers they stand for."
  },
  {
   "property": "C91",
   "status": "proved",
   "theorems": [
    "C91_identity",
    "C91_values",
    "C91_integrals"
   ],
   "note": "C91_ex, C91_values_ex: non-trivial operators and a non-zero ring. double and std::complex<double> are taken to be exact, real expressions are represented by the complex ones they convert to (C78 treats the conversions)."
  },
  {
   "property": "C92",
   "status": "proved",
   "theorems": [
    "C92_sector",
    "C92_multisector",
    "C92_compressed",
    "C92_eigenvectors",
    "C92_hermitian"
   ],
   "note": "C92_ex, C65_ex, C56_ex and C33_adjoint_ex meet the hypotheses; C92_computed runs the three loops. Expressions with bosons are not covered by the Hermiticity theorem (as in C33). The diagonalization itself (Eigen) is not modelled."
  },
  {
   "property": "C93",
   "status": "proved",
   "theorems": [
    "C93_polynomial",
    "C93_value",
    "C93_substitution",
    "C93_operator",
    "C93_oscillator",
    "C93_ground_state"
   ],
   "note": "C93_program runs the example; C93_substitution_ex and C93_ground_state_ex meet the hypotheses; C93_cancel: zero polynomials keep their length. Base coefficients are exact numbers in place of double. Spins above 1/2 are not covered by C93_value (as in C10)."
  },
  {
   "property": "C94",
   "status": "proved",
   "theorems": [
    "C94_conserved",
    "C94_spectrum"
   ],
   "note": "C94_program runs the example (with exact fractions); C94_spectrum_ex: its Hilbert space meets the hypotheses. Numbers, square roots and trigonometric functions are real numbers, not doubles. C94_exchanged: finding F44."
  },
  {
   "property": "C95",
   "status": "proved",
   "theorems": [
    "C95_hamiltonian",
    "C95_checks",
    "C95_open",
    "C95_not_periodic"
   ],
   "note": "C95_ex: the indices and parameters of the program on a 2 x 2 lattice, and the sums of C95_hamiltonian exist for every N. The program has N = 10 and doubles; the scalar type and its laws are hypotheses. C95_open and C95_not_periodic: finding F45."
  },
  {
   "property": "C96",
   "status": "proved",
   "theorems": [
    "C96_hamiltonian",
    "C96_checks",
    "C96_periodic"
   ],
   "note": "C96_ex: the indices and parameters of the program on a 3 x 2 lattice, and the sums of C96_hamiltonian exist for all sizes. The program has a 10 x 10 lattice and doubles; the scalar type and its laws are hypotheses. Not modelled: the loop that prints the terms of degree 3."
  },
  {
   "property": "C97",
   "status": "proved",
   "theorems": [
    "C97_hamiltonian",
    "C97_checks"
   ],
   "note": "C97_ex: the program itself (its indices and parameters, 4 sites), and the sums of C97_hamiltonian exist for all lengths. The scalar type and its laws are hypotheses. Not modelled: the Hilbert space, the sector view and the diagonalization of l.79 on as one program (the sector views are C45, C46 and C65). The numbers of electrons are not formed by the program; they state why its sector is invariant."
  },
  {
   "property": "C98",
   "status": "proved",
   "theorems": [
    "C98_ring",
    "C98_hermitian"
   ],
   "note": "C98_ex: the program itself (6 spins 1 with int indices). Spins 1/2 are C87. As values: for multiplicities above 2 the ordered monomials are not a basis, so equal operators need not be equal expressions (uniqueness of canonical forms is proved for spins 1/2 only). The total spin is not formed by the program. The loops that fill the matrix are C92."
  }
 ]
}