{
 "claims": [
  {
   "property": "C01",
   "status": "proved",
   "theorems": [
    "C01_lexsort_is_stable_sorting_permutation",
    "C01_sorted_is_sorted_rearrangement",
    "C01_is_lexsorted_decides_sortedness"
   ],
   "note": ""
  },
  {
   "property": "C02",
   "status": "proved",
   "theorems": [
    "C02_unique_sorted_merges_and_sums",
    "C02_unique_sorted_rejects_only_length_mismatch"
   ],
   "note": ""
  },
  {
   "property": "C03",
   "status": "proved",
   "theorems": [
    "C03_iter_common_sorted_yields_exactly_equal_rows",
    "C03_iter_common_sorted_rejects_iff_not_strict_or_width_mismatch",
    "C03_iter_common_noncommon_sorted_covers_both_arrays_once",
    "C03_row_where_finds_the_first_match",
    "C03_searchsorted_is_the_left_insertion_point"
   ],
   "note": ""
  },
  {
   "property": "C04",
   "status": "proved",
   "theorems": [
    "C04_pack_is_injective_on_valid_rows",
    "C04_pack_is_bounded_by_the_number_of_blocks",
    "C04_fstyle_pack_preserves_the_lexsort_order",
    "C04_cstyle_pack_preserves_the_reversed_lexsort_order",
    "C04_make_grid_enumerates_every_multi_index_once",
    "C04_grid_row_m_has_flat_index_m_and_is_grid_entry"
   ],
   "note": ""
  },
  {
   "property": "C05",
   "status": "proved",
   "theorems": [
    "C05_inverse_permutation_is_two_sided_inverse",
    "C05_reordering_by_the_inverse_restores_the_list",
    "C05_rank_data_gives_stable_ranks",
    "C05_permutation_as_swaps_realises_the_permutation",
    "C05_permutation_as_swaps_rejects_exactly_non_permutations",
    "C05_is_permutation_decides",
    "C05_combine_permutations_acts_axiswise"
   ],
   "note": ""
  },
  {
   "property": "C06",
   "status": "proved",
   "theorems": [
    "C06_U1_group",
    "C06_FermionNumber_group",
    "C06_ZN_group",
    "C06_ZN_is_addition_mod_N",
    "C06_FermionParity_group",
    "C06_NoSymmetry_group",
    "C06_group_is_fusion_ring",
    "C06_batched_fusion_elementwise",
    "C06_batched_multiple_fusion_agrees",
    "C06_batched_dual_elementwise",
    "C06_multiple_fusion_bracketing",
    "C06_ZN_all_sectors",
    "C06_ZN_large_N_refuted"
   ],
   "note": ""
  },
  {
   "property": "C07",
   "status": "proved",
   "theorems": [
    "C07_U1_adds_charges_in_range",
    "C07_U1_multiple_fusion_adds_mod_2_16",
    "C07_U1_adds_charges_refuted"
   ],
   "note": ""
  },
  {
   "property": "C08",
   "status": "proved",
   "theorems": [
    "C08_ZN_anyon_category",
    "C08_ZN_anyon_category2",
    "C08_quantum_double",
    "C08_complex_flag_negative_n_refuted",
    "C08_complex_flag_nonnegative_n"
   ],
   "note": ""
  },
  {
   "property": "C09",
   "status": "proved",
   "theorems": [
    "C09_Fibonacci_category",
    "C09_Fibonacci_handedness"
   ],
   "note": ""
  },
  {
   "property": "C10",
   "status": "partial",
   "theorems": [
    "C10_Ising_category",
    "C10_Ising_C_symbol_partial",
    "C10_Ising_C_symbol_psi_psi_refuted"
   ],
   "note": "Ising C symbol deviates from R F R* (refuted theorem); everything else proved for all odd nu. Product Symmetry uses the default C symbol and is unaffected."
  },
  {
   "property": "C11",
   "status": "proved",
   "theorems": [
    "C11_SU2_outcomes_clebsch_gordan",
    "C11_SU2_can_fuse_to_agrees",
    "C11_SU2_fusion_ring_and_dimensions",
    "C11_SU2_machine_outcomes",
    "C11_SU2_machine_overflow_refuted",
    "C11_SU2_R_and_frobenius_schur"
   ],
   "note": ""
  },
  {
   "property": "C12",
   "status": "proved",
   "theorems": [
    "C12_SU2k_outcomes_truncated",
    "C12_SU2k_fusion_ring",
    "C12_SU2k_all_sectors",
    "C12_SU2k_quantum_dimensions"
   ],
   "note": ""
  },
  {
   "property": "C13",
   "status": "partial",
   "theorems": [
    "C13_valid_iff_normalised_weight",
    "C13_dual",
    "C13_dual_of_trivial",
    "C13_weyl_dimension_of_dual",
    "C13_dimension_exact_for_N_2_and_3_partial",
    "C13_float_dimension_refuted",
    "C13_irrep_index_injective",
    "C13_table_path_injective",
    "C13_irrep_key_ambiguous_refuted"
   ],
   "note": "Validity, duals, Weyl-dimension duality, index and table paths proved for all N; sector_dim proved exact for N=2,3 and REFUTED for every constructible N>=4 (float truncation); outcome key ambiguity refuted."
  },
  {
   "property": "C14",
   "status": "proved",
   "theorems": [
    "C14_sector_is_concatenation",
    "C14_parts_concat",
    "C14_fusion_factorwise",
    "C14_dual_factorwise",
    "C14_ring_laws",
    "C14_dimensions",
    "C14_category_laws",
    "C14_F_symbol_entry",
    "C14_all_sectors",
    "C14_broadcast"
   ],
   "note": ""
  },
  {
   "property": "C15",
   "status": "proved",
   "theorems": [
    "C15_equivalent_iff_matching",
    "C15_equivalence_relation",
    "C15_order_independent",
    "C15_strict_and_equals",
    "C15_equals_equivalence_relation",
    "C15_same_category_not_equivalent"
   ],
   "note": ""
  },
  {
   "property": "C16",
   "status": "proved",
   "theorems": [
    "C16_SU3_3_category",
    "C16_SU3_3_dual_sectors_agree",
    "C16_SU3_3_R_values"
   ],
   "note": ""
  },
  {
   "property": "C17",
   "status": "proved",
   "theorems": [
    "C17_enumeration_complete",
    "C17_enumeration_no_duplicates",
    "C17_len",
    "C17_index",
    "C17_test_sanity",
    "C17_abelian_single_tree"
   ],
   "note": "Enumeration complete, duplicate free, len, index, test_sanity; for every fusion ring."
  },
  {
   "property": "C18",
   "status": "partial",
   "theorems": [
    "C18_split_then_insert",
    "C18_split_outside_range",
    "C18_insert_then_split",
    "C18_bottom_vertex_then_extend",
    "C18_extend_then_bottom_vertex",
    "C18_insert_at_empty_partial",
    "C18_insert_at_empty_last_leg_refuted"
   ],
   "note": "split/insert and extended/split_bottom_vertex proved in full. insert_at with an empty tree is valid except at the last of >= 3 legs, where the code keeps one inner sector too many (refuted). insert_at with F moves not modelled."
  },
  {
   "property": "C19",
   "status": "proved",
   "theorems": [
    "C19_tree_order",
    "C19_ordered_set"
   ],
   "note": "operator< is a strict total order, operator== is equality."
  },
  {
   "property": "C20",
   "status": "proved",
   "theorems": [
    "C20_braid_inverse",
    "C20_braid_result",
    "C20_C_unitary",
    "C20_instances",
    "C20_Ising_inverse"
   ],
   "note": "For every fusion ring with unitary R and C symbols over a ring with positive conjugation (the complex numbers in the instances); cutoff drops only exact zeros; exact arithmetic."
  },
  {
   "property": "C21",
   "status": "proved",
   "theorems": [
    "C21_pre_compose_is_matrix_product",
    "C21_pre_compose_well_formed",
    "C21_pre_compose_associative",
    "C21_identity_neutral",
    "C21_prune_removes_only_small_entries"
   ],
   "note": ""
  },
  {
   "property": "C22",
   "status": "proved",
   "theorems": [
    "C22_instructions_realise_request",
    "C22_distinct_levels_suffice",
    "C22_error_iff_undecided_crossing",
    "C22_crossings_decided_by_levels",
    "C22_phase_from_levels",
    "C22_phase_path_independent",
    "C22_permutations_compose",
    "C22_symmetric_phase",
    "C22_pipes"
   ],
   "note": "The engine is modelled call by call (swap, move_leg, bend, the five stages, the final check); specification: executing the instructions on the legs. Instructions realise the request; error iff an undecided crossing; crossings decided by levels; phases for pointed symmetries (bicharacters); composition; pipes. The application of the instructions to non-abelian fusion trees (braid with C symbols, bend with B symbols) is not part of this claim."
  },
  {
   "property": "C23",
   "status": "proved",
   "theorems": [
    "C23_symmetries_qualify",
    "C23_sectors_of_basis",
    "C23_from_basis_inverse",
    "C23_from_basis_rejects"
   ],
   "note": ""
  },
  {
   "property": "C24",
   "status": "proved",
   "theorems": [
    "C24_public_basis_preserved",
    "C24_sorted_merged",
    "C24_result_sane"
   ],
   "note": ""
  },
  {
   "property": "C25",
   "status": "proved",
   "theorems": [
    "C25_parse_index",
    "C25_out_of_range"
   ],
   "note": ""
  },
  {
   "property": "C26",
   "status": "partial",
   "theorems": [
    "C26_take_slice_sectors",
    "C26_internal_projection_is_mask",
    "C26_take_slice_states_partial",
    "C26_accepts_every_mask",
    "C26_take_slice_nonabelian_refuted"
   ],
   "note": "Sectors and internal projection proved for every symmetry; equality of the labelled basis states proved when all sectors are one dimensional; refuted for non-abelian sectors (take_slice assumes contiguous multiplets, contrary to the basis convention)."
  },
  {
   "property": "C27",
   "status": "proved",
   "theorems": [
    "C27_direct_sum",
    "C27_multiplicities_add"
   ],
   "note": ""
  },
  {
   "property": "C28",
   "status": "proved",
   "theorems": [
    "C28_opposite_duality",
    "C28_with_is_dual",
    "C28_dual_involution"
   ],
   "note": ""
  },
  {
   "property": "C29",
   "status": "proved",
   "theorems": [
    "C29_elementary_spaces_qualify",
    "C29_isomorphic",
    "C29_subspace",
    "C29_sector_multiplicity",
    "C29_largest_common_subspace",
    "C29_is_trivial_empty_refuted"
   ],
   "note": "is_isomorphic_to / is_subspace_of / largest common subspace / sector_multiplicity for all spaces; is_trivial reads out of bounds for the zero-dimensional space (refuted)."
  },
  {
   "property": "C30",
   "status": "proved",
   "theorems": [
    "C30_symmetries_qualify",
    "C30_public_basis",
    "C30_block_ind_map",
    "C30_block_positions",
    "C30_dual_pipe",
    "C30_rejects"
   ],
   "note": "AbelianLegPipe constructor, block_ind_map, internal/public basis and dual for every abelian symmetry with a basis and any number of legs; the legs are elementary spaces satisfying the ElementarySpace invariants. from_independent_symmetries of pipes (which drops combine_cstyle) is not covered."
  },
  {
   "property": "C31",
   "status": "proved",
   "theorems": [
    "C31_symmetries_qualify",
    "C31_constructor",
    "C31_block_size_counts",
    "C31_block_size_idx",
    "C31_iter_tree_blocks",
    "C31_iter_tree_blocks_order",
    "C31_iter_forest_blocks",
    "C31_flat_legs_nesting",
    "C31_from_partial_products",
    "C31_permuted",
    "C31_dual_space"
   ],
   "note": "Constructor, block_size, iter_tree_blocks, iter_forest_blocks, tree_block_slice, forest_block_slice, flat_legs_nesting, derived products. Factors that are AbelianLegPipes are treated as elementary spaces."
  },
  {
   "property": "C32",
   "status": "partial",
   "theorems": [
    "C32_drop_factors_partial",
    "C32_drop_all",
    "C32_from_independent_symmetries",
    "C32_drop_nonabelian_factor_refuted",
    "C32_duplicate_index_refuted"
   ],
   "note": "Dropping abelian factors, dropping all factors and from_independent_symmetries proved; dropping a non-abelian factor loses dimension and repeated indices drop everything (refuted)."
  },
  {
   "property": "C33",
   "status": "partial",
   "theorems": [
    "C33_insert_multiply",
    "C33_left_multiply",
    "C33_right_multiply_partial",
    "C33_right_multiply_refuted",
    "C33_nested_pipe_refuted"
   ],
   "note": "insert_multiply and left_multiply proved; right_multiply as documented is false of the code (C33_right_multiply_refuted: it inserts before the last factor), and a nested pipe cannot be multiplied at all (C33_nested_pipe_refuted)."
  },
  {
   "property": "C34",
   "status": "proved",
   "theorems": [
    "C34_dual_involution",
    "C34_dual_pipe",
    "C34_equality",
    "C34_pipe_differs_from_dual",
    "C34_flat_legs",
    "C34_dim",
    "C34_flat_permutation",
    "C34_flat_permutation_meaning",
    "C34_index_bijection",
    "C34_basis_perm",
    "C34_flat_permutations"
   ],
   "note": "Nested LegPipes of any depth: dual is an involution reversing the flat legs, dimension, flattening permutation and its meaning, basis permutation."
  },
  {
   "property": "C35",
   "status": "proved",
   "theorems": [
    "C35_dense_shape",
    "C35_zero",
    "C35_linear_combination",
    "C35_scalar_multiple"
   ],
   "note": "linear_combination and scalar multiplication of block-sparse data, over any commutative semiring; the result is again well-formed (sorted rows, shapes, charge rule)."
  },
  {
   "property": "C36",
   "status": "proved",
   "theorems": [
    "C36_compose",
    "C36_compose_of_scalars_refuted"
   ],
   "note": "All branches of compose (worker, no contraction, scalar result). Composing two tensors without any leg raises in the code (C36_compose_of_scalars_refuted)."
  },
  {
   "property": "C37",
   "status": "proved",
   "theorems": [
    "C37_permute_legs",
    "C37_dagger",
    "C37_outer",
    "C37_inner_dagger",
    "C37_inner_no_dagger",
    "C37_inner_of_scalars_refuted",
    "C37_trace_full",
    "C37_partial_trace"
   ],
   "note": "permute_legs, dagger, outer, inner, trace_full, partial_trace against the dense array. inner of tensors without legs raises (C37_inner_of_scalars_refuted)."
  },
  {
   "property": "C38",
   "status": "proved",
   "theorems": [
    "C38_positions_bijective",
    "C38_combine_legs",
    "C38_split_legs",
    "C38_round_trip"
   ],
   "note": "combine_legs and split_legs of the abelian backend for any grouping of codomain/domain legs into AbelianLegPipes (C- and F-style, dual or not); entries compared through the dense array. Splitting with no pipe at all (the code raises in np.indices) is not modelled."
  },
  {
   "property": "C39",
   "status": "proved",
   "theorems": [
    "C39_get_element",
    "C39_position_exists",
    "C39_out_of_range"
   ],
   "note": "get_element at public indices (negative ones included) equals the dense entry at the internal positions; out of range raises."
  },
  {
   "property": "C40",
   "status": "proved",
   "theorems": [
    "C40_abelian_to_fusion_tree",
    "C40_fusion_tree_to_abelian",
    "C40_round_trip_abelian",
    "C40_round_trip_fusion_tree"
   ],
   "note": "Legs are elementary spaces (to_backend splits pipes before and combines them after, C38/C52). Not covered: dtypes, conversion between block backends (as_block), tensors without any leg (see findings)."
  },
  {
   "property": "C41",
   "status": "proved",
   "theorems": [
    "C41_selection",
    "C41_constraints_in_order",
    "C41_chi_bounds",
    "C41_svd_min",
    "C41_trunc_cut",
    "C41_svd_min_with_qdims_refuted"
   ],
   "note": "Selection for every list of values and every parameter set, for every sorting permutation np.argsort may return; values are real numbers. chi_max >= 0; chi_max = 0 behaves like an unsatisfiable constraint (all values are kept). FINDING: with quantum dimensions (non-abelian symmetries) svd_min can be violated (C41_svd_min_with_qdims_refuted). The construction of the Mask from the boolean array is C54."
  },
  {
   "property": "C42",
   "status": "partial",
   "theorems": [
    "C42_split_of_combine_partial",
    "C42_nested_labels_refuted",
    "C42_empty_and_question_mark_refuted",
    "C42_split_of_other_labels"
   ],
   "note": "Round trip proved for every non-empty list of names without '.' and not starting with '?'; nested combined labels, the empty list and '?x' names are refuted (split is not bracket aware)."
  },
  {
   "property": "C43",
   "status": "partial",
   "theorems": [
    "C43_dual_twice_plain",
    "C43_dual_twice_named_partial",
    "C43_dual_of_combined",
    "C43_placeholders_refuted"
   ],
   "note": "Exact condition for plain labels; involution for all named labels of any nesting depth and one level with unlabelled legs; renumbered / nested placeholders refuted."
  },
  {
   "property": "C44",
   "status": "proved",
   "theorems": [
    "C44_history_keeps_labels_consistent",
    "C44_constructor_rejects_duplicates",
    "C44_set_label_effect",
    "C44_relabel_effect",
    "C44_matching_labels",
    "C44_release_build_refuted",
    "C44_unset_label_refuted"
   ],
   "note": "Proved with C++ assertions enabled (the shipped Debug build); in a Release build duplicates are silently accepted (refuted theorem)."
  },
  {
   "property": "C45",
   "status": "proved",
   "theorems": [
    "C45_monomial_algebra",
    "C45_simplification_keeps_maximal_terms",
    "C45_polynomial_algebra",
    "C45_evaluation_up_to_negligible_terms",
    "C45_zero_exponent_refuted"
   ],
   "note": ""
  },
  {
   "property": "C46",
   "status": "proved",
   "theorems": [
    "C46_common_is_least_upper_bound",
    "C46_common_order_independent",
    "C46_real_complex_parts",
    "C46_int64_with_float32_refuted"
   ],
   "note": ""
  },
  {
   "property": "C47",
   "status": "proved",
   "theorems": [
    "C47_options_stay_within_bounds",
    "C47_fusion_tree_eps_is_a_number_refuted",
    "C47_set_option",
    "C47_update",
    "C47_precedence",
    "C47_temporary_options",
    "C47_temporary_options_failing_enter_refuted",
    "C47_invalid_file_ignored_refuted"
   ],
   "note": "Every history of set_option/update/temporary_options/config files keeps the declared bounds (the exact set of values accepted is characterised); precedence defaults < file < environment. Findings proved as _refuted: NaN is accepted for fusion_tree_eps; a failing temporary_options.__enter__ leaves partial changes behind; an invalid config file is partially applied although the warning says it is ignored."
  },
  {
   "property": "C48",
   "status": "proved",
   "theorems": [
    "C48_one_backend_per_request",
    "C48_returned_backend",
    "C48_symmetry_calls_succeed"
   ],
   "note": "History model of the module-level cache; configuration may change between calls; availability of block backends is a parameter."
  },
  {
   "property": "C49",
   "status": "partial",
   "theorems": [
    "C49_round_trip_partial",
    "C49_round_trip_at_name_partial",
    "C49_scalar_at_root_rejected",
    "C49_tuple_on_cycle_refuted",
    "C49_empty_key_refuted",
    "C49_empty_key_root_refuted",
    "C49_dict_order_refuted",
    "C49_np_bool_refuted",
    "C49_ignored_in_list_refuted",
    "C49_reduce_listitems_refuted",
    "C49_reduce_state_refuted"
   ],
   "note": "Object heap and HDF5 file as graphs; saver and loader modelled function by function; the round trip is proved for every storable object graph (sharing, cycles), every listing order of h5py, and every prior content of the file; loading also terminates within the stated recursion depth. Missing (refuted by theorems): tuples on cycles, empty-string keys, dictionary order, np.bool_, Hdf5Ignored in lists, fully unmasked arrays equal to the fill value, list/dict items of __reduce__; outside the model: dtypes, custom save_hdf5 (spaces, tensors), exclude, format_selection."
  },
  {
   "property": "C50",
   "status": "proved",
   "theorems": [
    "C50_linear",
    "C50_to_tensor",
    "C50_sum_and_shift",
    "C50_adjoint",
    "C50_projected",
    "C50_projected_needs_orthonormal_refuted",
    "C50_gram_schmidt",
    "C50_gram_schmidt_idempotent",
    "C50_unwrapped",
    "C50_direct_sum"
   ],
   "note": "Exact arithmetic over any complex inner product space; two-leg tensors enter through five operations with matrix laws (proved for matrices of every size). Refuted: the documented claim that ortho_vecs need not be orthonormal (no Gram-Schmidt is performed, so a single unnormalised vector is not an eigenvector and with non-orthogonal vectors adjoint() is wrong); legs, labels and dtypes are not modelled."
  },
  {
   "property": "C51",
   "status": "proved",
   "theorems": [
    "C51_FermionParity_braiding",
    "C51_FermionNumber_braiding"
   ],
   "note": ""
  },
  {
   "property": "C52",
   "status": "partial",
   "theorems": [
    "C52_permute_legs",
    "C52_permute_legs_one_side",
    "C52_permute_back",
    "C52_move_leg",
    "C52_combine_legs",
    "C52_combine_legs_any_order_partial",
    "C52_given_pipe_checked",
    "C52_combine_is_permutation",
    "C52_combine_rejects_duplicates",
    "C52_split_legs",
    "C52_split_rejects",
    "C52_round_trip",
    "C52_combine_to_matrix",
    "C52_dualities_of_unordered_groups_refuted",
    "C52_pipes_of_unordered_groups_refuted"
   ],
   "note": "Legs, labels, bipartition and the arguments handed to the backend. combine_legs is proved for every list of groups, with the documented assignment of pipe_dualities and pipes when the groups are listed in leg order; that assignment is refuted for groups in another order (C52_dualities_of_unordered_groups_refuted, C52_pipes_of_unordered_groups_refuted). split after combine restores legs and labels for plain labels (no dot, no leading question mark). combine_to_matrix with an empty side reads element 0 of an empty vector: modelled as failure. The effect on the numerical data is C22 (permutation) and C38 (combine/split)."
  },
  {
   "property": "C53",
   "status": "partial",
   "theorems": [
    "C53_norm_after_truncation",
    "C53_normalize_to_partial",
    "C53_normalize_to_refuted"
   ],
   "note": "FINDING: false of the code, because new_norm is the squared norm of the kept values (documented as the norm): C53_normalize_to_refuted. C53_norm_after_truncation gives the norm actually obtained, C53_normalize_to_partial the case without truncation."
  },
  {
   "property": "C54",
   "status": "proved",
   "theorems": [
    "C54_from_block",
    "C54_small_leg_is_slice",
    "C54_canonical",
    "C54_to_block",
    "C54_binary",
    "C54_unary",
    "C54_from_diagonal",
    "C54_to_diagonal",
    "C54_full",
    "C54_get_element",
    "C54_dagger",
    "C54_transpose",
    "C54_contract_large",
    "C54_contract_small",
    "C54_enlarge_then_apply",
    "C54_apply_then_enlarge",
    "C54_apply_diagonal"
   ],
   "note": "All statements for the data level functions of AbelianBackend. The front end (labels, the Mask class, dtype checks) is not modelled; the C++ mask front end passes the vector already permuted to the internal basis, as the theorems take it."
  },
  {
   "property": "C55",
   "status": "partial",
   "theorems": [
    "C55_ground_state",
    "C55_cache_and_reortho_irrelevant",
    "C55_evolution",
    "C55_evolution_exact",
    "C55_evolution_repeated",
    "C55_shifted_projected_operator_refuted"
   ],
   "note": "Exact arithmetic over any complex inner product space, numpy.linalg.eigh assumed right on the matrices of the run (shown to be satisfiable on an example). The statement is proved except its last sentence, which is refuted: E_shift on a projected operator shifts the caller's operator in place, so the second identical call returns another energy. With E_shift and a projected operator the theorem needs psi0 orthogonal to ortho_vecs. Options are non-negative numbers; logging and dtypes are not modelled."
  },
  {
   "property": "C56",
   "status": "partial",
   "theorems": [
    "C56_gmres",
    "C56_fails_only_if_exhausted",
    "C56_early_breakdown_gives_nan",
    "C56_identity_default_options_refuted",
    "C56_complex_operator_refuted",
    "C56_complex_operator_nan_refuted"
   ],
   "note": "Exact arithmetic. Proved for hermitian operators and for real problems (real matrix elements): residual, minimality of every cycle, error history, termination, and NaN only if a Krylov space is exhausted early. Refuted: (a) with complex matrix elements the Givens rotations are not unitary: the result can be worse than the initial guess, or NaN; (b) exact breakdown within N_min steps always gives NaN, e.g. the identity with the default options. Missing: floating point; the state after a second call of run() on the same object."
  },
  {
   "property": "C57",
   "status": "partial",
   "theorems": [
    "C57_arnoldi",
    "C57_evolution",
    "C57_evolution_exact",
    "C57_evolution_repeated",
    "C57_more_values_than_steps_refuted",
    "C57_run_twice_refuted",
    "C57_evolution_of_jordan_block_refuted"
   ],
   "note": "Exact arithmetic; numpy's eig and solve are parameters, assumed right on the matrices of the run; the unstable sort is a parameter. Proved: the first min(N, num_ev) pairs are the requested Ritz pairs, stopping rule, shift; the evolution is exp(delta H) psi in the Krylov space, for first and repeated runs. Refuted: entries of the returned values beyond N are not Ritz values (zeros); a second Arnoldi.run() on the same object uses the stale cache and gives wrong values; the evolution fails for defective operators (Jordan block). Missing: floating point; num_ev > N_max."
  },
  {
   "property": "C58",
   "status": "partial",
   "theorems": [
    "C58_compose",
    "C58_dagger",
    "C58_mul",
    "C58_linear_combination",
    "C58_eye",
    "C58_from_sector_block_func",
    "C58_inner",
    "C58_inner_no_dagger",
    "C58_trace",
    "C58_inner_is_trace",
    "C58_norm",
    "C58_discard",
    "C58_diagonal_to_full",
    "C58_diagonal_from_full",
    "C58_diagonal_elementwise_unary",
    "C58_diagonal_elementwise_binary",
    "C58_diagonal_all_any",
    "C58_diagonal_trace",
    "C58_act_block_diagonal_square_matrix",
    "C58_scale_axis_single",
    "C58_inner_refuted",
    "C58_scale_axis_pipes_refuted",
    "C58_scale_axis_pipes_error_refuted",
    "C58_scale_axis_position",
    "C58_scale_axis"
   ],
   "note": "Semiring entries instead of floats; is_zero, the block norm and matrix functions are parameters with contracts. scale_axis is proved on the only leg (C58_scale_axis_single) and on one of several legs (C58_scale_axis). Refuted: inner of a real with a complex tensor drops the imaginary part; scale_axis on a leg behind a pipe uses a wrong flat position or raises (right without a pipe before the leg: C58_scale_axis_position). Missing: dtypes."
  },
  {
   "property": "C59",
   "status": "proved",
   "theorems": [
    "C59_qr",
    "C59_lq",
    "C59_svd",
    "C59_eigh"
   ],
   "note": "The block decompositions are parameters; their contract is assumed for the blocks of the tensor only. eigh: a symmetry that can be dropped must have positive dimensions. Not covered: truncation (C41), pivoting and sorting options of the block decompositions, dtypes."
  },
  {
   "property": "C60",
   "status": "proved",
   "theorems": [
    "C60_apply_instructions",
    "C60_apply_instructions_factorized",
    "C60_permute_legs",
    "C60_mappings_agree",
    "C60_pointed_phases",
    "C60_bosonic_permutation",
    "C60_real_dtype_refuted"
   ],
   "note": "For every symmetry and any topological data: entries of the result are the linear image of the old ones under the composed single-tree moves; the two kinds of mappings agree; phases for pointed symmetries and plain permutation for bosonic ones. Numbers exact, prune tolerance and discard test drop zeros only. C60_real_dtype_refuted documents why verify_dtype is needed (latent: the public constructor forbids the case)."
  },
  {
   "property": "C61",
   "status": "proved",
   "theorems": [
    "C61_bend_back",
    "C61_twist",
    "C61_move_back",
    "C61_composition",
    "C61_undo",
    "C61_qdim",
    "C61_bend_data",
    "C61_topological_twist",
    "C61_b_symbol",
    "C61_instances",
    "C61_undo_category"
   ],
   "note": "Unitary braided categories as in CatSpec.v with exact symbols; thresholds of the code discard exact zeros only. The twists have unit modulus for finitely many sectors (all instances); the bends for any number of sectors. Ising: bends and twists (the code's own C symbol is wrong, C10). b_symbol overrides of abelian groups return 1, which is the value of the default."
  },
  {
   "property": "C62",
   "status": "proved",
   "theorems": [
    "C62_move_adjoint",
    "C62_apply_instructions",
    "C62_permute_legs",
    "C62_norm",
    "C62_category",
    "C62_pointed",
    "C62_instances"
   ],
   "note": "inner and norm of the fusion tree backend are invariant under permute_legs and every list of moves, for any unitary topological data; the hypothesis is proved for unitary braided categories with finitely many sectors, for the categories of cyten, their products and for pointed groups. Not covered: SU(2), SU(2)_k, SU(N), whose symbols are tables or floating point formulas (the theorem applies to any data that meets unitary_moves)"
  },
  {
   "property": "C63",
   "status": "proved",
   "theorems": [
    "C63_new_leg",
    "C63_qr",
    "C63_lq",
    "C63_svd",
    "C63_eigh"
   ],
   "note": "Dense identities for qr, lq, svd, eigh of the abelian backend, relative to the contract of the matrix routine on the stored blocks; tensors of several legs are combined first (C38). dtypes, devices and sort orders of the singular values not modelled."
  },
  {
   "property": "C64",
   "status": "proved",
   "theorems": [
    "C64_dim",
    "C64_unary",
    "C64_binary",
    "C64_from_block",
    "C64_from_func",
    "C64_full",
    "C64_from_full",
    "C64_full_round_trip",
    "C64_trace",
    "C64_reduce",
    "C64_reduce_all",
    "C64_all",
    "C64_any",
    "C64_get_element",
    "C64_scale_axis",
    "C64_act",
    "C64_binary_partial_zero_refuted",
    "C64_binary_partial_zero_partial"
   ],
   "note": "All operations proved for every pattern of stored sectors. partial_zero_is_zero = true is refuted (real bug: the loop index of the second tensor is not advanced when the first lacks the block; C64_binary_partial_zero_refuted) and proved when the sectors of the second are stored in the first; no operator of the front end passes true, only the public methods _elementwise_binary and diagonal_elementwise_binary do on request."
  },
  {
   "property": "C65",
   "status": "proved",
   "theorems": [
    "C65_spin_site",
    "C65_spin_algebra",
    "C65_spin_ladder",
    "C65_states_distinct",
    "C65_states_complete",
    "C65_boson_states",
    "C65_boson_states_each",
    "C65_boson_annihilator",
    "C65_boson_charges",
    "C65_boson_number",
    "C65_boson_commutators",
    "C65_species_index",
    "C65_fermion_states",
    "C65_fermion_anticommutators",
    "C65_fermion_number",
    "C65_spinful_fermion",
    "C65_clock",
    "C65_state_index"
   ],
   "note": "Numbers are real/complex numbers (floating point rounding is not modelled); the arrays handed to the tensor constructors are modelled, the conversion into symmetric tensors is C40/C35."
  },
  {
   "property": "C66",
   "status": "proved",
   "theorems": [
    "C66_spin_spin",
    "C66_heisenberg",
    "C66_spin_field",
    "C66_aklt",
    "C66_chiral",
    "C66_spin_hermitian",
    "C66_rotation_invariant",
    "C66_sites_are_spins",
    "C66_spin_charges",
    "C66_chiral_charges",
    "C66_density_formulas",
    "C66_density_diagonal",
    "C66_clock_clock",
    "C66_clock_field",
    "C66_clock_charges"
   ],
   "note": "Numpy arrays as functions on index lists, tensordot/transposes mirrored; conversion of the dense block to the symmetric tensor is not part of this claim (C40)."
  },
  {
   "property": "C67",
   "status": "partial",
   "theorems": [
    "C67_boson_hopping_partial",
    "C67_boson_pairing_partial",
    "C67_fermion_quadratic_partial",
    "C67_default_species",
    "C67_onsite_pairing_partial",
    "C67_fermion_onsite_default_zero",
    "C67_hopping_sites_refuted",
    "C67_hopping_dims_refuted",
    "C67_species_refuted"
   ],
   "note": "Proved for equal sites and species lists with len(second) >= len(first). Refuted: C67_hopping_sites_refuted (operators of site j taken from site i: wrong result for different sites of the same dimension), C67_hopping_dims_refuted (error for different dimensions), C67_species_refuted (shorter second list is an error). C67_fermion_onsite_default_zero: default onsite pairing of fermions vanishes identically."
  },
  {
   "property": "C68",
   "status": "partial",
   "theorems": [
    "C68_adjacent_transpositions",
    "C68_is_permutation",
    "C68_permute",
    "C68_compose",
    "C68_identity",
    "C68_dense",
    "C68_over_braid",
    "C68_not_a_permutation",
    "C68_wrong_counts",
    "C68_chirality",
    "C68_cached",
    "C68_length_refuted",
    "C68_levels_ignored_refuted",
    "C68_stretch",
    "C68_stretch_errors"
   ],
   "note": "permute_legs is a parameter that satisfies the braid relations (C60, C61, C20 for the fusion tree backend); the factorization of the tensor is not modelled (to_tensor/from_tensor on the operator). Partial only because of two documented claims that are false of the code: C68_length_refuted, C68_levels_ignored_refuted."
  },
  {
   "property": "C69",
   "status": "proved",
   "theorems": [
    "C69_accepts_exactly_planar",
    "C69_unambiguous",
    "C69_realises_request",
    "C69_no_phase",
    "C69_bipartition",
    "C69_bipartition_found",
    "C69_bipartition_unique",
    "C69_errors",
    "C69_empty_request_undefined",
    "C69_twice_around"
   ],
   "note": "Legs are given as indices (get_leg_idcs not modelled); DiagonalTensor, Mask and ChargedTensor inputs of permute_legs left out. The phases are those of pointed (abelian) braidings; the effect of the instructions on tensors of general symmetries is C60, C61."
  },
  {
   "property": "C70",
   "status": "partial",
   "theorems": [
    "C70_accepts_exactly_planar",
    "C70_planar_iff_joining_neighbours",
    "C70_rearranged",
    "C70_planar_neighbours",
    "C70_ascending_neighbours",
    "C70_descending_pair_refuted",
    "C70_short_pair_undefined"
   ],
   "note": "Partial only because the claim for pairs in descending order is false of the code (C70_descending_pair_refuted). Not modelled: the check that the legs of a pair are dual, the entries of the result of the fusion tree backend (for the abelian backend: C37)."
  },
  {
   "property": "C71",
   "status": "partial",
   "theorems": [
    "C71_contracts_as_requested_partial",
    "C71_outer",
    "C71_accepts_only_planar",
    "C71_full_contraction_refuted",
    "C71_crossed_refuted",
    "C71_rotated_refuted",
    "C71_across_refuted",
    "C71_corners_refuted",
    "C71_no_legs_refuted"
   ],
   "note": "Partial only because the claim is false of the code for the excluded contractions (five _refuted theorems with concrete tensors); the positive theorem covers all others. Not modelled: labels, the entries (compose: C36), the agreement of the spaces."
  },
  {
   "property": "C72",
   "status": "partial",
   "theorems": [
    "C72_symmetric_tensors",
    "C72_convention_partial",
    "C72_joins_the_given_legs",
    "C72_relabel_partial",
    "C72_errors",
    "C72_left_order_refuted",
    "C72_right_order_refuted",
    "C72_identity_right_refuted",
    "C72_identity_trace_refuted",
    "C72_relabel_number_refuted",
    "C72_relabel_identity_refuted"
   ],
   "note": "Partial only because the claim is false of the code in the excluded cases (six _refuted theorems); C72_joins_the_given_legs and C72_symmetric_tensors have no exclusions. Not modelled: ChargedTensor, the entries, the agreement of the spaces, equal labels."
  },
  {
   "property": "C73",
   "status": "partial",
   "theorems": [
    "C73_get_op_is_the_product",
    "C73_every_name_is_words",
    "C73_trailing_space",
    "C73_spaces_refuted",
    "C73_names_multiply",
    "C73_multiply_operators",
    "C73_no_names",
    "C73_names_are_words",
    "C73_add",
    "C73_add_errors",
    "C73_valid_opname",
    "C73_product_names_refuted"
   ],
   "note": "Partial only because the two documented extensions are false of the code (C73_spaces_refuted, C73_product_names_refuted). The product is an arbitrary associative operation (associativity of compose: C36); labels and the conversion of the operator to a tensor are not modelled."
  },
  {
   "property": "C74",
   "status": "partial",
   "theorems": [
    "C74_groups_are_gathered_partial",
    "C74_nothing_bent",
    "C74_not_contiguous",
    "C74_all_legs",
    "C74_vector_refuted",
    "C74_covector_refuted",
    "C74_both_ends_refuted",
    "C74_one_end_forgotten_refuted"
   ],
   "note": "Partial only because the claim is false of the code in the excluded cases (four _refuted theorems). That a planar rearrangement is carried out without braiding is C69; what combine_legs does with neighbouring legs is C38. Pipes and their dualities are not modelled here."
  }
 ]
}