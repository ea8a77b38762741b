{
 "claims": [
  {
   "property": "C01",
   "status": "proved",
   "theorems": [
    "C01_index_accepts",
    "C01_index_rejects",
    "C01_index_roundtrip"
   ],
   "note": "ASCII names; str.isdigit on non-ASCII digits is outside the model."
  },
  {
   "property": "C02",
   "status": "proved",
   "theorems": [
    "C02_index_order",
    "C02_index_order_meaning",
    "C02_priority_order"
   ],
   "note": ""
  },
  {
   "property": "C03",
   "status": "proved",
   "theorems": [
    "C03_hash_consistent_refuted",
    "C03_hash_consistent_canonical"
   ],
   "note": "Positive theorem for canonical names; the unrestricted claim is refuted (g1/g01)."
  },
  {
   "property": "C04",
   "status": "proved",
   "theorems": [
    "C04_to_beta",
    "C04_to_alpha",
    "C04_flip_inverse"
   ],
   "note": ""
  },
  {
   "property": "C05",
   "status": "proved",
   "theorems": [
    "C05_indices_canonical",
    "C05_indices_accepts",
    "C05_indices_distinct_names",
    "C05_indices_spin_orbital",
    "C05_no_repeated_index_refuted"
   ],
   "note": "Exact acceptance condition for all names and every string hash; unrestricted no-repeat claim refuted (g1/g01)."
  },
  {
   "property": "C06",
   "status": "proved",
   "theorems": [
    "C06_iteration_single",
    "C06_iteration_nested_behaviour",
    "C06_iteration_nested_refuted"
   ],
   "note": "Single loop proved; nested loops refuted, with their actual behaviour proved."
  },
  {
   "property": "C07",
   "status": "proved",
   "theorems": [
    "C07_sort_and_count"
   ],
   "note": ""
  },
  {
   "property": "C08",
   "status": "proved",
   "theorems": [
    "C08_canonicalize_sorted_with_sign",
    "C08_reorder_sign_unique",
    "C08_canonicalize_equivariant",
    "C08_canonicalize_idempotent",
    "C08_canonicalize_value",
    "C08_canonicalize_spin_adapted",
    "C08_canonicalize_pair_value"
   ],
   "note": ""
  },
  {
   "property": "C09",
   "status": "proved",
   "theorems": [
    "C09_count_permutations_defined",
    "C09_count_permutations_sign",
    "C09_count_permutations_zero",
    "C09_count_permutations_cocycle",
    "C09_count_permutations_symmetric"
   ],
   "note": ""
  },
  {
   "property": "C10",
   "status": "proved",
   "theorems": [
    "C10_indices_order",
    "C10_indices_size_first",
    "C10_indices_types",
    "C10_pair_order",
    "C10_tensor_order",
    "C10_tensor_order_meaning",
    "C10_sorting_unique"
   ],
   "note": ""
  },
  {
   "property": "C11",
   "status": "proved",
   "theorems": [
    "C11_spin_cases_all",
    "C11_spin_cases_k",
    "C11_spin_cases_k_raises"
   ],
   "note": ""
  },
  {
   "property": "C12",
   "status": "proved",
   "theorems": [
    "C12_pair_spin_cases",
    "C12_pair_spin_cases_raises"
   ],
   "note": ""
  },
  {
   "property": "C13",
   "status": "proved",
   "theorems": [
    "C13_find_space_label_inverts_relation",
    "C13_intersections_are_known",
    "C13_find_space_label_raises",
    "C13_find_space_label_general_refuted"
   ],
   "note": "Inversion proved for every iteration order; general documented claim refuted."
  },
  {
   "property": "C14",
   "status": "proved",
   "theorems": [
    "C14_counter_preorder",
    "C14_counter_fields",
    "C14_counter_eq_elementary",
    "C14_counter_order_refuted"
   ],
   "note": "Preorder laws proved; == consistency proved for elementary non-zero counts and refuted in general."
  },
  {
   "property": "C15",
   "status": "proved",
   "theorems": [
    "C15_downgrade_cumulant",
    "C15_downgrade_hole",
    "C15_downgrade_kronecker"
   ],
   "note": ""
  },
  {
   "property": "C16",
   "status": "proved",
   "theorems": [
    "C16_integer_partition_complete",
    "C16_integer_partition_one_refuted",
    "C16_integer_partition_zero"
   ],
   "note": ""
  },
  {
   "property": "C17",
   "status": "proved",
   "theorems": [
    "C17_integer_separation_complete",
    "C17_integer_separation_increasing"
   ],
   "note": ""
  },
  {
   "property": "C18",
   "status": "proved",
   "theorems": [
    "C18_check_max_cu",
    "C18_check_max_cu_idempotent"
   ],
   "note": ""
  },
  {
   "property": "C19",
   "status": "proved",
   "theorems": [
    "C19_pairwise_exact",
    "C19_pairwise_keys_distinct"
   ],
   "note": ""
  },
  {
   "property": "C20",
   "status": "proved",
   "theorems": [
    "C20_half_cumulant_complete"
   ],
   "note": ""
  },
  {
   "property": "C21",
   "status": "proved",
   "theorems": [
    "C21_cumulants_exact",
    "C21_repeated_index_rejected",
    "C21_one_operator",
    "C21_elementary_all"
   ],
   "note": "exact for operators without beta indices whose non-core, non-virtual indices do not repeat in the product; with a repeated index that could enter one cumulant a ValueError is raised (C21_repeated_index_rejected)"
  },
  {
   "property": "C22",
   "status": "proved",
   "theorems": [
    "C22_codes_bijective",
    "C22_out_of_range"
   ],
   "note": ""
  },
  {
   "property": "C23",
   "status": "proved",
   "theorems": [
    "C23_compatible_list",
    "C23_compatible_categorized"
   ],
   "note": ""
  },
  {
   "property": "C24",
   "status": "proved",
   "theorems": [
    "C24_general_backtracking"
   ],
   "note": "set.pop() is an arbitrary oracle; yielded values are the contents of the shared set at each yield."
  },
  {
   "property": "C25",
   "status": "proved",
   "theorems": [
    "C25_categorized_backtracking"
   ],
   "note": "Compatibility map as passed by the callers; C93 treats the default of the argument."
  },
  {
   "property": "C26",
   "status": "proved",
   "theorems": [
    "C26_macro_backtracking_sound",
    "C26_macro_backtracking_exact"
   ],
   "note": "soundness plus the exact result for any number of operators"
  },
  {
   "property": "C27",
   "status": "proved",
   "theorems": [
    "C27_macro_backtracking_complete",
    "C27_four_operators_refuted"
   ],
   "note": "complete for two and three operators; refuted for four"
  },
  {
   "property": "C28",
   "status": "proved",
   "theorems": [
    "C28_sign_order_independent"
   ],
   "note": "for finish_composite (the common tail of both drivers), every order of the contractions and every iteration order of the index sets"
  },
  {
   "property": "C29",
   "status": "proved",
   "theorems": [
    "C29_sign_is_parity",
    "C29_duplicates_rejected"
   ],
   "note": "parity as a chain of neighbour exchanges, and as invariance of every alternating function; repeated legs: ValueError or an empty result of the general driver"
  },
  {
   "property": "C30",
   "status": "proved",
   "theorems": [
    "C30_general_legs_once",
    "C30_connected_legs_once"
   ],
   "note": "for both drivers, with and without expansion of the holes"
  },
  {
   "property": "C31",
   "status": "proved",
   "theorems": [
    "C31_expansion_value",
    "C31_no_holes_left",
    "C31_driver_value"
   ],
   "note": "values in any commutative algebra over the rationals; also for the complete result of the general driver"
  },
  {
   "property": "C32",
   "status": "proved",
   "theorems": [
    "C32_general_is_wick_sum",
    "C32_entry_point"
   ],
   "note": "for every choice made by set.pop() and every set iteration order; operators without beta indices and without repeated legs"
  },
  {
   "property": "C33",
   "status": "proved",
   "theorems": [
    "C33_connected_is_connected_part",
    "C33_connected_sound",
    "C33_entry_point",
    "C33_four_operators_refuted"
   ],
   "note": "exact for up to three operators, sound for any number; with four operators connected contractions are missed (C33_four_operators_refuted)"
  },
  {
   "property": "C34",
   "status": "proved",
   "theorems": [
    "C34_dropped_terms_cancel"
   ],
   "note": "end to end: value of the general A*B - B*A equals value of the connected A*B - B*A; one operator with an even number of legs suffices"
  },
  {
   "property": "C35",
   "status": "proved",
   "theorems": [
    "C35_contract_terms_schedule",
    "C35_commutator_schedule",
    "C35_linear_commutator_schedule"
   ],
   "note": "contract_terms, single_commutator and linear_commutator: any number of processes, processors, batch boundaries and worker orders; same SymPy answers and set orders. Exact coefficients; tensor names consistent and without '^'; the common factor zero or at least 1e-15. The pools inside the contraction drivers are not reached from contract_terms (it calls them with one process)."
  },
  {
   "property": "C36",
   "status": "proved",
   "theorems": [
    "C36_combine_sums",
    "C36_combine_omits",
    "C36_combine_succeeds",
    "C36_combine_raises",
    "C36_combine_order",
    "C36_combine_value",
    "C36_combine_again"
   ],
   "note": "For tensor names without '^' (see C58). Coefficients are exact rationals. Order independence needs that a name stands for one kind of tensor; value preservation needs that no non-zero sum is below 1e-15. Terms over different index classes raise TypeError."
  },
  {
   "property": "C37",
   "status": "proved",
   "theorems": [
    "C37_arguments_unchanged_refuted",
    "C37_what_is_written",
    "C37_distinct_unchanged"
   ],
   "note": "False as stated (C37_arguments_unchanged_refuted): the last duplicate is updated in place and a second call returns something else. Proved: exactly what is written, and that nothing changes without duplicates."
  },
  {
   "property": "C38",
   "status": "proved",
   "theorems": [
    "C38_term_accepts",
    "C38_term_stores"
   ],
   "note": "Both directions, exception classes, and the stored fields."
  },
  {
   "property": "C39",
   "status": "proved",
   "theorems": [
    "C39_generated_fresh",
    "C39_simplify_fresh"
   ],
   "note": "Also for terms with diagonal indices."
  },
  {
   "property": "C40",
   "status": "proved",
   "theorems": [
    "C40_simplify_value",
    "C40_chained_deltas_refuted",
    "C40_core_cumulant_refuted",
    "C40_only_deltas_raises"
   ],
   "note": "For terms without diagonal indices whose densities share no index and whose many-body cumulants carry indices that include the active space (C84 covers terms with diagonal indices); any orbital system and any commutative ring over Q. C40_chained_deltas_refuted and C40_core_cumulant_refuted show the claim fails without these hypotheses; C40_only_deltas_raises records the ValueError when only deltas remain."
  },
  {
   "property": "C41",
   "status": "proved",
   "theorems": [
    "C41_canonicalize_value",
    "C41_canonicalize_simple_value"
   ],
   "note": "Value relative to the simplified term for any term; composed with C40 for the original term. Non-zero coefficients below 1e-15 excluded (such terms are voided)."
  },
  {
   "property": "C42",
   "status": "proved",
   "theorems": [
    "C42_sympy_value",
    "C42_canonicalize_value",
    "C42_diagonal_rejected",
    "C42_unbalanced_refuted",
    "C42_zero_answer_raises"
   ],
   "note": "SymPy is an arbitrary oracle whose answers lie in the declared double coset. For number-conserving operators, terms without diagonal indices and tensors whose class is determined by their name; composed with C40 for the original term. C42_unbalanced_refuted: with more creators than annihilators the declared symmetry acts on the wrong slots. C42_zero_answer_raises: the answer 0 raises TypeError."
  },
  {
   "property": "C43",
   "status": "proved",
   "theorems": [
    "C43_expansion_partitions",
    "C43_diagonal_refuted"
   ],
   "note": "Proved for every successful expansion of a constructed term whose operator has no repeated index; C43_diagonal_refuted shows the sum is wrong for a^{g0}_{g0}. The value is a sum over orbital assignments in an arbitrary commutative ring over Q."
  },
  {
   "property": "C44",
   "status": "proved",
   "theorems": [
    "C44_ddca_value",
    "C44_ddca_blocks"
   ],
   "note": "Blocks characterised independently of the model; hypothesis: no repeated operator index, construction succeeded."
  },
  {
   "property": "C45",
   "status": "proved",
   "theorems": [
    "C45_one_entry_per_sequence",
    "C45_count",
    "C45_every_tree",
    "C45_single",
    "C45_none"
   ],
   "note": "For all terms, including no tensor and one tensor. Sets of indices are lists without repetition; the generator is modelled by the list of what it yields."
  },
  {
   "property": "C46",
   "status": "proved",
   "theorems": [
    "C46_optimal",
    "C46_total_order",
    "C46_order_meaning"
   ],
   "note": "For all terms with at least two tensors, against every binary tree over the tensors, not only the enumerated ones. Costs are compared by MOSpaceCounter, whose order on the counts is characterised."
  },
  {
   "property": "C47",
   "status": "proved",
   "theorems": [
    "C47_hamiltonian",
    "C47_cluster",
    "C47_disjoint",
    "C47_disjoint_hamiltonians",
    "C47_disjoint_clusters"
   ],
   "note": "hamiltonian_operator always succeeds; cluster_operator succeeds exactly for equal spin labels (alpha for spin orbitals)."
  },
  {
   "property": "C48",
   "status": "proved",
   "theorems": [
    "C48_binomial",
    "C48_coefficients",
    "C48_collected",
    "C48_level_zero_refuted",
    "C48_products"
   ],
   "note": "Proved for levels n >= 1 in every associative algebra; level 0 is refuted (C48_level_zero_refuted). SymPy's Commutator.doit().expand() is modelled as collected noncommutative polynomials."
  },
  {
   "property": "C49",
   "status": "proved",
   "theorems": [
    "C49_factorial"
   ],
   "note": ""
  },
  {
   "property": "C50",
   "status": "proved",
   "theorems": [
    "C50_representatives",
    "C50_number",
    "C50_number_yielded",
    "C50_spin_count_refuted",
    "C50_cosets",
    "C50_spin_adapted",
    "C50_foreign_index"
   ],
   "note": "Proved for the antisymmetric index classes and any partition covering the indices. The number returned by n_multiset_permutation equals the number of formats yielded when all indices have one spin; with both spins present it is larger (C50_spin_count_refuted)."
  },
  {
   "property": "C51",
   "status": "proved",
   "theorems": [
    "C51_open_partition",
    "C51_diagonal_refuted"
   ],
   "note": "Diagonal operator indices lying on no tensor are not covered (C51_diagonal_refuted), so the theorem has the hypothesis of the statement."
  },
  {
   "property": "C52",
   "status": "proved",
   "theorems": [
    "C52_key",
    "C52_nothing_lost",
    "C52_mixed_classes"
   ],
   "note": "Buckets with terms of different index classes raise TypeError (C52_mixed_classes)."
  },
  {
   "property": "C53",
   "status": "proved",
   "theorems": [
    "C53_zero_and_call",
    "C53_undeclared",
    "C53_temp_refuted",
    "C53_factor_refuted"
   ],
   "note": "Zeroing of the targets and the calls are proved for all inputs (C53_zero_and_call). The claims about the scale factor and the declaration of temp are false for the code: C53_factor_refuted, C53_temp_refuted, and C53_undeclared gives the exact class of inputs without destroy_h."
  },
  {
   "property": "C54",
   "status": "proved",
   "theorems": [
    "C54_restores",
    "C54_body",
    "C54_entry_refuted",
    "C54_removed_refuted"
   ],
   "note": "Proved for the directory at construction, provided the body does not remove it; the literal reading with the directory at entry is refuted."
  },
  {
   "property": "C55",
   "status": "proved",
   "theorems": [
    "C55_simultaneous",
    "C55_ambit_template",
    "C55_sequential_refuted",
    "C55_no_value_contains_refuted",
    "C55_backslash_refuted"
   ],
   "note": "Keys without regular-expression metacharacters only; also instantiated for the template used by the Forte writer. Sequential substitution effects and backslashes are refuted cases."
  },
  {
   "property": "C56",
   "status": "proved",
   "theorems": [
    "C56_construction_refuted",
    "C56_never_constructed",
    "C56_counts",
    "C56_order",
    "C56_order_lengths",
    "C56_transpose"
   ],
   "note": "The constructor always raises AttributeError (refuted); counts, order and transposition are proved for the corrected attribute name."
  },
  {
   "property": "C57",
   "status": "proved",
   "theorems": [
    "C57_antisymmetric_hermitian",
    "C57_antisymmetric_plain",
    "C57_not_antisymmetric",
    "C57_operator",
    "C57_accepted"
   ],
   "note": "Generator lists as handed to PermutationGroup / bsgs_direct_product; SymPy get_symmetric_group_sgs and bsgs_direct_product transcribed, schreier_sims and get_minimal_bsgs trusted to keep the group."
  },
  {
   "property": "C58",
   "status": "proved",
   "theorems": [
    "C58_text_identifies",
    "C58_any_name_refuted"
   ],
   "note": "For tensor names without '^'; C58_any_name_refuted shows two different terms with the same text otherwise."
  },
  {
   "property": "C59",
   "status": "proved",
   "theorems": [
    "C59_singlet",
    "C59_rejects"
   ],
   "note": "Stated for spin-integrated indices with equal numbers of beta indices; the other cases raise (C59_rejects)."
  },
  {
   "property": "C60",
   "status": "proved",
   "theorems": [
    "C60_printed_indices_parse_back"
   ],
   "note": ""
  },
  {
   "property": "C61",
   "status": "proved",
   "theorems": [
    "C61_recursion_limit_refuted"
   ],
   "note": "Refutation: fuel counts nested generator activations; limit n always fails, n+1 suffices (C24)."
  },
  {
   "property": "C62",
   "status": "proved",
   "theorems": [
    "C62_product_value",
    "C62_connected_value",
    "C62_single_operator",
    "C62_hamiltonian_standard",
    "C62_cluster_standard"
   ],
   "note": "Coefficients are exact rationals; the product of the coefficients has to be 0 or at least 1e-15 in magnitude. SymPy's canonical form is an arbitrary admissible oracle. For more than three operators with for_commutator only soundness of the enumerated sets is proved (contract_value)."
  },
  {
   "property": "C63",
   "status": "proved",
   "theorems": [
    "C63_commutator_value",
    "C63_scalar_commutes",
    "C63_independent"
   ],
   "note": "Same assumptions as C62; hole densities are valued as Kronecker minus one-body cumulant."
  },
  {
   "property": "C64",
   "status": "proved",
   "theorems": [
    "C64_driver_value",
    "C64_conjugate_value",
    "C64_no_tensors_refuted",
    "C64_hole_density_refuted",
    "C64_parameters"
   ],
   "note": "Terms must be spin-orbital, without diagonal indices, with as many creators as annihilators, at least one tensor, coefficients with denominator up to 10^9 and no tensor array called like a result (C64_no_tensors_refuted and C64_hole_density_refuted show what happens otherwise). The semantics of ambit is ours (AmbitSpec.v)."
  },
  {
   "property": "C65",
   "status": "proved",
   "theorems": [
    "C65_hamiltonian",
    "C65_cluster",
    "C65_cluster_operators"
   ],
   "note": "C65_hamiltonian, C65_cluster, C65_cluster_operators: values over arbitrary orbital systems and tensor values; C65_example shows concrete operators."
  },
  {
   "property": "C66",
   "status": "proved",
   "theorems": [
    "C66_excitation_value",
    "C66_beta_refuted",
    "C66_active_refuted"
   ],
   "note": "C66_excitation_value for terms meeting the hypotheses of C42 and no operator index on a higher cumulant; C66_beta_refuted and C66_active_refuted show the exceptions."
  },
  {
   "property": "C67",
   "status": "proved",
   "theorems": [
    "C67_diagonal_value",
    "C67_fock",
    "C67_dyall",
    "C67_fink"
   ],
   "note": "C67_diagonal_value for one-body terms; C67_fock, C67_dyall, C67_fink; C67_hypotheses gives values meeting the hypotheses."
  },
  {
   "property": "C68",
   "status": "proved",
   "theorems": [
    "C68_bch_levels",
    "C68_single_reference",
    "C68_active_hamiltonian_refuted",
    "C68_recursive_levels"
   ],
   "note": "All executions of bch_cc_rsc and recursive_single_commutator that return. The bound on n and m only keeps coefficients above the 1e-15 cutoff of is_void. C68_active_hamiltonian_refuted: with single_reference=False the active parts of H are missing (phys_op_contraction.py:344-348 always calls expand_composite_indices(True))."
  },
  {
   "property": "C69",
   "status": "proved",
   "theorems": [
    "C69_gradient_value",
    "C69_open_rejected"
   ],
   "note": "Values of the shifted amplitudes are taken in the dual numbers over any commutative Q-algebra; the first component is the value of the term, the second the sum of the returned terms. Terms in which one tensor has the same index above and below are excluded."
  },
  {
   "property": "C70",
   "status": "proved",
   "theorems": [
    "C70_factor",
    "C70_singlet_value",
    "C70_rejects",
    "C70_mixed_spins_refuted"
   ],
   "note": "The division by the number of permutations is exact here. Operators with both spins among the creators (or annihilators) give a wrong factor: C70_mixed_spins_refuted."
  },
  {
   "property": "C71",
   "status": "proved",
   "theorems": [
    "C71_canonicalize_returns",
    "C71_answer_returns",
    "C71_simplify_returns",
    "C71_flow_needed",
    "C71_rest_needed",
    "C71_legs_needed"
   ],
   "note": "C71_canonicalize_returns: for ready content canonicalize returns a term unless SymPy raises or answers 0; C71_answer_returns, C71_simplify_returns. C71_flow_needed and C71_rest_needed show that the conditions on the flow of indices and on a factor that is not a delta cannot be dropped."
  },
  {
   "property": "C72",
   "status": "proved",
   "theorems": [
    "C72_spin_cases_value",
    "C72_spin_cases_terms",
    "C72_spin_cases_return",
    "C72_rejects",
    "C72_swallowed_errors"
   ],
   "note": "C72_spin_cases_value (sum of the yielded terms), C72_spin_cases_terms (type and coefficient), C72_spin_cases_return (no exception), C72_rejects (TypeError, ValueError), C72_swallowed_errors (a ValueError of SymPy drops terms silently: shown on a term of value 2)."
  },
  {
   "property": "C73",
   "status": "proved",
   "theorems": [
    "C73_contract_terms",
    "C73_contract_returns",
    "C73_single_commutator",
    "C73_linear_commutator",
    "C73_recursive",
    "C73_bch",
    "C73_bch_returns",
    "C73_hamiltonian_accepted",
    "C73_cluster_accepted",
    "C73_numbers_refuted"
   ],
   "note": "Exceptions are values in the model; raises_only (sympy_fails ..) says that every exception is one SymPy raised, or the TypeError for its answer 0. No bound on coefficients is needed. C73_numbers_refuted shows that tensors without indices are not accepted. Checks of argument types are not modelled."
  },
  {
   "property": "C74",
   "status": "proved",
   "theorems": [
    "C74_strings",
    "C74_alternates",
    "C74_product",
    "C74_full_product",
    "C74_single_operator",
    "C74_expectation",
    "C74_commutator",
    "C74_full_commutator"
   ],
   "note": "Operators live in any algebra over any commutative Q-algebra with creators and annihilators for at least the orbitals; normal products subtract all families of contractions. T is any linear map that keeps normal products inside the range of open indices and removes those outside; the untruncated and the fully contracted cases need no T. Tensors antisymmetric, cumulants above the given level zero, deltas and core/virtual densities as physical; amplitudes with active indices only are zero as the code assumes. Examples: 8 x 8 Jordan-Wigner matrices, occupations 1, 1/2, 0."
  },
  {
   "property": "C75",
   "status": "proved",
   "theorems": [
    "C75_nested_default",
    "C75_bch_levels",
    "C75_bch_series",
    "C75_single_reference",
    "C75_recursive",
    "C75_nested",
    "C75_nested_connected_refuted"
   ],
   "note": "C75_bch_levels/C75_bch_series/C75_single_reference for bch_cc_rsc, C75_recursive for recursive_single_commutator, C75_nested for nested_commutator_cc with for_commutator=False, C75_nested_default with for_commutator=True (the default) for one and two levels, for all inputs; C75_nested_connected_refuted shows that nested_commutator_cc with for_commutator=True does not return the nested commutator at level 3."
  },
  {
   "property": "C76",
   "status": "proved",
   "theorems": [
    "C76_linear_commutator",
    "C76_amplitudes"
   ],
   "note": "Operator identity for linear_commutator and linear_commutator_amp with the argument lists of the code; the example is the expectation value of [H1+H2, T1-T1^+]."
  },
  {
   "property": "C77",
   "status": "proved",
   "theorems": [
    "C77_permutation_format",
    "C77_orderings_exist",
    "C77_text_identifies",
    "C77_print_terms",
    "C77_rows_refuted",
    "C77_spin_adapted"
   ],
   "note": "The denominator of the printed coefficient is assumed to be at most 10^9, as limit_denominator rounds it otherwise; the text without permute_format identifies terms whose tensor names contain no ^. rows_refuted records the missing row separators of print_terms_latex."
  },
  {
   "property": "C78",
   "status": "proved",
   "theorems": [
    "C78_equal",
    "C78_reflexive_symmetric",
    "C78_order_hash",
    "C78_hash_refuted",
    "C78_transitive_refuted"
   ],
   "note": "isclose is modelled on exact rationals instead of doubles. The refuted theorems record that == and hash disagree and that == is not transitive."
  },
  {
   "property": "C79",
   "status": "proved",
   "theorems": [
    "C79_print_terms_ambit",
    "C79_undeclared_refuted"
   ],
   "note": "print_terms_ambit: the printed lines as a program add the terms to C0, C1, ...; temp must be declared by the reader (C79_undeclared_refuted). Meaning of statements as in C64."
  },
  {
   "property": "C80",
   "status": "proved",
   "theorems": [
    "C80_direct_t3"
   ],
   "note": "Text of the file and meaning of the inserted code; the fixed lines of the template (denominators, norms) have no meaning in the model. Names must not contain backslashes or the template's later words (see C55 for what happens otherwise)."
  },
  {
   "property": "C81",
   "status": "proved",
   "theorems": [
    "C81_elements",
    "C81_diagonal_hessian",
    "C81_tuple",
    "C81_two_amplitudes",
    "C81_misplaced_refuted"
   ],
   "note": ""
  },
  {
   "property": "C82",
   "status": "proved",
   "theorems": [
    "C82_same_batches",
    "C82_pool_is_wick_sum",
    "C82_pool_is_connected_part",
    "C82_uncontracted_first",
    "C82_one_chunk",
    "C82_negative_chunks",
    "C82_estimate",
    "C82_automatic_general",
    "C82_automatic_connected"
   ],
   "note": ""
  },
  {
   "property": "C83",
   "status": "proved",
   "theorems": [
    "C83_ways_of_writing",
    "C83_bad_entry",
    "C83_pair_written",
    "C83_pair_objects",
    "C83_pair_rejected",
    "C83_tensor_written",
    "C83_tensor_types",
    "C83_make_tensor",
    "C83_clone_tensor",
    "C83_from_indices",
    "C83_clone_pair",
    "C83_add",
    "C83_any_overlap",
    "C83_spins",
    "C83_spins_rejected"
   ],
   "note": ""
  },
  {
   "property": "C84",
   "status": "proved",
   "theorems": [
    "C84_diagonal_value",
    "C84_diagonal_space",
    "C84_second_refuted",
    "C84_two_diagonals_refuted",
    "C84_particle_hole_refuted"
   ],
   "note": "positive theorems under conditions on the deltas; three refutations show that the conditions are needed"
  },
  {
   "property": "C85",
   "status": "proved",
   "theorems": [
    "C85_functions",
    "C85_printed",
    "C85_series_printable",
    "C85_nested_printable",
    "C85_series_code",
    "C85_nested_code"
   ],
   "note": "For expand_hole=True only: with expand_hole=False a hole density C1 has the name of the result C1 (C64_hole_density_refuted). The functions are those that save_terms_ambit_functions returns; it raises KeyError for tensors other than H1..H9, T1..T9."
  },
  {
   "property": "C86",
   "status": "proved",
   "theorems": [
    "C86_written",
    "C86_series_written",
    "C86_nested_written",
    "C86_multireference_refuted"
   ],
   "note": "The witness for the multireference case is nested_commutator_cc with one commutator and T1."
  },
  {
   "property": "C87",
   "status": "proved",
   "theorems": [
    "C87_total"
   ],
   "note": "C87_total: single-reference bch_cc_rsc returns, functions are written for the levels with at most nine creators, and running them computes the commutators; assumes SymPy answers with an equivalent form, not 0."
  },
  {
   "property": "C88",
   "status": "proved",
   "theorems": [
    "C88_equivalence",
    "C88_contraction",
    "C88_commutator",
    "C88_linear",
    "C88_bch",
    "C88_nested",
    "C88_not_canonical_refuted"
   ],
   "note": "SymPy's canonicalize is an arbitrary oracle that stays within the declared symmetries (admissible) and gives equal products the same answer up to the sign (canonical); C88_not_canonical_refuted shows that the second assumption is needed."
  },
  {
   "property": "C89",
   "status": "proved",
   "theorems": [
    "C89_canonical_is_same",
    "C89_canonical_decides",
    "C89_canonical_twice",
    "C89_contraction",
    "C89_commutator",
    "C89_linear",
    "C89_bch",
    "C89_nested",
    "C89_uneven_refuted"
   ],
   "note": "canonical SymPy answers are a hypothesis of C89_canonical_decides and C89_canonical_twice, satisfied in C89_example by a table of answers; C89_uneven_refuted shows that the hypothesis on one-body cumulants is needed"
  },
  {
   "property": "C90",
   "status": "proved",
   "theorems": [
    "C90_exchange",
    "C90_scale_contraction",
    "C90_scale",
    "C90_antisymmetric",
    "C90_order",
    "C90_parts_left",
    "C90_parts_right",
    "C90_lists_antisymmetric"
   ],
   "note": "Term-by-term identities of the returned lists (types, tensors, operators, coefficients, order). The coefficient conditions exclude sums that are nearly but not exactly zero, which the code drops at 1e-15. Set orders are a function of the pair of terms and the order of the product."
  },
  {
   "property": "C91",
   "status": "proved",
   "theorems": [
    "C91_bch_processes",
    "C91_bch_levels",
    "C91_nested",
    "C91_amplitudes",
    "C91_recursive"
   ],
   "note": "Results compared by type, tensors, operators, coefficients and order of the terms. For permuted cluster levels the outside decisions (SymPy, set orders) are one function of their arguments in both runs; for processes alone they may differ from place to place. recursive_single_commutator: spin-orbital terms, same order of the terms."
  },
  {
   "property": "C92",
   "status": "proved",
   "theorems": [
    "C92_closest",
    "C92_error",
    "C92_recovers"
   ],
   "note": "Closest fraction for every bound >= 1; the printing theorems are for the bound 10^9 of the code. Doubles are taken as the rational numbers they are."
  },
  {
   "property": "C93",
   "status": "proved",
   "theorems": [
    "C93_list",
    "C93_default",
    "C93_list_suffices",
    "C93_default_refuted"
   ],
   "note": "Refutation of the documented default (C93_default_refuted) with its exact extent (C93_default); positive theorems for lists of categories."
  },
  {
   "property": "C94",
   "status": "proved",
   "theorems": [
    "C94_positive",
    "C94_zero",
    "C94_negative",
    "C94_never_wrong",
    "C94_commutator_zero",
    "C94_commutator_positive",
    "C94_commutator_never_wrong",
    "C94_commutator_negative"
   ],
   "note": "Pool(n) raises ValueError for n < 1; sqrt(..)/0 raises ZeroDivisionError. C94_positive: for n_process >= 1 the extended functions are those of the other theorems."
  }
 ]
}