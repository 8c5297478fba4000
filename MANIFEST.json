{
 "claims": [
  {
   "property": "C01",
   "status": "proved",
   "theorems": [
    "C01_check_permutation"
   ],
   "note": ""
  },
  {
   "property": "C02",
   "status": "proved",
   "theorems": [
    "C02_compose_is_composition",
    "C02_inverse",
    "C02_associative_with_unit",
    "C02_permute",
    "C02_permute_compose"
   ],
   "note": ""
  },
  {
   "property": "C03",
   "status": "proved",
   "theorems": [
    "C03_disjoint_cycles",
    "C03_rejects",
    "C03_normal_form_unique",
    "C03_empty_refuted"
   ],
   "note": "The empty permutation is excluded: there the code raises IndexError (C03_empty_refuted)."
  },
  {
   "property": "C04",
   "status": "proved",
   "theorems": [
    "C04_block_permutations",
    "C04_rejects",
    "C04_concatenate"
   ],
   "note": ""
  },
  {
   "property": "C05",
   "status": "proved",
   "theorems": [
    "C05_full_block_perm",
    "C05_factorisation",
    "C05_roundtrip"
   ],
   "note": ""
  },
  {
   "property": "C06",
   "status": "proved",
   "theorems": [
    "C06_map_channels",
    "C06_routing_unique",
    "C06_extract_channel",
    "C06_negative_key_refuted"
   ],
   "note": "A negative key raises IndexError instead of ValueError (C06_negative_key_refuted)."
  },
  {
   "property": "C07",
   "status": "proved",
   "theorems": [
    "C07_create",
    "C07_series",
    "C07_series_inverse",
    "C07_feedback",
    "C07_feedback_bad_port",
    "C07_factor_rhs",
    "C07_factor_lhs"
   ],
   "note": ""
  },
  {
   "property": "C08",
   "status": "proved",
   "theorems": [
    "C08_common_block_structure",
    "C08_rejects"
   ],
   "note": ""
  },
  {
   "property": "C09",
   "status": "proved",
   "theorems": [
    "C09_series_defined",
    "C09_series_generator",
    "C09_generator_faithful",
    "C09_series_assoc",
    "C09_series_unit",
    "C09_series_physical",
    "C09_permutation_series",
    "C09_permutation_identity"
   ],
   "note": "Associativity and the generator law need an isometric S of the left factor (C09_isometry_needed). SLH triples over an arbitrary complex *-algebra."
  },
  {
   "property": "C10",
   "status": "proved",
   "theorems": [
    "C10_concatenation",
    "C10_concat_assoc",
    "C10_interchange",
    "C10_concat_unit",
    "C10_concat_physical"
   ],
   "note": "SLH triples over an arbitrary complex *-algebra."
  },
  {
   "property": "C11",
   "status": "proved",
   "theorems": [
    "C11_two_sided_inverse",
    "C11_inverse_unique",
    "C11_double_inverse",
    "C11_inverse_of_series",
    "C11_inverse_of_concat",
    "C11_inverse_of_permutation"
   ],
   "note": "For unitary S. SLH triples over an arbitrary complex *-algebra."
  },
  {
   "property": "C12",
   "status": "proved",
   "theorems": [
    "C12_feedback_physical",
    "C12_feedback_defined",
    "C12_loop_elimination",
    "C12_feedback_ports",
    "C12_feedback_of_concat",
    "C12_feedback_pull_out_left",
    "C12_feedback_pull_out_right",
    "C12_feedback_of_permutation",
    "C12_feedback_inverse"
   ],
   "note": "The inversion of 1 - S[out,in] is an oracle assumed to return true inverses only."
  },
  {
   "property": "C13",
   "status": "proved",
   "theorems": [
    "C13_series_product",
    "C13_concatenation",
    "C13_lshift",
    "C13_plus",
    "C13_feedback",
    "C13_FB",
    "C13_series_inverse",
    "C13_creduce",
    "C13_pad_with_identity",
    "C13_fuel_irrelevant",
    "C13_get_blocks",
    "C13_feedback_defined_refuted",
    "C13_feedback_ports_refuted"
   ],
   "note": "Partial correctness: every result of the simplifier evaluates to the same SLH triple as the unsimplified expression, for every recursion depth; more depth never changes an answer (C13_fuel_irrelevant), termination is not proved. Inverses are not wrapped around Feedback (C13_feedback_ports_refuted shows why); C13_feedback_defined_refuted: feedback of a concatenation ending in a one-channel system raises."
  },
  {
   "property": "C14",
   "status": "proved",
   "theorems": [
    "C14_index_in_block",
    "C14_index_in_block_inverse",
    "C14_index_out_of_range",
    "C14_series_cdim",
    "C14_concat_cdim",
    "C14_feedback_cdim",
    "C14_inverse_cdim",
    "C14_creduce_cdim",
    "C14_pad_cdim",
    "C14_wf_cdim",
    "C14_toSLH_cdim",
    "C14_block_structure",
    "C14_get_blocks_cdim",
    "C14_series_mismatch",
    "C14_series_mismatch_refuted"
   ],
   "note": "cid(n) operands are dropped before channel numbers are compared (C14_series_mismatch_refuted)."
  },
  {
   "property": "C15",
   "status": "proved",
   "theorems": [
    "C15_connect",
    "C15_wire_networks",
    "C15_network_unique",
    "C15_order",
    "C15_connect_order",
    "C15_cdim",
    "C15_invalid",
    "C15_duplicate_input",
    "C15_duplicate_output_refuted"
   ],
   "note": "For every list of components and connections; the result is the unique network of the fields, independent of the order of the connections and of force_SLH. Requires that each single loop can be closed in the code order. Rejection of a doubly used output is false (C15_duplicate_output_refuted); doubly used inputs and unresolvable references are rejected."
  },
  {
   "property": "C16",
   "status": "proved",
   "theorems": [
    "C16_product_preserved",
    "C16_only_adjacent_rewrites",
    "C16_only_adjacent_rewrites_object",
    "C16_fixpoint",
    "C16_terminates"
   ],
   "note": ""
  },
  {
   "property": "C17",
   "status": "proved",
   "theorems": [
    "C17_cache_transparent",
    "C17_result_unique",
    "C17_cached_call_returns",
    "C17_feedback_collision_refuted",
    "C17_stale_after_add_rule_refuted"
   ],
   "note": "Proved for fixed rules under sound keys; C17_feedback_collision_refuted and C17_stale_after_add_rule_refuted show the two ways the real code violates those side conditions."
  },
  {
   "property": "C18",
   "status": "proved",
   "theorems": [
    "C18_temporary_rules_restores",
    "C18_temporary_instance_cache_restores",
    "C18_no_instance_caching_restores",
    "C18_exception_propagates",
    "C18_duplicate_class_refuted",
    "C18_base_before_subclass_refuted",
    "C18_crash_on_entry_refuted",
    "C18_other_class_cache_refuted",
    "C18_later_base_context_refuted"
   ],
   "note": "Proved for class lists that name no class twice and no base class before its subclass, entering Expression classes; the _refuted theorems show that each of these conditions is needed."
  },
  {
   "property": "C19",
   "status": "proved",
   "theorems": [
    "C19_equivalence",
    "C19_equal_means_identical",
    "C19_circuits_without_feedback",
    "C19_feedback_ports_refuted"
   ],
   "note": "Proved for all classes whose constructor forwards its arguments; refuted for Feedback (C19_feedback_ports_refuted)."
  },
  {
   "property": "C20",
   "status": "proved",
   "theorems": [
    "C20_match_sound",
    "C20_match_complete",
    "C20_no_match",
    "C20_no_exception",
    "C20_unique_bindings",
    "C20_zero_arguments_refuted",
    "C20_both_ends_refuted",
    "C20_repeated_list_wildcard_refuted"
   ],
   "note": "Proved for patterns within the documented restriction whose list wildcards are not reused across nesting levels (pattern_ok); the _refuted theorems show what happens outside it (zero-argument expressions, non-single patterns at both ends, list wildcards reused). Conditions are assumed not to raise."
  },
  {
   "property": "C21",
   "status": "proved",
   "theorems": [
    "C21_substitute_maximal",
    "C21_substitution_lemma",
    "C21_substitute_absent",
    "C21_substitute_swallows_attribute_error_refuted",
    "C21_apply_rules_bottom_up",
    "C21_first_rule",
    "C21_findall"
   ],
   "note": "SymPy leaves are treated as other leaves. The substitution lemma needs that creating expressions never raises AttributeError (C21_substitute_swallows_attribute_error_refuted)."
  },
  {
   "property": "C22",
   "status": "proved",
   "theorems": [
    "C22_scaled_product_refuted",
    "C22_sorted_stable",
    "C22_any_stable_sort",
    "C22_sorted_permutation",
    "C22_product_preserved",
    "C22_normal_form",
    "C22_two_operands",
    "C22_sum_canonical",
    "C22_overlapping_refuted",
    "C22_symbolic_label_refuted",
    "C22_full_space_refuted"
   ],
   "note": "Proved for operands whose Hilbert spaces are pairwise equal or disjoint canonical products; the _refuted theorems show reordering of non-commuting operands for overlapping product spaces, symbolic labels and FullSpace, and C22_scaled_product_refuted a user-level product that comes out wrong."
  },
  {
   "property": "C23",
   "status": "proved",
   "theorems": [
    "C23_create_is_union",
    "C23_create_full",
    "C23_extensional",
    "C23_remove",
    "C23_intersect",
    "C23_create_set_semantics",
    "C23_create_associative",
    "C23_strict_subfactor",
    "C23_full_is_top",
    "C23_tensor_factor_order",
    "C23_isdisjoint",
    "C23_isdisjoint_symbolic",
    "C23_remove_full",
    "C23_remove_full_local_refuted",
    "C23_remove_local_refuted",
    "C23_full_asymmetric_refuted"
   ],
   "note": "Holds for local and canonical product spaces; refuted for LocalSpace.remove of a product containing it and for FullSpace."
  },
  {
   "property": "C24",
   "status": "proved",
   "theorems": [
    "C24_dimension",
    "C24_row_major",
    "C24_states_distinct",
    "C24_basis_state_index",
    "C24_basis_state_label",
    "C24_labels_distinct",
    "C24_no_basis",
    "C24_duplicate_labels_refuted",
    "C24_comma_label_refuted",
    "C24_negative_index_refuted",
    "C24_trivial_label_refuted"
   ],
   "note": "Row-major enumeration needs distinct labels; label lookup needs comma-free labels (refutations for duplicates, commas, negative indices, the trivial label)."
  },
  {
   "property": "C25",
   "status": "proved",
   "theorems": [
    "C25_constructor",
    "C25_constructor_rejects",
    "C25_label_index",
    "C25_only_basis_states",
    "C25_out_of_range",
    "C25_next",
    "C25_next_additive",
    "C25_next_label_index",
    "C25_no_basis",
    "C25_spin_labels",
    "C25_symbolic_next_refuted",
    "C25_fock_label_wraps_refuted"
   ],
   "note": "next() on a symbolic label raises TypeError and FockLabel wraps around (refuted)."
  },
  {
   "property": "C26",
   "status": "proved",
   "theorems": [
    "C26_range_values",
    "C26_len_contains",
    "C26_fock_infinite",
    "C26_fock_one_refuted",
    "C26_fock_one_partial",
    "C26_errors"
   ],
   "note": "piecewise_one of a finite Fock space also includes the value dim (C26_fock_one_refuted; correct elsewhere, C26_fock_one_partial)."
  },
  {
   "property": "C27",
   "status": "proved",
   "theorems": [
    "C27_assignments",
    "C27_doit_full",
    "C27_doit_limit",
    "C27_doit_infinite",
    "C27_max_terms",
    "C27_max_terms_endless",
    "C27_len",
    "C27_doit_over",
    "C27_empty_refuted",
    "C27_max_terms_zero_refuted",
    "C27_limit_off_by_one_refuted",
    "C27_nested_sum_refuted"
   ],
   "note": "For finite ranges and a term that is not itself a sum. Refuted: empty ranges and max_terms=0 give None, the limit admits one term too many, terms that are sums cannot be added, rebinding inner sums raise TypeError."
  },
  {
   "property": "C28",
   "status": "proved",
   "theorems": [
    "C28_make_disjunct_avoids",
    "C28_make_disjunct_value",
    "C28_mul_sums",
    "C28_rmul_sums",
    "C28_mul_other",
    "C28_scalar_mul",
    "C28_capture_refuted",
    "C28_prime_capture_refuted",
    "C28_prime_clash_refuted",
    "C28_scalar_mul_refuted"
   ],
   "note": "make_disjunct_indices always avoids the given symbols; value preservation needs that no primed copy of a clashing index occurs. The _refuted theorems show variable capture in products and the scalar product that keeps the old ranges."
  },
  {
   "property": "C29",
   "status": "proved",
   "theorems": [
    "C29_assoc",
    "C29_assoc_refuted",
    "C29_const",
    "C29_pull_constfactor",
    "C29_kronecker",
    "C29_kronecker_total",
    "C29_kronecker_piecewise",
    "C29_kronecker_range_refuted",
    "C29_kronecker_plus_refuted"
   ],
   "note": "Value preservation for deltas whose two arguments have the same possible values (or with the piecewise flag for every finite non-Fock range); refuted: the range is ignored, a coefficient containing an inner index is captured, (delta+1) raises NotImplementedError. Index expressions are linear over the integers and delta arguments solved for have coefficient +-1."
  },
  {
   "property": "C30",
   "status": "proved",
   "theorems": [
    "C30_sum_value",
    "C30_multiple_value",
    "C30_difference_value",
    "C30_collected_form",
    "C30_sum_defined",
    "C30_empty_sum",
    "C30_reorder",
    "C30_nested_sum_refuted"
   ],
   "note": "Value, collected form, reorder invariance for all operand lists; the form needs terms that are not themselves sums (C30_nested_sum_refuted shows 2*(A+B) summands left uncollected). Reorder invariance needs an order that distinguishes different summands."
  },
  {
   "property": "C31",
   "status": "partial",
   "theorems": [
    "C31_expand_value",
    "C31_local_expand_value",
    "C31_expanded_form_partial",
    "C31_sum_factor_refuted",
    "C31_adjoint_refuted",
    "C31_sites_expand_value"
   ],
   "note": "Value preservation proved unconditionally on one local space and for sums, multiples and commutators of products whose factors act on single local spaces (C31_sites_expand_value); in general for runs whose factor sorting never passes overlapping operators. The form \"no sum inside a product\" is false of the code with ladder operators (C31_sum_factor_refuted) and proved for the fragment without them (C31_expanded_form_partial). Adjoint(A+B).expand() raises AttributeError."
  },
  {
   "property": "C32",
   "status": "proved",
   "theorems": [
    "C32_adjoint_value",
    "C32_local_adjoint_value",
    "C32_adjoint_twice",
    "C32_sum",
    "C32_multiple",
    "C32_product",
    "C32_commutator",
    "C32_of_adjoint",
    "C32_sum_order_refuted",
    "C32_sites_adjoint_value"
   ],
   "note": "By value, unconditionally for products of operators on single local spaces (C32_sites_adjoint_value), otherwise for checked runs; the adjoint of a sum is not re-sorted, so it may be unequal to an equal-valued sum (C32_sum_order_refuted). KetBra and indexed sums are not part of the operator model."
  },
  {
   "property": "C33",
   "status": "proved",
   "theorems": [
    "C33_series_value",
    "C33_local_series_value",
    "C33_unique",
    "C33_form_irrelevant",
    "C33_constant",
    "C33_product",
    "C33_commutator",
    "C33_sum",
    "C33_adjoint",
    "C33_scalar",
    "C33_singular",
    "C33_at_every_point",
    "C33_minus_cc_refuted"
   ],
   "note": "Relative to a stated contract for the terms SymPy delivers (met by a polynomial expander, OpSeriesInst). Unconditionally on one local space; in general for checked runs. Excludes OperatorPlusMinusCC with a minus sign, for which it is false (C33_minus_cc_refuted), OperatorTrace, and local operators with parameter-dependent arguments."
  },
  {
   "property": "C34",
   "status": "proved",
   "theorems": [
    "C34_product_value",
    "C34_local_product_value",
    "C34_create_acts",
    "C34_destroy_acts",
    "C34_sigma_acts",
    "C34_phase_acts",
    "C34_product_acts",
    "C34_number_states",
    "C34_truncated_refuted",
    "C34_sites_product_value",
    "C34_sorted_product_value",
    "C34_sites_number_states"
   ],
   "note": "Every interpretation obeying the textbook relations; unconditional for products whose factors act on single local spaces (C34_sites_product_value); concrete number representation with explicit actions (C34_sites_number_states). Ladder operators on truncated spaces are refuted (C34_truncated_refuted). Operator-times-ket rules: see C43."
  },
  {
   "property": "C35",
   "status": "proved",
   "theorems": [
    "C35_coefficients",
    "C35_jz_jplus",
    "C35_jz_jminus",
    "C35_jplus_jminus",
    "C35_highest",
    "C35_lowest",
    "C35_adjoint",
    "C35_casimir",
    "C35_quantum_number",
    "C35_jz_unshifted_refuted",
    "C35_labels_refuted",
    "C35_index_outside",
    "C35_jplus_acts",
    "C35_jminus_acts",
    "C35_jz_acts",
    "C35_commutators"
   ],
   "note": "Refuted: integer m with shift=False gives None for Jz, string labels raise AttributeError for J- and Jz."
  },
  {
   "property": "C36",
   "status": "proved",
   "theorems": [
    "C36_commutator_value",
    "C36_local_commutator_value",
    "C36_disjoint",
    "C36_ordering",
    "C36_leibniz_value",
    "C36_leibniz_left_refuted",
    "C36_sites_commutator_value"
   ],
   "note": "Unconditionally for products of operators on single local spaces (C36_sites_commutator_value); in general for checked runs (see DESIGN). Leibniz expansion of [AB, C] with a two-factor AB raises TypeError (C36_leibniz_left_refuted)."
  },
  {
   "property": "C37",
   "status": "proved",
   "theorems": [
    "C37_liouvillian_value",
    "C37_local_collapse_value",
    "C37_apply_value",
    "C37_local_apply_value",
    "C37_lindblad_form",
    "C37_scalar_collapse",
    "C37_trace_free",
    "C37_hermitian",
    "C37_master_equation",
    "C37_commutator_value",
    "C37_anti_commutator_value",
    "C37_commutator_map",
    "C37_anti_commutator_map",
    "C37_commutator_zero_refuted"
   ],
   "note": "Value in every interpretation, for checked runs; unconditionally when each collapse operator is on one local space. commutator(A, 0) returns a superoperator (C37_commutator_zero_refuted)."
  },
  {
   "property": "C38",
   "status": "proved",
   "theorems": [
    "C38_result",
    "C38_master_equation",
    "C38_heisenberg_equation",
    "C38_drive_removed"
   ],
   "note": "Reading off the identity coefficient is an oracle; C38_drive_removed assumes it additive. which=[] means all channels, as in the code."
  },
  {
   "property": "C39",
   "status": "proved",
   "theorems": [
    "C39_no_warning_value",
    "C39_trace_free_value",
    "C39_zero_value",
    "C39_hamiltonian_value",
    "C39_local_value",
    "C39_equivalent_system",
    "C39_two_channels_refuted",
    "C39_hamiltonian_refuted",
    "C39_unit_rate_refuted",
    "C39_single_term",
    "C39_other_terms",
    "C39_dropped_terms_refuted"
   ],
   "note": "One jump term (or none): values for checked runs, unconditionally on one local space. Several jump terms never give a result: sorted() of operators raises TypeError, so the branches for larger matrices are unreachable (C39_two_channels_refuted). Refuted: no jump terms without symbolic=True raises; a jump coefficient 1 is read as 1j (C39_unit_rate_refuted); unmatched jump terms are dropped silently (C39_dropped_terms_refuted). complex(), simplify, sqrt and numpy eigh on a 1x1 matrix are oracles."
  },
  {
   "property": "C40",
   "status": "proved",
   "theorems": [
    "C40_linear",
    "C40_sum_value",
    "C40_difference_value",
    "C40_multiple_value",
    "C40_pre_value",
    "C40_post_value",
    "C40_product_value",
    "C40_pre_post",
    "C40_pre_pre",
    "C40_post_post",
    "C40_apply_value",
    "C40_apply_composes",
    "C40_local_apply_value",
    "C40_expand_value",
    "C40_adjoint_trace",
    "C40_adjoint_pre",
    "C40_adjoint_of_adjoint",
    "C40_adjoint_multiple_refuted",
    "C40_adjoint_sum_refuted",
    "C40_sorting_refuted",
    "C40_zero_product_refuted"
   ],
   "note": "Values for checked runs, unconditionally for two-sided multiplications on one local space. Refuted: multiples have no adjoint (None), so sums/differences with multiples raise; sorting can move a multiplication past a non-commuting symbol; products that are zero are not recognised."
  },
  {
   "property": "C41",
   "status": "proved",
   "theorems": [
    "C41_trace_value",
    "C41_expand_value",
    "C41_local_value",
    "C41_unknown_dimension",
    "C41_monitor_sites",
    "C41_register_laws",
    "C41_pull_out_refuted",
    "C41_rotation_refuted"
   ],
   "note": "Soundness for runs in which factors are only moved past factors they commute with (monitor), which includes all products of operators on single local spaces (C41_monitor_sites), and unconditionally for operators on one local space. Refuted for general products: factors on other spaces are taken out to the left of a factor they do not commute with (C41_pull_out_refuted), cyclic rotation of multi-space factors (C41_rotation_refuted)."
  },
  {
   "property": "C42",
   "status": "proved",
   "theorems": [
    "C42_numbers",
    "C42_right",
    "C42_neutral",
    "C42_conversions",
    "C42_complex_refuted",
    "C42_bool_refuted",
    "C42_one_minus_refuted",
    "C42_floordiv_refuted",
    "C42_mod_refuted"
   ],
   "note": "For all numeric operands and all operators except a bare number // One (C42_floordiv_refuted) and a non-integer % One (C42_mod_refuted); with expressions on the left exactly, on the right by value (C48_operators). Refuted: complex(One) is 1j, bool(Zero) is True, One - expression adds."
  },
  {
   "property": "C43",
   "status": "proved",
   "theorems": [
    "C43_multiple_value",
    "C43_sum_value",
    "C43_tensor_value",
    "C43_tensor_disjoint",
    "C43_sum_spaces",
    "C43_apply_value",
    "C43_basis_value",
    "C43_create_value",
    "C43_destroy_value",
    "C43_sigma_value",
    "C43_local_apply",
    "C43_local_inner",
    "C43_local_outer",
    "C43_inner_value",
    "C43_inner_conjugate",
    "C43_outer_value",
    "C43_outer_apply",
    "C43_ket_bra_value",
    "C43_bra_ket_value",
    "C43_bra_bra_value",
    "C43_scaled_bra",
    "C43_bra_sum",
    "C43_bra_operator",
    "C43_type_errors",
    "C43_expand_value",
    "C43_expand_inner",
    "C43_expand_outer",
    "C43_inner_spaces",
    "C43_basis_spaces_refuted",
    "C43_empty_refuted",
    "C43_outer_zero_refuted",
    "C43_factorisations_refuted",
    "C43_unequal_spaces_refuted",
    "C43_space_too_large_refuted"
   ],
   "note": "Sums, multiples, tensor products and local operators on basis states: the code as it is. Operators on kets, inner and outer products, expansion: for monitored runs (as C34), unconditionally on one local space up to rotations of coherent states by non-real angles. Refuted: the loops over factorisations of product states do not end on different factorisations, unequal spaces or operators outside the space; basis states of different spaces are treated as orthonormal; ZeroKet outer products; empty sums and products."
  },
  {
   "property": "C44",
   "status": "proved",
   "theorems": [
    "C44_history",
    "C44_lines"
   ],
   "note": "For functions that respect ==. Functions returning None (in-place methods), verify(), symbol sets and the column layout of the printed text are not modelled."
  },
  {
   "property": "C45",
   "status": "proved",
   "theorems": [
    "C45_hstackm",
    "C45_vstackm",
    "C45_block_matrix",
    "C45_permutation_matrix",
    "C45_permutation_product",
    "C45_permutation_transpose",
    "C45_product_assoc",
    "C45_identity",
    "C45_adjoint",
    "C45_trace",
    "C45_block_structure",
    "C45_off_block_zero",
    "C45_block_structure_not_square",
    "C45_get_blocks",
    "C45_blocks_of_structure",
    "C45_get_blocks_column_refuted"
   ],
   "note": "Includes C45_get_blocks_column_refuted: cutting a column vector into blocks recurses into the first block."
  },
  {
   "property": "C46",
   "status": "proved",
   "theorems": [
    "C46_keytuple_dictionary",
    "C46_keytuple_strict_order",
    "C46_string_fallback_refuted"
   ],
   "note": "The string fallback of KeyTuple can order three keys in a cycle (refuted); transitivity holds for pairwise comparable keys."
  },
  {
   "property": "C47",
   "status": "proved",
   "theorems": [
    "C47_keys_equal_same_entries",
    "C47_order_independent",
    "C47_hashable",
    "C47_typed_injective",
    "C47_instance_key",
    "C47_instance_key_complete",
    "C47_container_kind_refuted",
    "C47_unsortable_lost_refuted",
    "C47_args_kwargs_refuted"
   ],
   "note": "Literally false of the code, as the refutations show: a set or dict whose elements cannot be ordered loses all of its entries (C47_unsortable_lost_refuted), a tuple, a list and the sorted set with the same entries share a key (C47_container_kind_refuted), positional and keyword arguments can collide (C47_args_kwargs_refuted). Proved: for sortable containers keys are equal exactly for equal class and (container-kind-blind) equal entries, hence injective on values of the same shape; independence of the enumeration order; hashability."
  },
  {
   "property": "C48",
   "status": "proved",
   "theorems": [
    "C48_operators",
    "C48_plus",
    "C48_times",
    "C48_power",
    "C48_neg",
    "C48_conjugate",
    "C48_real",
    "C48_imag",
    "C48_power_of_power_refuted",
    "C48_constants_combine_refuted"
   ],
   "note": "By value, for expressions whose powers obey the power laws (slegal); outside of that the rule (x^y)^z -> x^(yz) is wrong (C48_power_of_power_refuted). One minus an expression is excluded (C42_one_minus_refuted). Constants do not always combine (C48_constants_combine_refuted). Scalar indexed sums: see C27-C29."
  },
  {
   "property": "C49",
   "status": "proved",
   "theorems": [
    "C49_convert_value",
    "C49_convert_defined",
    "C49_convert_expanded",
    "C49_convert_embedded",
    "C49_convert_sum",
    "C49_convert_product",
    "C49_convert_adjoint",
    "C49_convert_outside",
    "C49_displace_refuted",
    "C49_spin_refuted",
    "C49_truncation_refuted",
    "C49_simplified_sum",
    "C49_simplified_multiple",
    "C49_simplified_product",
    "C49_simplified_sites_product",
    "C49_simplified_adjoint",
    "C49_simplified_expand",
    "C49_simplified_commutator",
    "C49_convert_any"
   ],
   "note": "For expressions without spin operators whose product factors act on one local space each; products with factors on several spaces get the matrix of their expansion (C49_convert_expanded). Refuted: Jz, J+ and J- get the matrix of a creation operator (C49_spin_refuted); displacement and squeezing operators raise AttributeError (C49_displace_refuted); in truncated spaces matrices do not respect a*a^dagger = 1 + a^dagger*a (C49_truncation_refuted). Entries are values of scalars; PseudoInverse/NullSpaceProjector not modelled. For finite-level systems (transition operators between existing levels) the matrix is right whatever the form of the product factors (C49_convert_any), and converting commutes with sums, multiples, products, adjoints, commutators and expand (C49_simplified_*)."
  },
  {
   "property": "C50",
   "status": "proved",
   "theorems": [
    "C50_convert_any",
    "C50_convert_value",
    "C50_spin_value",
    "C50_convert_expanded",
    "C50_agrees_with_sympy",
    "C50_convert_outside",
    "C50_symbolic_refused",
    "C50_time_dependent_value",
    "C50_slh_value",
    "C50_slh_total",
    "C50_phase_refuted",
    "C50_adjoint_refuted",
    "C50_mapping",
    "C50_single_term",
    "C50_spin_order_refuted",
    "C50_mapping_refuted"
   ],
   "note": "As C49 for Qobj; spin operators in the decreasing order of the basis (C50_spin_value), which is opposite to that of transition operators (C50_spin_order_refuted). Time-dependent lists for operators whose expansion is stable. Refuted: adjoints, phases, displacements and squeezing raise; objects given in mapping are not embedded (C50_mapping_refuted). States, superoperators, string coefficients and floating-point rounding not modelled. For finite-level systems also with product factors on several spaces (C50_convert_any)."
  },
  {
   "property": "C51",
   "status": "proved",
   "theorems": [
    "C51_srepr_roundtrip",
    "C51_indented_roundtrip",
    "C51_reads_unique",
    "C51_exact_text",
    "C51_injective",
    "C51_indented_layout",
    "C51_local_space_rebuild",
    "C51_spin_space_rebuild",
    "C51_scalar_confusion_refuted",
    "C51_one_confusion_refuted",
    "C51_spin_basis_refuted"
   ],
   "note": "For expressions on which Python equality is the identity; text as tokens, read by a recursive-descent parser (SreprSpec). Refuted: ScalarValue(2) == 2 makes the cache print one for the other (C51_scalar_confusion_refuted, C51_one_confusion_refuted); SpinSpace loses a custom basis (C51_spin_basis_refuted). The constructors called by the evaluation are modelled for LocalSpace and SpinSpace only; ndarrays not modelled."
  },
  {
   "property": "C52",
   "status": "proved",
   "theorems": [
    "C52_dot_unfolds",
    "C52_once_graph",
    "C52_once_edges_refuted"
   ],
   "note": "Node statements and edges as data rather than DOT text; styles not modelled. Refuted: with repeat=False the edges below a repeated subexpression are drawn repeatedly (C52_once_edges_refuted)."
  },
  {
   "property": "C53",
   "status": "proved",
   "theorems": [
    "C53_tree_lines",
    "C53_tree_injective",
    "C53_padding_refuted"
   ],
   "note": "Lines as lists of drawing symbols, rendered texts as single symbols. Refuted: padding does not indent the first line (C53_padding_refuted)."
  },
  {
   "property": "C54",
   "status": "proved",
   "theorems": [
    "C54_diff_value",
    "C54_local_diff_value",
    "C54_first",
    "C54_iterated",
    "C54_form_irrelevant",
    "C54_constant",
    "C54_sum",
    "C54_product",
    "C54_commutator",
    "C54_adjoint",
    "C54_multiple",
    "C54_simplify_value",
    "C54_at_every_point",
    "C54_plus_minus_cc_refuted",
    "C54_second_derivative_refuted",
    "C54_zeroth_derivative_refuted"
   ],
   "note": "Derivative objects are symbols whose meaning is the derivative of their operand (DiffSpec.symbols_diff); evaluation at points, non-atomic symbols and OperatorTrace are not modelled. Findings: OperatorPlusMinusCC has no working derivative, (x*a).diff(x, 2) is not the zero operator although (x*a).diff(x).diff(x) is, e.diff(x, 0) is zero when x does not occur in e. The hypotheses are met by differentiable families of operators on Fock spaces (DiffInst)."
  },
  {
   "property": "C55",
   "status": "proved",
   "theorems": [
    "C55_prepare",
    "C55_prepare_total",
    "C55_eval_defined",
    "C55_limit",
    "C55_limit_unitary",
    "C55_docstring_refuted",
    "C55_choose",
    "C55_no_null_space",
    "C55_off_diagonal_refuted",
    "C55_off_diagonal_error",
    "C55_not_closed_refuted"
   ],
   "note": "Relative to any complex *-algebra and any series_expand that finds the coefficients of polynomials in k (C33). Invariance of the slow space and vanishing of sums of squares are hypotheses (both needed; C55_not_closed_refuted). Refuted: off-diagonal Y raises AttributeError instead of CannotEliminateAutomatically; the docstring condition Y*Ytilde = P0 is impossible unless P0 = 0. The final substitution of P0 by the identity is not modelled."
  },
  {
   "property": "C56",
   "status": "proved",
   "theorems": [
    "C56_flow",
    "C56_value",
    "C56_langevin",
    "C56_one_channel",
    "C56_gauge_error",
    "C56_noise_shape",
    "C56_dual",
    "C56_operator_valued_S_refuted"
   ],
   "note": "Proved when S shares no space with X (S commutes with X), and for one channel in general. Refuted for operator-valued S with two or more channels: X is subtracted from every entry of S^dag X S (C56_gauge_error gives the exact difference)."
  },
  {
   "property": "C57",
   "status": "proved",
   "theorems": [
    "C57_code",
    "C57_equations",
    "C57_scattering",
    "C57_output",
    "C57_langevin",
    "C57_single",
    "C57_not_displaced",
    "C57_displacement",
    "C57_unexpanded_coupling_refuted"
   ],
   "note": "Quantifies over every run that returns; the simplifier is the checked one (C57_code: the code gives the same result). Amplitudes are given for distinct modes and S, L, H depend on displaced modes through ladder operators. Without a0 the coupling operators are not expanded, and C, c can be wrong (C57_unexpanded_coupling_refuted); the equations still hold with the terms left out."
  },
  {
   "property": "C58",
   "status": "proved",
   "theorems": [
    "C58_operator",
    "C58_ket",
    "C58_bra",
    "C58_same_text",
    "C58_same_ket_text",
    "C58_prints",
    "C58_prints_ket",
    "C58_operator_sum_on_ket_refuted",
    "C58_cc_sum_refuted",
    "C58_bra_product_refuted",
    "C58_sum_coefficient_refuted",
    "C58_bra_identity_refuted",
    "C58_adjoint_arguments_refuted",
    "C58_label_refuted"
   ],
   "note": "The text is a list of symbols. Excluded, each with a theorem that shows the text wrong or missing: sums starting with a minus applied to a ket (C58_operator_sum_on_ket_refuted) or inside c.c. in a sum (C58_cc_sum_refuted), products of operators in a bra (C58_bra_product_refuted), the identity in a bra (C58_bra_identity_refuted), coefficients that are sums but are not put in parentheses (C58_sum_coefficient_refuted), arguments of adjoint symbols (C58_adjoint_arguments_refuted), symbols labelled like ladder operators (C58_label_refuted)."
  },
  {
   "property": "C59",
   "status": "proved",
   "theorems": [
    "C59_doit_value",
    "C59_doit_trace_value",
    "C59_local_doit_value",
    "C59_doit_explicit",
    "C59_doit_again",
    "C59_doit_commutator",
    "C59_doit_cc",
    "C59_rewrite_value",
    "C59_local_rewrite_value",
    "C59_rewrite_pair",
    "C59_rewrite_all_refuted"
   ],
   "note": "For expressions over several spaces the value theorems are about results for which the sorting of factors is order-preserving (checked), for one local space about the code as it is; the form theorems are about the code as it is. Not every pair is found: C59_rewrite_all_refuted."
  },
  {
   "property": "C60",
   "status": "proved",
   "theorems": [
    "C60_wrong_cdim",
    "C60_coherent_input",
    "C60_driving_hamiltonian",
    "C60_vacuum_input",
    "C60_components_physical",
    "C60_components_defined",
    "C60_beamsplitters_in_series",
    "C60_full_transmission",
    "C60_phases_in_series",
    "C60_symmetric_beamsplitter",
    "C60_any_beamsplitter",
    "C60_any_beamsplitter_complex"
   ],
   "note": "Conditional, like C13, on the result converting to SLH (no bare symbols). C60_any_beamsplitter_complex instantiates the cosine, sine and exponential of the real numbers."
  },
  {
   "property": "C61",
   "status": "proved",
   "theorems": [
    "C61_ket_value",
    "C61_ket_converts",
    "C61_tensor_in_order",
    "C61_ket_expanded",
    "C61_embedded_shape",
    "C61_bra_refuted",
    "C61_braket_refuted",
    "C61_ket_outside",
    "C61_zero_refused",
    "C61_super_value",
    "C61_super_own_space",
    "C61_super_part_refuted",
    "C61_super_identity_refuted",
    "C61_applied_refuted",
    "C61_embedded_refuted"
   ],
   "note": "Operators inside are restricted as in C50 (no spin operators, one local space per factor); tensor products with factors on several spaces are covered through their expansion (C61_ket_expanded)."
  },
  {
   "property": "C62",
   "status": "proved",
   "theorems": [
    "C62_defined",
    "C62_only",
    "C62_number_of_states",
    "C62_one_level",
    "C62_labels",
    "C62_local",
    "C62_x_value",
    "C62_y_value",
    "C62_z_value",
    "C62_table",
    "C62_products",
    "C62_hermitian",
    "C62_same_level",
    "C62_spin_half",
    "C62_x_matrix",
    "C62_y_matrix",
    "C62_z_matrix"
   ],
   "note": "Symbolic labels are not modelled. C62_spin_half: on a spin-1/2 space the default PauliZ is -2 Jz, because the basis is ordered by increasing m."
  },
  {
   "property": "C63",
   "status": "proved",
   "theorems": [
    "C63_reads_back",
    "C63_reads_exactly",
    "C63_unambiguous",
    "C63_same_text",
    "C63_flat_value",
    "C63_same_value",
    "C63_channels_refuted"
   ],
   "note": "Text as a list of tokens: spelling, blanks, the text of component arguments and SLH entries are not modelled. C63_channels_refuted: components with the same label and different numbers of channels look alike."
  },
  {
   "property": "C64",
   "status": "proved",
   "theorems": [
    "C64_given_value",
    "C64_complete_value",
    "C64_hermitian_value",
    "C64_forms_agree",
    "C64_basis_legal",
    "C64_basis_orthonormal",
    "C64_basis_complete",
    "C64_default_value",
    "C64_default_hermitian",
    "C64_basis_size",
    "C64_no_basis",
    "C64_no_basis_error",
    "C64_hermitian_needed"
   ],
   "note": "Terminating runs of the monitored simplifier, as for C43 (the code then returns the same). The expansion of a scalar (BraKet objects included) enters as a function that keeps the value. Canonical basis: of non-trivial spaces."
  },
  {
   "property": "C65",
   "status": "proved",
   "theorems": [
    "C65_unique",
    "C65_of_invertible",
    "C65_solves",
    "C65_of_projector",
    "C65_value",
    "C65_form_irrelevant",
    "C65_twice",
    "C65_adjoint",
    "C65_unitary",
    "C65_multiple",
    "C65_scalar",
    "C65_object",
    "C65_apart_factors",
    "C65_unitary_factors",
    "C65_unitary_atoms",
    "C65_product_refuted"
   ],
   "note": "Unevaluated PseudoInverse objects must stand for pseudo-inverses in the interpretation (objects_ok: exactly those that occur), Squeeze for unitary operators, 1/c for the inverse of c. Products: reversible (PinvSpec); C65_product_refuted shows that the condition is needed: the code reverses every product. Terminating runs of the monitored simplifier; the code then returns the same."
  },
  {
   "property": "C66",
   "status": "proved",
   "theorems": [
    "C66_init",
    "C66_getitem",
    "C66_row_is_column",
    "C66_column",
    "C66_element_wise",
    "C66_element_wise_raises",
    "C66_substitute",
    "C66_is_zero",
    "C66_instance_key",
    "C66_eq",
    "C66_series_expand",
    "C66_series_expand_empty_refuted",
    "C66_free_symbols",
    "C66_space",
    "C66_add",
    "C66_add_laws",
    "C66_add_value",
    "C66_add_incompatible",
    "C66_sub",
    "C66_mul_value",
    "C66_mul_shapes",
    "C66_distributive",
    "C66_mul_value_assoc",
    "C66_truediv",
    "C66_transpose",
    "C66_transpose_product",
    "C66_trace_linear",
    "C66_trace_cyclic",
    "C66_diagm",
    "C66_identity_is_diagm",
    "C66_conjugate",
    "C66_real_imag",
    "C66_conjugate_product",
    "C66_add_shapes_refuted",
    "C66_transpose_product_refuted",
    "C66_trace_cyclic_refuted",
    "C66_imag_docstring_refuted",
    "C66_imag_fallback_refuted"
   ],
   "note": "numpy broadcasting is modelled: sums of different shapes are refused only if no side has length 1 (C66_add_shapes_refuted). C66_transpose_product_refuted, C66_trace_cyclic_refuted: non-commuting entries. C66_imag_docstring_refuted: the formula in the docstring of imag gives minus the imaginary part; the code falls back to it for numbers without imag/as_real_imag (C66_imag_fallback_refuted). C66_series_expand_empty_refuted: a matrix without entries has an empty series."
  },
  {
   "property": "C67",
   "status": "proved",
   "theorems": [
    "C67_value",
    "C67_local_value",
    "C67_linear_value",
    "C67_meaning_unique",
    "C67_same_meaning",
    "C67_power_sum",
    "C67_power_power",
    "C67_power_is_product",
    "C67_square_of_sum",
    "C67_subtract_added",
    "C67_divide_multiplied",
    "C67_number_either_side",
    "C67_factor_either_side",
    "C67_divide_by_operator",
    "C67_divide_by_zero",
    "C67_negative_power",
    "C67_inverse",
    "C67_float_power_refuted"
   ],
   "note": "For products of operators on several spaces the statement is for runs in which the sorting of factors exchanges only factors on disjoint spaces (checked); without that C22_scaled_product_refuted applies. C67_float_power_refuted: an exponent like 2.0 reaches range() and raises TypeError. ScalarValue objects to the left of an operator and the arithmetic of two numbers (Python/SymPy) are not modelled; 1/c is a parameter with a stated contract."
  },
  {
   "property": "C68",
   "status": "proved",
   "theorems": [
    "C68_derivative_value",
    "C68_raw_derivative_value",
    "C68_independent",
    "C68_sum_rule",
    "C68_product_rule",
    "C68_power_rule",
    "C68_exponent_ignored",
    "C68_exponent_refuted",
    "C68_short_product"
   ],
   "note": "Exponents must be constant (the code ignores their derivative: C68_exponent_ignored, C68_exponent_refuted). SymPy differentiation and the tidying expand().simplify_scalar() after each step are parameters with stated contracts (C31/C42 treat the tidying). Repeated derivatives and ScalarIndexedSum are not modelled."
  },
  {
   "property": "C69",
   "status": "proved",
   "theorems": [
    "C69_series_value",
    "C69_unique",
    "C69_form_irrelevant",
    "C69_constant",
    "C69_sum",
    "C69_product",
    "C69_power",
    "C69_type_stable",
    "C69_singular",
    "C69_negative_power",
    "C69_symbolic_power"
   ],
   "note": "What sympy.series and int() return are parameters with stated contracts; the series of other scalar expressions (BraKet: state algebra) is a parameter. ScalarIndexedSum and ScalarDerivative are not modelled."
  },
  {
   "property": "C70",
   "status": "proved",
   "theorems": [
    "C70_power",
    "C70_zero",
    "C70_exponents_add",
    "C70_capture_refuted"
   ],
   "note": "Negative exponents (1/S**-n) and non-integer exponents (ScalarPower.create) are not modelled."
  },
  {
   "property": "C71",
   "status": "proved",
   "theorems": [
    "C71_diff",
    "C71_create",
    "C71_free_symbols",
    "C71_not_free",
    "C71_evaluate_at",
    "C71_evaluate_rejects",
    "C71_order_irrelevant",
    "C71_chain_rule_refuted",
    "C71_number_point_refuted"
   ],
   "note": "Atomic SymPy symbols only; adjoints of derivative objects, series, and evaluation of other expressions (substitute) are not modelled here. The proviso cannot be dropped (C71_chain_rule_refuted)."
  },
  {
   "property": "C72",
   "status": "proved",
   "theorems": [
    "C72_coefficients",
    "C72_taylor"
   ],
   "note": "Symbols only (the series of sums, products and powers: C33, C69); the meaning of sympy.subs in an argument is a hypothesis (subs_ok). The series of an already differentiated object (SingleQuantumOperation._series_expand, which fails for lack of derivs) is not modelled."
  },
  {
   "property": "C73",
   "status": "proved",
   "theorems": [
    "C73_history",
    "C73_arithmetic",
    "C73_verify",
    "C73_sides",
    "C73_as_dict",
    "C73_eq",
    "C73_symbols",
    "C73_all_symbols",
    "C73_substitute",
    "C73_eq_transitive_refuted"
   ],
   "note": "The operations of the expressions are parameters (their values: C48, C67); an AttributeError raised inside them, which Eq catches, is not modelled, nor is the column layout of the printed text."
  },
  {
   "property": "C74",
   "status": "proved",
   "theorems": [
    "C74_mul",
    "C74_one_sum",
    "C74_bra_bra",
    "C74_norm",
    "C74_indices",
    "C74_capture_refuted",
    "C74_no_rename"
   ],
   "note": "Kets, bras and operators are taken in one algebra with an adjoint; the simplifications of create are C29; C74_capture_refuted shows the captured index of a ket times the bra of a sum."
  },
  {
   "property": "C75",
   "status": "proved",
   "theorems": [
    "C75_check",
    "C75_check_errors",
    "C75_docs_refuted",
    "C75_iterator_refuted",
    "C75_add",
    "C75_add_succeeds",
    "C75_del",
    "C75_add_del",
    "C75_del_key_error",
    "C75_show",
    "C75_show_all",
    "C75_no_rules",
    "C75_invariant",
    "C75_del_all",
    "C75_shared",
    "C75_subclass_refuted",
    "C75_del_not_atomic_refuted"
   ],
   "note": "Names are numbers, unhashable names are not distinguished from other objects; the printed text of show_rules is not modelled, only which rules it prints. C75_docs_refuted, C75_iterator_refuted, C75_subclass_refuted and C75_del_not_atomic_refuted record what the code does not guarantee."
  },
  {
   "property": "C76",
   "status": "proved",
   "theorems": [
    "C76_flat",
    "C76_submodules",
    "C76_exist",
    "C76_again",
    "C76_conflict",
    "C76_not_listed_refuted",
    "C76_module_shadows_refuted"
   ],
   "note": "The arguments include and exclude are None; importing a module has no effects besides defining its attributes; ImportError is PlainException in the model. C76_not_listed_refuted and C76_module_shadows_refuted show that both conditions are needed."
  },
  {
   "property": "C77",
   "status": "proved",
   "theorems": [
    "C77_range",
    "C77_range_default",
    "C77_list",
    "C77_space",
    "C77_values",
    "C77_list_values",
    "C77_space_values",
    "C77_dispatch",
    "C77_range_accepts",
    "C77_late_errors"
   ],
   "note": "The simplifications of create are C29; booleans count as non-integers, and IndexOverFockSpace of something other than a local space is an error in the model although the code accepts it until the sum is used."
  }
 ]
}