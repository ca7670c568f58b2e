{
 "claims": [
  {
   "property": "C01",
   "status": "proved",
   "theorems": [
    "C01_mul_exact",
    "C01_add_exact",
    "C01_sub_exact",
    "C01_div_exact",
    "C01_mul_assign_exact",
    "C01_div_assign_exact",
    "C01_add_assign_exact",
    "C01_div_int_exact",
    "C01_int_mul_exact"
   ],
   "note": "all operators, Code mode; the hypothesis bounds the raw denominator by 1024 as in the statement"
  },
  {
   "property": "C02",
   "status": "proved",
   "theorems": [
    "C02_results_fit",
    "C02_only_overflow",
    "C02_mul_succeeds",
    "C02_add_succeeds",
    "C02_exact_run_mul",
    "C02_exact_run_add"
   ],
   "note": "results fit 32 bits, only Overflow is reported, success when the exact intermediate products fit, exactness of non-rounding runs"
  },
  {
   "property": "C03",
   "status": "partial",
   "theorems": [
    "C03_gate_error_bound_refuted",
    "C03_gate_exact_when_small_or_reducible",
    "C03_gate_denominator_positive",
    "C03_gate_true_error_bound_partial"
   ],
   "note": "refuted in general (1/4001 -> 0, error 2.5e-4); proved: exact for den < 1024 or reducible, positive denominators, and the true error bound max(2e-7, 1/(den-2)) via Flocq (1e-7 for even numerators)"
  },
  {
   "property": "C04",
   "status": "partial",
   "theorems": [
    "C04_less",
    "C04_greater",
    "C04_equality_refuted",
    "C04_equality_actual",
    "C04_equality_on_integers_partial",
    "C04_not_equal_on_reduced"
   ],
   "note": "< and > proved; == refuted in both directions, its actual meaning characterised; == proved on integers; != proved on reduced fractions"
  },
  {
   "property": "C05",
   "status": "partial",
   "theorems": [
    "C05_pow_integral_partial",
    "C05_pow_zero_refuted",
    "C05_pow_zero_returns_base",
    "C05_pow_fractional"
   ],
   "note": "refuted at N = 0 (returns the base); proved for every non-zero integral exponent and for fractional exponents with positive base (std::pow idealised)"
  },
  {
   "property": "C06",
   "status": "proved",
   "theorems": [
    "C06_next_even",
    "C06_pop_count_counts_generators",
    "C06_next_pow_2",
    "C06_leading_set_index",
    "C06_rot32_rotates_bytes",
    "C06_rot32_four_times"
   ],
   "note": "all functions, for the stated ranges"
  },
  {
   "property": "C07",
   "status": "proved",
   "theorems": [
    "C07_geometric_is_clifford_product",
    "C07_geometric_associative",
    "C07_geometric_unit",
    "C07_geometric_zero_iff_degenerate",
    "C07_geometric_stays_in_algebra"
   ],
   "note": "any signature and dimension"
  },
  {
   "property": "C08",
   "status": "proved",
   "theorems": [
    "C08_exterior_is_grassmann_product",
    "C08_exterior_zero_iff_common_generator",
    "C08_exterior_shuffle_sign",
    "C08_exterior_associative",
    "C08_exterior_graded_anticommutative",
    "C08_exterior_is_top_grade_part"
   ],
   "note": "any blades"
  },
  {
   "property": "C09",
   "status": "proved",
   "theorems": [
    "C09_contract_is_grade_part",
    "C09_contract_is_zero_unless_contained"
   ],
   "note": "any signature"
  },
  {
   "property": "C10",
   "status": "partial",
   "theorems": [
    "C10_symmetric_inner_is_grade_part",
    "C10_symmetric_inner_symmetry_refuted",
    "C10_symmetric_inner_same_grade",
    "C10_symmetric_inner_swap"
   ],
   "note": "grade-part characterisation proved; symmetry refuted, exact swap law proved"
  },
  {
   "property": "C11",
   "status": "proved",
   "theorems": [
    "C11_reverse_sign_of_blade",
    "C11_reverse_antiautomorphism_blades",
    "C11_reverse_value",
    "C11_reverse_involutive",
    "C11_reverse_of_product"
   ],
   "note": "blades of any signature; whole multivectors as values and, for proper ones, as identical objects"
  },
  {
   "property": "C12",
   "status": "proved",
   "theorems": [
    "C12_wedge_with_dual_is_pseudoscalar",
    "C12_double_dual_sign",
    "C12_double_dual_identity_refuted",
    "C12_dual_value",
    "C12_double_dual_value",
    "C12_dual_code_agrees"
   ],
   "note": "blades and whole multivectors of any dimension; the identity of the double dual is refuted (sign formula proved)"
  },
  {
   "property": "C13",
   "status": "proved",
   "theorems": [
    "C13_sort_sorts",
    "C13_sort_partial_order_sorts",
    "C13_sort_safe_for_any_comparator"
   ],
   "note": "any strict weak order, any range; also comparators that may fail, and memory safety for arbitrary comparators"
  },
  {
   "property": "C14",
   "status": "proved",
   "theorems": [
    "C14_sum_value",
    "C14_sum_code_agrees",
    "C14_sum_commutes",
    "C14_sum_associates"
   ],
   "note": "values of every unrounded sum; commutative and associative as objects; unrounded runs are runs of the code"
  },
  {
   "property": "C15",
   "status": "proved",
   "theorems": [
    "C15_sum_canonical",
    "C15_sum_proper"
   ],
   "note": "in both modes; also lowest terms, sorted indeterminates and total degrees"
  },
  {
   "property": "C16",
   "status": "proved",
   "theorems": [
    "C16_product_value",
    "C16_product_code_agrees",
    "C16_geometric_product_associates",
    "C16_exterior_product_associates",
    "C16_products_distribute"
   ],
   "note": "any blade product; integral degrees (the library creates no others) and inputs non-zero where a negative power occurs; associativity and distributivity as identical objects"
  },
  {
   "property": "C17",
   "status": "proved",
   "theorems": [
    "C17_product_canonical",
    "C17_product_proper"
   ],
   "note": "in both modes, any order of the operands' terms"
  },
  {
   "property": "C18",
   "status": "partial",
   "theorems": [
    "C18_sum_memory_safe",
    "C18_product_memory_safe",
    "C18_unary_memory_safe",
    "C18_dual_memory_safe",
    "C18_null_basis_memory_safe",
    "C18_selection_memory_safe",
    "C18_resize_memory_safe",
    "C18_resize_too_small_refuted",
    "C18_divide_memory_safe"
   ],
   "note": "proved for every operation on packed operands, division by any divisor included; refuted for resize below the sizes"
  },
  {
   "property": "C19",
   "status": "proved",
   "theorems": [
    "C19_sum_with_negation_is_empty",
    "C19_equal_values_identical_objects",
    "C19_zero_has_no_terms"
   ],
   "note": "x + (-x) is empty in both modes; equal values at all positive inputs imply identical objects"
  },
  {
   "property": "C20",
   "status": "proved",
   "theorems": [
    "C20_scale_value",
    "C20_negate_value",
    "C20_shift_value",
    "C20_unary_canonical",
    "C20_code_agrees",
    "C20_scale_by_zero_canonical_refuted"
   ],
   "note": "values, canonical form (scaling by zero keeps zero terms: refuted)"
  },
  {
   "property": "C21",
   "status": "partial",
   "theorems": [
    "C21_divide_by_constant",
    "C21_divide_by_fresh_indeterminate_partial",
    "C21_divide_code_agrees",
    "C21_divide_shared_indeterminate_refuted",
    "C21_divide_same_indeterminate_reads_beyond_size_refuted",
    "C21_divide_by_a_sum_refuted",
    "C21_divide_stored_degree_refuted"
   ],
   "note": "refuted when the dividend contains the indeterminate, when the divisor has several monomials, and for the stored degree; values proved for constants and for fresh indeterminates"
  },
  {
   "property": "C22",
   "status": "proved",
   "theorems": [
    "C22_component_value",
    "C22_component_code_agrees",
    "C22_extract_value"
   ],
   "note": "component for every blade, extract for every increasing list of blades"
  },
  {
   "property": "C23",
   "status": "partial",
   "theorems": [
    "C23_select_grade_partial",
    "C23_select_grade_refuted"
   ],
   "note": "refuted; proved exactly where no blade of higher grade precedes one of the selected grade"
  },
  {
   "property": "C24",
   "status": "proved",
   "theorems": [
    "C24_to_natural_basis_value",
    "C24_to_null_basis_value",
    "C24_null_then_natural",
    "C24_natural_then_null",
    "C24_code_agrees"
   ],
   "note": "any dimension >= 2: both maps are the outermorphisms of the stated images, and mutually inverse on objects"
  },
  {
   "property": "C25",
   "status": "partial",
   "theorems": [
    "C25_denotation_is_what_the_machine_computes",
    "C25_denotation_unique",
    "C25_machine_deterministic",
    "C25_add_partial",
    "C25_faithful_expressions_partial",
    "C25_code_agrees",
    "C25_add_to_zero_drops_scale_refuted",
    "C25_leftover_summand_wrong_scale_refuted",
    "C25_inner_scale_ignored_refuted",
    "C25_cancelled_sum_refuted",
    "C25_adding_integer_zero_adds_one_refuted"
   ],
   "note": "refuted in five ways; proved for all pairs of operands whose checksums identify their summands, with fair leftovers, and by induction for whole expressions (faithful)"
  },
  {
   "property": "C26",
   "status": "partial",
   "theorems": [
    "C26_binary_products",
    "C26_symmetric_inner",
    "C26_scalar_product_partial",
    "C26_scalar_part_of_geometric_symmetric",
    "C26_exterior_partial",
    "C26_zero_times_x_refuted",
    "C26_wedge_drops_scale_refuted",
    "C26_symmetric_inner_swapped_refuted",
    "C26_scalar_product_of_scalars_refuted",
    "C26_sandwich_scale_refuted"
   ],
   "note": "refuted in six ways; products proved for all non-zero operands with their factors; ^ when no operand is a scaled wedge; | in checksum order or on scalars"
  },
  {
   "property": "C27",
   "status": "partial",
   "theorems": [
    "C27_scale",
    "C27_negate",
    "C27_divide_by_integer",
    "C27_divide_by_expression",
    "C27_integer_over_expression_partial",
    "C27_integer_over_expression_refuted"
   ],
   "note": "n*x, x/n, -x and x/y proved for every expression; n/x refuted unless |n| = 1; x / -1 concerns the engine"
  },
  {
   "property": "C28",
   "status": "partial",
   "theorems": [
    "C28_reverse_partial",
    "C28_dual_partial",
    "C28_reverse_and_dual_drop_the_factor",
    "C28_reverse_drops_scale_refuted",
    "C28_dual_drops_scale_refuted"
   ],
   "note": "refuted; proved for expressions with factor 1, and exactly what is lost otherwise"
  },
  {
   "property": "C29",
   "status": "proved",
   "theorems": [
    "C29_symbolic_evaluation",
    "C29_with_temporaries_partial",
    "C29_code_agrees",
    "C29_compute_algebraic_partial",
    "C29_compute_shared_partial",
    "C29_compute_general_partial",
    "C29_compute_code_agrees"
   ],
   "note": "every program over the algebraic operators that the stack machine can run, any inputs, any number of results, null basis included; unrounded runs are runs of the code. Beyond the statement: programs with division, functions, grade selection and temporaries where each node is applicable, and compute as a whole from the lambda to the entity (partial: sharing and the refuted operators excluded)"
  },
  {
   "property": "C30",
   "status": "partial",
   "theorems": [
    "C30_reshape_partial",
    "C30_nothing_shared_partial",
    "C30_nothing_moved_partial",
    "C30_temporaries_on_empty_stack_partial",
    "C30_scales_ignored_refuted",
    "C30_references_miscounted_refuted",
    "C30_no_known_subexpression_refuted",
    "C30_sum_checksum",
    "C30_two_summands"
   ],
   "note": "refuted in general: subexpressions are compared without scales ((x+y)*(x-y) becomes (x+y)*(x+y)), references of products are miscounted (a wrong product is substituted), and the array of known subexpressions is read at index -1. Proved: if operands that differ at most in scales are equal and the first pass counts enough references, the reshaped program computes the value of the program; the counting condition is proved for programs in which no operation is repeated."
  },
  {
   "property": "C31",
   "status": "proved",
   "theorems": [
    "C31_values_of_indeterminates",
    "C31_ranges_in_order",
    "C31_arguments",
    "C31_inputs_in_order"
   ],
   "note": "any number and sizes of inputs: the argument built for input k, the cells written for it, and disjoint ordered ranges"
  },
  {
   "property": "C32",
   "status": "partial",
   "theorems": [
    "C32_monomials",
    "C32_marked_monomials",
    "C32_outer_factor",
    "C32_negative_denominator_refuted",
    "C32_monomial_negative_denominator_refuted",
    "C32_zero_numerator_refuted",
    "C32_division_by_minus_one_refuted"
   ],
   "note": "refuted for the denominator -1 (also end to end: x / -1 is x) and for a zero outermost numerator; proved for every positive denominator, integral non-zero exponents, and all marks"
  },
  {
   "property": "C33",
   "status": "proved",
   "theorems": [
    "C33_select",
    "C33_select_is_coefficient",
    "C33_select_many",
    "C33_select_pointer",
    "C33_blade_outside_the_algebra"
   ],
   "note": "every entity type; blades outside the algebra select nothing or are out of bounds as stated"
  },
  {
   "property": "C34",
   "status": "partial",
   "theorems": [
    "C34_stored_blades",
    "C34_pga_line",
    "C34_vga_rotor",
    "C34_vga_point",
    "C34_cga_point",
    "C34_round_trip",
    "C34_vector_round_trip",
    "C34_plane_round_trip",
    "C34_motor_round_trip",
    "C34_pga_point_round_trip",
    "C34_line2_round_trip",
    "C34_line_round_trip",
    "C34_vga_point_round_trip",
    "C34_vga_point_as_pga_point",
    "C34_cga_point_round_trip",
    "C34_pga_rotor_refuted",
    "C34_pga_rotor_value",
    "C34_pga_rotor_partial",
    "C34_pga_translator_refuted",
    "C34_pga_translator_value",
    "C34_pga_translator_partial",
    "C34_pga2_point_refuted",
    "C34_pga2_point_conversion",
    "C34_pga2_point_conversion_refuted",
    "C34_pga_vector_out_of_bounds",
    "C34_pga_vector_refuted",
    "C34_pga2_vector_out_of_bounds",
    "C34_pga2_vector_refuted",
    "C34_pga_vector_intended",
    "C34_pga2_vector_blades",
    "C34_pga_translator_moves"
   ],
   "note": "refuted for pga::rotor, pga::translator, pga2::point and the pga vectors; round trips and meanings proved for the others"
  },
  {
   "property": "C35",
   "status": "proved",
   "theorems": [
    "C35_selections_told_apart",
    "C35_crc32_is_standard",
    "C35_crc32_8_is_standard",
    "C35_crc32_injective",
    "C35_crc32_in_range",
    "C35_crc32_8_injective",
    "C35_crc32_affine"
   ],
   "note": "crc32 and crc32_8 equal the bitwise definition; injective; affine over xor"
  },
  {
   "property": "C36",
   "status": "partial",
   "theorems": [
    "C36_push_conses",
    "C36_append_snocs",
    "C36_pop_unconses",
    "C36_get_reads",
    "C36_set_writes",
    "C36_back_is_last",
    "C36_apply",
    "C36_apply_reverse",
    "C36_mutate_maps",
    "C36_find_first",
    "C36_split_partial",
    "C36_split_zero_refuted",
    "C36_split_zero_loses_all",
    "C36_split_drop_partial",
    "C36_split_drop_drops_last",
    "C36_split_drop_refuted",
    "C36_split_at_type_refuted"
   ],
   "note": "list behaviour proved for push/append/pop/get/set/back/find/apply/mutate and split<I>, I > 0; split<0>, split_drop and split_at_type refuted and their actual results proved"
  },
  {
   "property": "C37",
   "status": "partial",
   "theorems": [
    "C37_stack_is_lifo",
    "C37_push_full",
    "C37_pop_reads_above_top",
    "C37_pop_refuted",
    "C37_pop_full_refuted"
   ],
   "note": "proved for every history of push/pop(n)/peek/clear/empty; pop() refuted, its actual result proved"
  },
  {
   "property": "C38",
   "status": "partial",
   "theorems": [
    "C38_pi",
    "C38_e_is_pi_refuted"
   ],
   "note": "PI proved; E refuted"
  },
  {
   "property": "C39",
   "status": "partial",
   "theorems": [
    "C39_literals_partial",
    "C39_compute_literal_partial",
    "C39_origin_refuted",
    "C39_infinity_refuted",
    "C39_point_minus_origin_refuted"
   ],
   "note": "refuted for every literal with exactly one of no and ni (1_no, 1_ni, point minus origin); proved for the literals with neither or both, in any dimension, and end to end for a returned literal"
  },
  {
   "property": "C40",
   "status": "partial",
   "theorems": [
    "C40_compute_function_partial",
    "C40_conformal_function_lost_refuted",
    "C40_function_of_expression_partial"
   ],
   "note": "refuted in conformal algebras (the function is lost: sqrt(p[e1]) = p.x); proved end to end elsewhere when the reshaped program is applicable (the function reaches one monomial); the built expression always means the function of the whole argument"
  },
  {
   "property": "C41",
   "status": "proved",
   "theorems": [
    "C41_to_string",
    "C41_labels_distinct"
   ],
   "note": "any entity and any type of components (how the standard library prints a number is a parameter); labels distinct up to dimension 10"
  },
  {
   "property": "C42",
   "status": "partial",
   "theorems": [
    "C42_compute_tuple_partial",
    "C42_tuple_code_agrees",
    "C42_tuple",
    "C42_tuple_reshaped_partial",
    "C42_lengths_not_adjusted_refuted"
   ],
   "note": "the program built for a tuple computes the results in order with their own factors (proved for all tuples of non-zero expressions); compute as a whole returns them in order for algebraic expressions when nothing is shared; refuted in general: (x*y, x*y) is reshaped to a program that cannot be evaluated"
  },
  {
   "property": "C43",
   "status": "proved",
   "theorems": [
    "C43_collate_equals_collation_of_a_copy",
    "C43_collate_keeps_values",
    "C43_code_agrees"
   ],
   "note": "any buffers whose references are in range"
  },
  {
   "property": "C44",
   "status": "proved",
   "theorems": [
    "C44_reference_reads_back",
    "C44_spare_capacity_refuted"
   ],
   "note": "when the term capacity equals the size, as for every result of an operation; refuted with spare capacity, which converted inputs of algebras with a null basis have (C60)"
  },
  {
   "property": "C45",
   "status": "partial",
   "theorems": [
    "C45_pseudoscalar_regress",
    "C45_pseudoscalar_is_identity_refuted",
    "C45_meet_de_morgan",
    "C45_meet_unit",
    "C45_meet_associative",
    "C45_meet_graded_commutative",
    "C45_vee_partial",
    "C45_vee_drops_the_factors",
    "C45_lambda_partial",
    "C45_vee_odd_dimension",
    "C45_join_with_pseudoscalar",
    "C45_join_with_pseudoscalar_refuted",
    "C45_vee_associative_odd",
    "C45_vee_associative_refuted",
    "C45_vee_factor_refuted"
   ],
   "note": "& is shown to be Grassmann's regressive product (defined by the common factor) with the sign (-1)^(g(n-g)) on grade g, for all expressions without a factor; the identity with the pseudoscalar and associativity are proved in odd dimensions and refuted in dimension 4; factors are lost (refuted)"
  },
  {
   "property": "C46",
   "status": "proved",
   "theorems": [
    "C46_pseudoscalar_inverse",
    "C46_degenerate_pseudoscalar_squares_to_zero"
   ],
   "note": "any non-degenerate signature; degenerate case squares to zero"
  },
  {
   "property": "C47",
   "status": "partial",
   "theorems": [
    "C47_even_mv_lists_even_blades",
    "C47_even_mv_strictly_increasing",
    "C47_bivector_mv_refuted",
    "C47_bivector_mv_up_to_dimension_4"
   ],
   "note": "even part proved for all signatures; bivector enumeration refuted for every dimension >= 5, proved up to dimension 4"
  },
  {
   "property": "C48",
   "status": "partial",
   "theorems": [
    "C48_operators_stay_in_bounds",
    "C48_tuple_stays_in_bounds",
    "C48_component_of_zero_refuted"
   ],
   "note": "refuted on the zero expression; proved for every expression that selects, divides or applies functions only to non-zero ones"
  },
  {
   "property": "C49",
   "status": "partial",
   "theorems": [
    "C49_literal_value",
    "C49_literal_neg_value",
    "C49_large_literal_refuted",
    "C49_names",
    "C49_inverse_pseudoscalar"
   ],
   "note": "refuted for n >= 2^31 (unchecked narrowing); proved below, with every name and the inverse pseudoscalars"
  },
  {
   "property": "C50",
   "status": "proved",
   "theorems": [
    "C50_rotation",
    "C50_sandwich",
    "C50_composition"
   ],
   "note": "all angles, axes and vectors; both spellings; composition"
  },
  {
   "property": "C51",
   "status": "partial",
   "theorems": [
    "C51_join_coordinates_partial",
    "C51_join_moment_refuted",
    "C51_line_contains_partial",
    "C51_line_contains_refuted",
    "C51_line_square",
    "C51_plucker_refuted"
   ],
   "note": "refuted: the second coordinate of the moment has the wrong sign, so that joins, incidence and simplicity are wrong; proved for the other coordinates and for lines whose moment has no second coordinate"
  },
  {
   "property": "C52",
   "status": "proved",
   "theorems": [
    "C52_plane_point",
    "C52_join_three",
    "C52_meet_three"
   ],
   "note": "incidence, three points, three planes"
  },
  {
   "property": "C53",
   "status": "partial",
   "theorems": [
    "C53_unique",
    "C53_line_partial",
    "C53_bivector_partial",
    "C53_vga_partial",
    "C53_ideal_refuted"
   ],
   "note": "refuted for ideal lines; proved for every bivector with a non-zero euclidean part, in pga and vga; the exponential is shown to be unique in any signature"
  },
  {
   "property": "C54",
   "status": "proved",
   "theorems": [
    "C54_normalize",
    "C54_ideal"
   ],
   "note": "every motor with a non-zero rotation part; the others divide by zero"
  },
  {
   "property": "C55",
   "status": "partial",
   "theorems": [
    "C55_log_partial",
    "C55_log_negative",
    "C55_half_turn_refuted",
    "C55_translation_refuted"
   ],
   "note": "refuted for half turns and translations; proved when the scalar part is at least 1e-6 or the pseudoscalar part is negative; otherwise exp(log m) = -m is proved"
  },
  {
   "property": "C56",
   "status": "proved",
   "theorems": [
    "C56_vector",
    "C56_rotor",
    "C56_translator",
    "C56_zero"
   ],
   "note": "three entities; zero divides by zero"
  },
  {
   "property": "C57",
   "status": "proved",
   "theorems": [
    "C57_distance",
    "C57_null"
   ],
   "note": "all points"
  },
  {
   "property": "C58",
   "status": "proved",
   "theorems": [
    "C58_screw",
    "C58_screw_exp",
    "C58_every_motor",
    "C58_rigid"
   ],
   "note": "every normalized motor is a screw motion; the motion of exponentials is identified"
  },
  {
   "property": "C59",
   "status": "partial",
   "theorems": [
    "C59_accepted_partial",
    "C59_layout",
    "C59_number_first_refuted",
    "C59_two_numbers_refuted"
   ],
   "note": "refuted for numbers that are not the last of several inputs; which inputs are accepted is characterised exactly, and the layout is proved for them"
  },
  {
   "property": "C60",
   "status": "partial",
   "theorems": [
    "C60_temporaries_partial",
    "C60_rotors",
    "C60_translation_refuted",
    "C60_overrun_refuted",
    "C60_spare_capacity_refuted",
    "C60_division_refuted"
   ],
   "note": "refuted in four ways, three of them for all inputs; proved for temporaries whose blades contain both of the last two generators or neither, among them rotors"
  },
  {
   "property": "C61",
   "status": "partial",
   "theorems": [
    "C61_translation",
    "C61_rotation",
    "C61_dilation",
    "C61_weight_refuted",
    "C61_sphere",
    "C61_collinear",
    "C61_coplanar",
    "C61_five_points",
    "C61_sphere_through",
    "C61_plane_through"
   ],
   "note": "proved for translators, rotors, dilators, spheres, three and four points; five points with the sphere or the plane through four of them; refuted: the weight is ignored by the conversion to a point"
  },
  {
   "property": "C62",
   "status": "partial",
   "theorems": [
    "C62_multivector_partial",
    "C62_reshaped_same",
    "C62_input_map",
    "C62_tuple",
    "C62_factor_refuted",
    "C62_zero_refuted"
   ],
   "note": "refuted for expressions with a factor and for zero; proved up to that factor for algebraic lambdas whose subexpressions are distinct"
  },
  {
   "property": "C63",
   "status": "proved",
   "theorems": [
    "C63_translator",
    "C63_translator_x",
    "C63_rotor",
    "C63_rotor_plane",
    "C63_circle",
    "C63_torus",
    "C63_reflection",
    "C63_join_motor"
   ],
   "note": "the lambdas of test_pga.cpp and test_vga.cpp for all parameters; their assertions are instances"
  },
  {
   "property": "C64",
   "status": "partial",
   "theorems": [
    "C64_text",
    "C64_signs",
    "C64_text_value",
    "C64_lambdas_partial",
    "C64_checksums_hide_scales_refuted",
    "C64_empty_inputs_refuted"
   ],
   "note": "what the text determines is proved exactly, for every program and both flags; without checksums it determines the value, given ids that name inputs; refuted with checksums (the scale of a division is hidden) and for inputs without components"
  },
  {
   "property": "C65",
   "status": "partial",
   "theorems": [
    "C65_evaluation_stays_in_bounds",
    "C65_right_or_arithmetic_error",
    "C65_temporaries_stay_in_bounds_partial",
    "C65_applicable_stays_in_bounds_partial"
   ],
   "note": "proved in both modes and every basis for programs without division and temporaries; with division, functions and temporaries for applicable programs, unrounded, in every basis; otherwise refuted by C21"
  },
  {
   "property": "C66",
   "status": "partial",
   "theorems": [
    "C66_compute_by_cost_partial",
    "C66_shared_by_cost_partial",
    "C66_tuple_by_cost_partial",
    "C66_reshape_succeeds_partial",
    "C66_direct_partial",
    "C66_empty",
    "C66_tuple_reshaped_partial",
    "C66_compute_right_or_arithmetic_error_partial",
    "C66_shared_right_or_arithmetic_error_partial",
    "C66_tuple_right_or_arithmetic_error_partial",
    "C66_general_right_or_arithmetic_error_partial"
   ],
   "note": "reshaping: for programs in which equal checksums mean equal programs and no division or function is applied to a nested selection, without which it is refuted (C30); compute: for algebraic lambdas and tuples, and for single lambdas with divisions and functions when the reshaped program is applicable, under the conditions of C29 and C42"
  },
  {
   "property": "C67",
   "status": "partial",
   "theorems": [
    "C67_axis",
    "C67_exponential",
    "C67_series",
    "C67_first_rotor",
    "C67_rotation",
    "C67_exact_rotation",
    "C67_cut_rotation",
    "C67_point_xz",
    "C67_point_xz_refuted",
    "C67_point_xz_round_trip",
    "C67_point_xz_right",
    "C67_moved_point",
    "C67_line_at",
    "C67_line_literal",
    "C67_line_refuted",
    "C67_second_tuple_refuted",
    "C67_fourth_tuple_refuted",
    "C67_translation_refuted",
    "C67_composed",
    "C67_final",
    "C67_triple",
    "C67_moved_axis",
    "C67_angle_first",
    "C67_second_axis",
    "C67_third_tuple",
    "C67_fourth_line",
    "C67_weight_refuted",
    "C67_weight",
    "C67_norm",
    "C67_norm_negative",
    "C67_t2_value",
    "C67_rotated_joint",
    "C67_t2_refuted",
    "C67_literals",
    "C67_point_z",
    "C67_point_z_same"
   ],
   "note": "refuted: the points off the planes z = 0 and z = 1, the lines through the literal 1_ni, two of the three tuples, the translation; what becomes of the error of the points is proved for every motor; proved: the first axis, expp of every line with its remainder, the rotation by it for every point, the lines with infinity as an input, composition of the motors, the motion of the axes, the division of the fourth axis by its norm"
  },
  {
   "property": "C68",
   "status": "partial",
   "theorems": [
    "C68_ieee_rounds",
    "C68_ieee_integers",
    "C68_component_error",
    "C68_blade_error",
    "C68_program",
    "C68_temporaries_partial",
    "C68_compute_partial",
    "C68_unrounded_agrees",
    "C68_code_agrees",
    "C68_integers",
    "C68_cancellation",
    "C68_wedge_itself",
    "C68_functions",
    "C68_relative_error_refuted",
    "C68_rotation",
    "C68_terms_unique",
    "C68_shared",
    "C68_steady",
    "C68_near_blade",
    "C68_compute_shared_partial",
    "C68_root"
   ],
   "note": "relative accuracy refuted; proved for every rounding with relative error u, hence for float and double: the error of each component is at most gamma_n times the sum of the absolute values of its monomials, with n counted from the compiled program; integers exact; with temporaries the errors of the cells and how they grow in the results, with divisions and with functions of single monomials, as long as the errors do not reach a pole"
  },
  {
   "property": "C69",
   "status": "proved",
   "theorems": [
    "C69_capacity",
    "C69_tuple_capacity",
    "C69_reshaped_capacity",
    "C69_linear",
    "C69_exponential",
    "C69_short"
   ],
   "note": "the size of every compiled lambda and tuple, exactly"
  },
  {
   "property": "C70",
   "status": "proved",
   "theorems": [
    "C70_monomial_iterator",
    "C70_term_iterator",
    "C70_distance_backwards",
    "C70_nested_loops",
    "C70_negate",
    "C70_reverse",
    "C70_divide_by_constant",
    "C70_extent",
    "C70_output",
    "C70_output_beyond",
    "C70_sum",
    "C70_product",
    "C70_product_any",
    "C70_dual",
    "C70_collate_spare_cells",
    "C70_empty_range_beyond_end"
   ],
   "note": "iterator arithmetic, nested loops, writes through references and output iterators refine the list-level model; sum, collate, product and dual at pointer level, the arrays of product with any initial contents"
  },
  {
   "property": "C71",
   "status": "proved",
   "theorems": [
    "C71_member",
    "C71_sizes",
    "C71_constructors",
    "C71_assignment",
    "C71_index_beyond",
    "C71_pga_line",
    "C71_cga_point",
    "C71_select_assignment",
    "C71_entity_index",
    "C71_zero_and_scalar"
   ],
   "note": "every type and member; the layout of the unions is assumed (members share the array in order)"
  },
  {
   "property": "C72",
   "status": "proved",
   "theorems": [
    "C72_line_square",
    "C72_incidence",
    "C72_meet",
    "C72_parallel",
    "C72_join",
    "C72_perpendicular",
    "C72_projection",
    "C72_reflection",
    "C72_reflected_line",
    "C72_two_reflections"
   ],
   "note": "points are entered by their components, as the type pga2::point is not usable (C34)"
  },
  {
   "property": "C73",
   "status": "proved",
   "theorems": [
    "C73_vector",
    "C73_rotor_normalize",
    "C73_translator",
    "C73_unit_length",
    "C73_repeated",
    "C73_rotor",
    "C73_rotor_angle",
    "C73_motor",
    "C73_motor_unit",
    "C73_motor_repeated"
   ],
   "note": "all operations are rounded separately; std::sin and std::cos are taken to be correctly rounded, as std::sqrt is"
  },
  {
   "property": "C74",
   "status": "partial",
   "theorems": [
    "C74_double_range",
    "C74_single_range",
    "C74_range_refuted",
    "C74_zero",
    "C74_rotor_range",
    "C74_translator_range",
    "C74_zero_axis",
    "C74_ideal_motor"
   ],
   "note": "refuted: the squares of (2^-600, 0, 0) and (2^600, 0, 0) leave the range; proved for components that are zero or between 2^-510 and 2^510 in double (2^-62 and 2^62 in float); the same for the axes of rotors and the directions of translators; the zero vector, a zero axis or direction is divided by zero, and a motor without a rotation is never normalized"
  },
  {
   "property": "C75",
   "status": "proved",
   "theorems": [
    "C75_log",
    "C75_angle",
    "C75_translation",
    "C75_near_half_turn",
    "C75_half_turn",
    "C75_half_turn_refuted",
    "C75_formats"
   ],
   "note": "std::atan2 is taken to be correctly rounded, as std::sqrt is; no signed zeros: with them the angle of C75_half_turn can also be near - PI"
  }
 ]
}