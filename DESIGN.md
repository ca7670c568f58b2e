# Formal model of jeremyong/gal in Rocq (Coq 8.16.1)

## Layout
* `rocq/theories/Base.v`: outcomes, arrays, machine integers.
* `rocq/theories/Model_*.v`: executable model of the C++ code, no proofs. Every definition cites file and lines in /repo.
* `rocq/theories/Spec_*.v`: what the properties mean, independently of the model's helpers: Clifford relations on words,
  real polynomials, meaning of node lists and of user expressions, entities as functions from blades to reals, euclidean geometry,
  exponentials as solutions of a differential equation.
* `rocq/theories/Proof_*.v`: lemmas.
* `rocq/theories/Props_*.v`: the property theorems, named after the property (`C07_...`), `Print Assumptions` under each, and Examples
  that meet the hypotheses with concrete non-trivial data. Most are closed by one lemma; refutations and the runs of Props_Geometry
  by symbolic computation.
* `properties.jsonl`: the properties. `MANIFEST.json`: status and theorems. `seeded/LOG.jsonl`: wrong versions of the model that were tried
  against the theorems.

Suffixes: `_partial` proves part of the property (the comment before it and the MANIFEST note say which part); `_refuted` exhibits an
input on which the code violates the property. A property that the code violates has status "partial" in the manifest: the refutation
shows that the full statement is false, and the other theorems say where it holds.

## Modelling decisions
* **Outcomes.** Functions that may hit undefined behaviour return `res A := Ok a | Err e`, with
  `e` one of `Overflow` (signed 32-bit overflow, a constant-expression error in C++), `OutOfBounds` (access outside an array's
  capacity), `DivZero`, `Rounded` (only in *exact mode*, below) and `IllFormed` (would not compile).
* **Rationals.** `rat` is a pair of `Z` with every arithmetic step range-checked against int32.
  `overflow_gate` is modelled with IEEE binary64 semantics from Coq's `SpecFloat` (computable, no axioms); its error bound (C03) is proved
  with Flocq's lemmas about the same operations.
  Functions take a `mode`: `Code` is the code as it is; `Exact` reports `Rounded` where the gate would change the value.
  A successful `Exact` run is also the `Code` run (Proof_Safe.v); value theorems are about runs in which no rounding occurred,
  except where the theorem quantifies over the mode.
* **Blades** are bitmasks in `N`; products are modelled for any dimension, with the 8-bit wrap of `elem_t` shown harmless up to dimension 8.
* **Multivectors** have the flat arrays (`inds`, `mons`, `terms`), offsets, counts, sizes and capacities of the code.
  The iterators (algebra.hpp:158-375) are modelled by `view`, which follows offsets and counts with bounds checks; Model_Iter.v models the iterators themselves, as positions with unchecked arithmetic and checked accesses, and C70 proves that loops through them agree with `view`.
* **Checksums** are the CRC-32 of the code, computed in the model; theorems about expressions that compare checksums assume that equal
  checksums mean equal operands where they must (`faithful`), and refute the property where they do not.
* **Indices** in dfa.hpp are 64-bit and wrap; arrays are bounds checked; loops take fuel, and running out of fuel is an error that the
  theorems exclude.
* **Numbers at run time** (`float`) are idealised as the real numbers. `sqrt`, `sin`, `cos`, `tan` are those of the reals; `atan2` is defined from `atan`.
  Division by zero at run time is an error in the member functions (`fdiv`); inside compiled programs it is the total division of Coq's reals,
  and theorems whose programs divide state that the divisor is not zero.
* **Rounding** (Model_Float.v, C68): the same evaluation with a type that rounds. Each operation computes the real result and rounds it with
  a parameter `fl`; `ieee` is round to nearest even of the IEEE formats. Infinities, NaN and subnormal results are reported as errors
  instead of being computed with; no operations are fused; pow with a fractional exponent, sin, cos and tan are taken to be correctly rounded.
  normalize, motor::log and the rotor constructor are modelled over the reals and with rounding (Model_FloatGeo.v).
* **Templates and compile-time dispatch** (`if constexpr`, tuples, type-level state) become ordinary functions on data.

## What is modelled, header by header
| header | modelled | not modelled |
|---|---|---|
| numeric.hpp | all: checked rationals, gate, comparison, pow, bit functions, constants | |
| crc.hpp | all | |
| algorithm.hpp | swap, sort (both overloads), as index ranges | |
| geometric_algebra.hpp | metrics, blade products, complement, dual, reversion, pseudoscalar, generic even and bivector multivectors | |
| algebra.hpp | mv, comparison, sum, product, collate, scale, shift, negate, divide, component, extract, grade selection, resize, reversion, dual | the loops of the null basis functions through iterators (as views); wrap-around of 64-bit element counts |
| null_algebra.hpp | both conversions | |
| expr.hpp | nodes, every operator, literals, constants, functions, exp, concatenation of tuples, checksums, `to_string` of programs (Model_Text) | |
| dfa.hpp | counting ids, collecting inputs, reshaping (common subexpressions), the stack machine with temporaries and references | the member functions of the state type that only rename types |
| engine.hpp | fill, evaluation of monomials, temporaries, results, compute for one and several results, input types, `evaluate` (Model_Evaluate); over the reals and with rounding (Model_Float) | |
| entity.hpp | select, ie, scalar, conversions, accessors (Model_Access.v) | |
| vga.hpp, pga.hpp, pga2.hpp, cga.hpp | literals, every ie and conversion, normalize, motor::log, rotor constructor, members, operator[] and constructors (Model_Access.v; members of a union are taken to share the array in their order) | code that is commented out (pga.hpp:574-613) |
| stack.hpp, tuple.hpp | all operations | |
| format.hpp | formatting of entities; how the standard library prints a number is a parameter | |
| benchmark/ga-benchmark | the inverse kinematics benchmark: its point types, all its lambdas and the loop that divides L4init by its norm (Model_Bench) | the other three files are empty or only include headers |
| cga2.hpp | | does not compile (it uses names that do not exist) |
| opt.hpp | | configuration macros |

Compile time and the optimizer are outside the model.

The assertions of the enabled tests (test_dfa, test_pga, test_vga, test_cga) agree with runs of the model; test_ik.cpp is
disabled in test/CMakeLists.txt.

## Findings: where the code violates a property
| property | witness |
|---|---|
| C03 | the gate can change a rational by more than 1/10000 |
| C04 | `==`: compares the left value with the integer part of the right one, so 1/2 differs from itself |
| C05 | pow with exponent 0 is not 1 |
| C10 | e0 . e01 and e01 . e0 differ in sign |
| C18, C48 | resize to smaller capacities; node -1 is read on the zero expression |
| C21, C23 | division by a shared indeterminate or by several monomials; grade selection when a blade of higher grade comes first |
| C25-C28 | sums, products, n / x, reversion and dual of scaled expressions lose or move factors |
| C30, C42 | (x+y)*(x-y) is compiled as (x+y)*(x+y); (x*y, x*y) cannot be evaluated |
| C32, C39, C40 | x / -1 is x; conformal literals with exactly one of no and ni; functions in conformal algebras are dropped |
| C34 | conversions of pga::rotor, pga::translator, pga2::point and the pga vectors |
| C36, C37 | splitting a tuple at 0 or with drop; stack::pop returns the cell above the top |
| C38 | the constant E is compiled as pi |
| C45 | in dimension 4 the pseudoscalar is not the identity of &, and & is not associative; & loses the factors of its operands |
| C47 | the generic bivector contains a 4-blade from dimension 5 on |
| C49 | literals of 2^31 and more |
| C51 | the second coordinate of the moment of a line has the wrong sign |
| C53, C55 | exp of ideal lines; log of half turns and of translations |
| C59 | a built-in number as the first or a middle input does not compile |
| C60 | in conformal algebras p % (1 + w) is wrong, x e4 x e4 writes and ~w ~w reads past the end of the data array, and x / s does not compile |
| C61 | the conversion to cga::point ignores the weight of the entity |
| C62 | evaluate::ie shows 2 x as x |
| C64 | the text with checksums is the same for x / y and x / (2 y) |
| C68 | x x - y in doubles is 0 instead of 1: cancellation at run time leaves no relative accuracy |

## Plan per property
| id | modelled | how proved |
|---|---|---|
| C01,C02 | numeric.hpp rat operations | case analysis on the checked arithmetic; value compared in Q/R |
| C03 | overflow_gate, SpecFloat | exactness lemmas; `_refuted` by computation; true bound |
| C04 | ==,!=,<,> | cross multiplication; `_refuted` for == |
| C05 | pow over an arbitrary ring/field of reals | loop invariant; `_refuted` at N=0 |
| C06 | bit functions on N | bitwise induction |
| C07-C10 | blade products, any metric | loop invariant to a closed sign formula, derivability from Clifford relations on words, associativity by GF(2)-bilinearity of the inversion count |
| C11 | reverse | sign formula |
| C12 | poincare_complement/dual | inversion count of complement |
| C13 | sort, both overloads (monadic comparator) | induction on fuel, permutation + sortedness |
| C14,C15 | sum on flat arrays | refinement to a structured merge, then evaluation homomorphism / invariant |
| C16,C17 | product+collate | same |
| C18 | capacity checks in writer | counting argument: outcome is never OutOfBounds |
| C19 | canonical forms | uniqueness of sorted association lists |
| C20-C23 | scale, negate, shift, divide, [], select_grade | evaluation lemmas; `_refuted` witnesses |
| C24 | null basis conversion | outermorphisms, evaluation lemma per blade class |
| C25-C28,C38,C42,C48 | rpne operators | denotational semantics of node lists; `_refuted` witnesses and correct fragments |
| C29 | rpn_ctx + engine evaluation | simulation by induction over the program |
| C62 | evaluate | from the soundness of reshaping and of the stack machine; `_refuted` |
| C30 | rpn_reshape | `_refuted` witnesses; invariant over the three passes |
| C31,C32,C44,C59 | id assignment, fill, cmon, temps, input types | list lemmas, evaluation |
| C33,C34 | entity select, ie and constructors of each entity | evaluation over R |
| C35 | crc32 | table = bitwise reference; invertibility of each byte step |
| C36,C37 | tuple, stack | lists; `_refuted` |
| C39,C40 | rpn_ctx constants, per-monomial functions | `_refuted` witnesses, correct fragments |
| C41 | to_string | injectivity of labels |
| C64 | to_string of programs | unique decodability of the text; a machine that reads only what is shown; `_refuted` |
| C65 | compute, rpn_dfa, mv operations | progress: an invariant on states that excludes every out-of-bounds access |
| C66 | rpn_reshape, compute | progress of both passes: a backward path through the nodes of the program, links of the nodes skipped, counters of the references |
| C43 | collate with explicit buffer | refinement buffer version = list version |
| C45 | & against Grassmann's meet (common factor of blades) | De Morgan, unit, associativity, graded commutativity of the meet; & = meet with a sign per grade |
| C46,C47 | pseudoscalar_inv, generic multivectors | sign formula, enumeration |
| C49 | literals | arithmetic modulo 2^32 and 2^64; names by computation over the finite tables |
| C60 | temporaries in null and natural basis | the change of basis is the identity on neutral temporaries; `_refuted` runs |
| C50-C52,C54,C56-C58,C61,C63 | whole runs of compute for all real inputs | symbolic evaluation of the model, then ring, field and Groebner bases (nsatz) |
| C67 | the benchmark's lambdas, its point type and expp | symbolic evaluation, Taylor bounds for all reals by the mean value theorem; `_refuted` |
| C68 | evaluation with rounding | relative perturbations (1-u)^n through every operation, counted per monomial; stored subexpressions carry an allowed error per cell, which grows through products, divisions and functions; Flocq for the format; `_refuted` run in doubles |
| C69 | capacity of compiled expressions | induction over lambdas with one lemma per operator: the reserved size is exact, the nodes fit |
| C70 | pointer-level iterators | refinement: loops with fuel equal the view traversal, by induction over the remaining distance; writes by invariants on the arrays |
| C71 | component access | case analysis over types; induction over stored blades for the change of the multivector |
| C72 | plane geometry in pga2 | symbolic execution of the compiled program for all real inputs, then field identities |
| C73,C74 | normalize and the rotor constructor with rounding | relative perturbations through sums of squares, roots and the two compiled programs of motor::normalize; ranges by monotonicity of rounding; `_refuted` |
| C75 | motor::log with rounding | as C73; the arc tangent does not increase relative errors (mean value theorem), whatever the quadrant; below the threshold it is Lipschitz in p2 |
| C53,C55 | exp, log | closed form shown to solve E' = BE; uniqueness by an energy estimate |

## Trusted base
* Coq's kernel, 8.16.1 (with the virtual machine, used by `vm_compute`).
* The fidelity of the hand-written model to the C++ text; each definition cites the lines it models. The code was not run.
* The axioms listed by `Print Assumptions`, all of the standard library:

  * No axioms ("Closed under the global context"), 167 theorems: every theorem not listed below.
  * `ClassicalDedekindReals.sig_forall_dec`, `ClassicalDedekindReals.sig_not_dec`, `Classical_Prop.classic`, `FunctionalExtensionality.functional_extensionality_dep`, 234 theorems: C03_gate_true_error_bound_partial, C05_pow_fractional, C05_pow_integral_partial, C05_pow_zero_refuted, C05_pow_zero_returns_base, C11_reverse_involutive, C11_reverse_of_product, C11_reverse_value, C12_double_dual_value, C12_dual_value, C14_sum_associates, C14_sum_commutes, C14_sum_value, C15_sum_proper, C16_exterior_product_associates, C16_geometric_product_associates, C16_product_value, C16_products_distribute, C17_product_proper, C19_equal_values_identical_objects, C19_zero_has_no_terms, C20_negate_value, C20_scale_value, C20_shift_value, C21_divide_by_a_sum_refuted, C21_divide_by_constant, C21_divide_by_fresh_indeterminate_partial, C21_divide_shared_indeterminate_refuted, C22_component_value, C22_extract_value, C23_select_grade_partial, C23_select_grade_refuted, C24_natural_then_null, C24_null_then_natural, C24_to_natural_basis_value, C24_to_null_basis_value, C29_code_agrees, C29_compute_algebraic_partial, C29_compute_code_agrees, C29_compute_general_partial, C29_compute_shared_partial, C29_symbolic_evaluation, C29_with_temporaries_partial, C32_division_by_minus_one_refuted, C32_marked_monomials, C32_monomial_negative_denominator_refuted, C32_monomials, C34_cga_point, C34_cga_point_round_trip, C34_line2_round_trip, C34_line_round_trip, C34_motor_round_trip, C34_pga2_point_refuted, C34_pga2_vector_blades, C34_pga2_vector_out_of_bounds, C34_pga2_vector_refuted, C34_pga_line, C34_pga_point_round_trip, C34_pga_rotor_partial, C34_pga_rotor_refuted, C34_pga_rotor_value, C34_pga_translator_moves, C34_pga_translator_partial, C34_pga_translator_refuted, C34_pga_translator_value, C34_pga_vector_intended, C34_pga_vector_out_of_bounds, C34_pga_vector_refuted, C34_plane_round_trip, C34_round_trip, C34_stored_blades, C34_vector_round_trip, C34_vga_point, C34_vga_point_as_pga_point, C34_vga_point_round_trip, C34_vga_rotor, C38_e_is_pi_refuted, C39_compute_literal_partial, C39_infinity_refuted, C39_origin_refuted, C39_point_minus_origin_refuted, C40_compute_function_partial, C40_conformal_function_lost_refuted, C42_compute_tuple_partial, C42_tuple_code_agrees, C43_collate_keeps_values, C44_reference_reads_back, C50_composition, C50_rotation, C50_sandwich, C51_join_coordinates_partial, C51_join_moment_refuted, C51_line_contains_partial, C51_line_contains_refuted, C51_line_square, C51_plucker_refuted, C52_join_three, C52_meet_three, C52_plane_point, C53_bivector_partial, C53_ideal_refuted, C53_line_partial, C53_unique, C53_vga_partial, C54_ideal, C54_normalize, C55_half_turn_refuted, C55_log_negative, C55_log_partial, C55_translation_refuted, C57_distance, C57_null, C58_every_motor, C58_rigid, C58_screw, C60_division_refuted, C60_overrun_refuted, C60_rotors, C60_spare_capacity_refuted, C60_temporaries_partial, C60_translation_refuted, C61_collinear, C61_coplanar, C61_dilation, C61_five_points, C61_rotation, C61_sphere, C61_translation, C61_weight_refuted, C62_multivector_partial, C63_circle, C63_join_motor, C63_reflection, C63_rotor, C63_rotor_plane, C63_torus, C63_translator, C63_translator_x, C65_applicable_stays_in_bounds_partial, C65_evaluation_stays_in_bounds, C65_right_or_arithmetic_error, C65_temporaries_stay_in_bounds_partial, C66_compute_by_cost_partial, C66_compute_right_or_arithmetic_error_partial, C66_general_right_or_arithmetic_error_partial, C66_shared_by_cost_partial, C66_shared_right_or_arithmetic_error_partial, C66_tuple_by_cost_partial, C66_tuple_right_or_arithmetic_error_partial, C67_angle_first, C67_axis, C67_composed, C67_cut_rotation, C67_exact_rotation, C67_exponential, C67_final, C67_first_rotor, C67_fourth_line, C67_fourth_tuple_refuted, C67_line_at, C67_line_literal, C67_line_refuted, C67_literals, C67_moved_axis, C67_moved_point, C67_point_xz, C67_point_xz_refuted, C67_point_xz_round_trip, C67_point_z, C67_point_z_same, C67_rotated_joint, C67_rotation, C67_second_axis, C67_second_tuple_refuted, C67_series, C67_t2_refuted, C67_t2_value, C67_third_tuple, C67_translation_refuted, C67_triple, C67_weight, C67_weight_refuted, C68_blade_error, C68_cancellation, C68_code_agrees, C68_component_error, C68_compute_partial, C68_compute_shared_partial, C68_functions, C68_ieee_integers, C68_ieee_rounds, C68_integers, C68_near_blade, C68_program, C68_relative_error_refuted, C68_root, C68_rotation, C68_shared, C68_steady, C68_temporaries_partial, C68_unrounded_agrees, C68_wedge_itself, C71_assignment, C71_cga_point, C71_pga_line, C72_incidence, C72_join, C72_line_square, C72_meet, C72_parallel, C72_perpendicular, C72_projection, C72_reflected_line, C72_reflection, C72_two_reflections, C73_motor, C73_motor_repeated, C73_motor_unit, C73_rotor_angle, C74_double_range, C74_ideal_motor, C74_range_refuted, C74_rotor_range, C74_single_range, C74_translator_range, C74_zero, C74_zero_axis, C75_angle, C75_formats, C75_half_turn, C75_half_turn_refuted, C75_log, C75_near_half_turn, C75_translation.
  * `ClassicalDedekindReals.sig_forall_dec`, `ClassicalDedekindReals.sig_not_dec`, `FunctionalExtensionality.functional_extensionality_dep`, 73 theorems: C25_add_partial, C25_add_to_zero_drops_scale_refuted, C25_adding_integer_zero_adds_one_refuted, C25_cancelled_sum_refuted, C25_denotation_is_what_the_machine_computes, C25_denotation_unique, C25_faithful_expressions_partial, C25_inner_scale_ignored_refuted, C25_leftover_summand_wrong_scale_refuted, C25_machine_deterministic, C26_binary_products, C26_exterior_partial, C26_sandwich_scale_refuted, C26_scalar_product_of_scalars_refuted, C26_scalar_product_partial, C26_symmetric_inner, C26_symmetric_inner_swapped_refuted, C26_wedge_drops_scale_refuted, C26_zero_times_x_refuted, C27_divide_by_expression, C27_divide_by_integer, C27_integer_over_expression_partial, C27_integer_over_expression_refuted, C27_negate, C27_scale, C28_dual_drops_scale_refuted, C28_dual_partial, C28_reverse_and_dual_drop_the_factor, C28_reverse_drops_scale_refuted, C28_reverse_partial, C30_nothing_moved_partial, C30_nothing_shared_partial, C30_references_miscounted_refuted, C30_reshape_partial, C30_scales_ignored_refuted, C30_temporaries_on_empty_stack_partial, C31_values_of_indeterminates, C38_pi, C40_function_of_expression_partial, C42_lengths_not_adjusted_refuted, C42_tuple, C42_tuple_reshaped_partial, C45_join_with_pseudoscalar, C45_join_with_pseudoscalar_refuted, C45_lambda_partial, C45_vee_drops_the_factors, C45_vee_factor_refuted, C45_vee_odd_dimension, C45_vee_partial, C48_operators_stay_in_bounds, C48_tuple_stays_in_bounds, C56_rotor, C56_translator, C56_vector, C56_zero, C58_screw_exp, C62_tuple, C62_zero_refuted, C64_checksums_hide_scales_refuted, C64_empty_inputs_refuted, C64_lambdas_partial, C64_text_value, C66_direct_partial, C66_reshape_succeeds_partial, C66_tuple_reshaped_partial, C67_norm, C67_norm_negative, C73_repeated, C73_rotor, C73_rotor_normalize, C73_translator, C73_unit_length, C73_vector.
  * `ClassicalDedekindReals.sig_forall_dec`, `FunctionalExtensionality.functional_extensionality_dep`, 21 theorems: C26_scalar_part_of_geometric_symmetric, C32_negative_denominator_refuted, C32_outer_factor, C32_zero_numerator_refuted, C33_select_is_coefficient, C33_select_many, C34_pga2_point_conversion, C34_pga2_point_conversion_refuted, C39_literals_partial, C45_meet_associative, C45_meet_de_morgan, C45_meet_graded_commutative, C45_meet_unit, C45_vee_associative_odd, C45_vee_associative_refuted, C49_inverse_pseudoscalar, C61_plane_through, C61_sphere_through, C67_point_xz_right, C71_entity_index, C71_select_assignment.
  * `ClassicalDedekindReals.sig_forall_dec`, 6 theorems: C30_two_summands, C33_blade_outside_the_algebra, C33_select, C62_factor_refuted, C71_index_beyond, C71_zero_and_scalar.
