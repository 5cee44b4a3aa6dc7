{"claims": [
{"property": "C01", "status": "proved", "theorems": ["C01_pool_is_a_set"], "note": "all operation trees"},
{"property": "C02", "status": "proved", "theorems": ["C02_iter_sorted_members"], "note": ""},
{"property": "C03", "status": "proved", "theorems": ["C03_subset", "C03_equality_extensional"], "note": ""},
{"property": "C04", "status": "proved", "theorems": ["C04_from"], "note": ""},
{"property": "C05", "status": "proved", "theorems": ["C05_labeled_set"], "note": ""},
{"property": "C06", "status": "proved", "theorems": ["C06_tuple_iter", "C06_size_zero_panics"], "note": "k = 0 panics"},
{"property": "C07", "status": "proved", "theorems": ["C07_count_ones"], "note": ""},
{"property": "C08", "status": "proved", "theorems": ["C08_euclid_div", "C08_euclid_div_width", "C08_zero_divisor_panics"], "note": ""},
{"property": "C09", "status": "proved", "theorems": ["C09_divides", "C09_zero_panics"], "note": ""},
{"property": "C10", "status": "proved", "theorems": ["C10_bezout"], "note": ""},
{"property": "C100", "status": "partial", "theorems": ["C104_boundary_flat", "C104_panics", "C100_refuted"], "note": "The claim is false of the code: on the H-shaped tree with three points the ranks are [1;6;1;0] (Euler characteristic -4), those of the configuration space [165;360;238;48] (-5); boundary_map panics as soon as there is a 2-cell (C104_panics)."},
{"property": "C101", "status": "partial", "theorems": ["C101_bound_partial", "C101_refuted"], "note": "The claim is false for u = 0: the bound is not looked at for the first factor and then never met again. Proved for u >= 1."},
{"property": "C102", "status": "proved", "theorems": ["C102_two_points"], "note": "C99_two_nontrivial is the witness (a critical 2-cell on a graph with two loops)."},
{"property": "C103", "status": "proved", "theorems": ["C103_base"], "note": "C100_boundary_nontrivial and C99_tree_nontrivial are witnesses."},
{"property": "C104", "status": "proved", "theorems": ["C104_boundary_flat", "C104_panics"], "note": "The two theorems cover both cases; witnesses C100_boundary_nontrivial and C99_two_nontrivial."},
{"property": "C105", "status": "proved", "theorems": ["C105_euler_two_points"], "note": "Proof by a sign-reversing involution on the non-critical pairs; witness C105_nontrivial."},
{"property": "C106", "status": "partial", "theorems": ["C106_new", "C106_eval", "C106_dense_eval", "C106_sparse_eval_partial", "C106_jacobian_partial", "C106_nonconstant_partial", "C106_refuted_constant", "C106_jacobian_panics"], "note": "holds whenever some partial derivative is not the function Zero; false otherwise: the Jacobian of a constant function is computed but evaluating it panics (C106_refuted_constant)"},
{"property": "C107", "status": "partial", "theorems": ["C107_positions", "C107_panics", "C107_distinct_partial", "C107_refuted_two", "C107_refuted_loop"], "note": "placement and panics are proved in general; the points are different only for 3 or more marked points and edges that are not loops: with 2 marked points the middle vertex is put on the end of its edge (C107_refuted_two), and the inner vertices of a loop on its vertex (C107_refuted_loop)"},
{"property": "C108", "status": "proved", "theorems": ["C108_integral", "C108_field"], "note": "The condition on the lowest boundary map (given as a 1 x n zero matrix by every caller) is necessary: euler_needs_augmentation. euler_rp2 and euler_circle meet the hypotheses."},
{"property": "C109", "status": "proved", "theorems": ["C109_quadratic", "C109_kernel"], "note": "Entries are real numbers instead of f64. negative_weight shows the sign condition is needed; two_parts_real meets the hypotheses."},
{"property": "C11", "status": "partial", "theorems": ["C11_gcd_no_overflow", "C11_bezout_nonneg_partial", "C11_bezout_half_range_partial", "C11_bezout_overflow_refuted"], "note": "full claim false: bezout_identity(2,-(2^63-1)) overflows i64; holds for nonnegative operands and for operands in half the range"},
{"property": "C110", "status": "partial", "theorems": ["C110_components_partial", "C110_connected_partial", "C110_exists", "C110_refuted"], "note": "The free rank is right and agrees with is_connected, and the cycles modulo boundaries are the free group of that rank; but the reported module need not be free: for the path 3-0-1-2 it carries the spurious divisor -1 (printed Z + Z_-1), because units of sign -1 are not dropped. At most 64 vertices as in C45."},
{"property": "C111", "status": "proved", "theorems": ["C111_module_text", "C111_modules", "C111_homology", "C111_lines"], "note": "Texts are byte lists; decimal numerals are Coq's. C111_lines gives the whole text, line by line."},
{"property": "C112", "status": "proved", "theorems": ["C112_text", "C112_printed_alike", "C112_exact"], "note": ""},
{"property": "C113", "status": "partial", "theorems": ["C113_text_partial", "C113_refuted"], "note": "False of the code: the negation of zero prints \"-0\". Holds for all programs that never negate zero."},
{"property": "C114", "status": "proved", "theorems": ["C114_cube_text", "C114_total", "C114_determined", "C114_sum_text", "C114_lines", "C114_integer_basis_ambiguous"], "note": "For cubes. The generic code is ambiguous for a basis of integers (C114_integer_basis_ambiguous); simplices have no Display. C114_sum_text and C114_lines give the exact texts."},
{"property": "C115", "status": "proved", "theorems": ["C115_graphs", "C115_lines", "C115_debug_text", "C115_debug"], "note": "C115_lines gives the exact text. C115_debug: the same for the Debug form."},
{"property": "C116", "status": "proved", "theorems": ["C116_text"], "note": "Connected graphs."},
{"property": "C117", "status": "partial", "theorems": ["C117_names_partial", "C117_refuted"], "note": "False for labels that look like the name of an inner vertex; holds when no label contains a parenthesis or a comma."},
{"property": "C118", "status": "partial", "theorems": ["C118_matrices_partial", "C118_refuted", "C118_lines"], "note": "False for matrices without rows (the number of columns does not show); holds otherwise. C118_lines gives the exact text of every well-formed matrix."},
{"property": "C119", "status": "proved", "theorems": ["C119_pools", "C119_text"], "note": "C119_text gives the exact text."},
{"property": "C12", "status": "partial", "theorems": ["C12_is_prime_partial", "C12_primes_accepted_partial", "C12_is_prime_refuted", "C12_n_prime_factors_partial"], "note": "full claim false: is_prime is true for every n other than 0 and 1 (exact behaviour proved)"},
{"property": "C120", "status": "proved", "theorems": ["C120_dot", "C120_product", "C120_entrywise", "C120_gam", "C120_no_overflow"], "note": "IEEE 754 binary64 with round to nearest even (Flocq)."},
{"property": "C121", "status": "proved", "theorems": ["C121_lu", "C121_total"], "note": "Entrywise backward error for the factors actually returned, with underflow."},
{"property": "C122", "status": "proved", "theorems": ["C122_solve"], "note": "Componentwise residual bound with underflow."},
{"property": "C123", "status": "partial", "theorems": ["C123_det", "C123_nan_refuted"], "note": "Positive part under the hypotheses of the statement; finiteness for every regular input is refuted (zero pivot, no pivoting)."},
{"property": "C124", "status": "proved", "theorems": ["C124_returns", "C124_nonfinite_panics", "C124_first_vertex"], "note": "IEEE 754 binary64 (Flocq)."},
{"property": "C125", "status": "partial", "theorems": ["C125_small_integers", "C125_flat", "C125_points", "C125_later_points_partial", "C125_overlap_refuted"], "note": "The circle test is proved right; the claim on disjoint triangles is false of the code at f64 (refuted with five integer points)."},
{"property": "C126", "status": "proved", "theorems": ["C126_euler", "C126_morse_two_points"], "note": "specification in GalSpec.v (formal power series, degrees counted on the edge list); cases with numbers C126_nontrivial, C126_morse_nontrivial"},
{"property": "C127", "status": "proved", "theorems": ["C127_connected", "C127_H0"], "note": "cells read off the built complex (cells_of_dim), incidence numbers from the specification; hypotheses met in C127_nontrivial (20 points configurations, 20x36 matrix)"},
{"property": "C128", "status": "proved", "theorems": ["C128_text", "C128_determines", "C128_morse_text", "C128_morse_determines"], "note": "exact text in ShowSpec2.v; bound 0 excluded for UdnMorseCplx (see C101); cases C128_nontrivial, C128_morse_nontrivial"},
{"property": "C129", "status": "partial", "theorems": ["C129_text", "C129_alike", "C129_size_refuted", "C129_panics"], "note": "Text and injectivity on entries proved whenever there is an entry. False of the code in full: the size is not shown (C129_size_refuted) and a matrix with rows but no entry panics (C129_panics, from C40_refuted_empty)."},
{"property": "C13", "status": "partial", "theorems": ["C13_canonical_partial", "C13_eq_is_numeric_equality", "C13_C14_u64_sound", "C13_two_zeros_refuted"], "note": "full claim false: -zero is a second zero; proved for every program that never applies unary minus to zero"},
{"property": "C130", "status": "partial", "theorems": ["C130_text", "C130_numbers", "C130_refuted"], "note": "Text proved for all label types; injective for numbers as labels; false for labels that contain the separator (C130_refuted)."},
{"property": "C131", "status": "partial", "theorems": ["C131_programs", "C131_undefined_only_if_empty", "C131_no_leak", "C131_empty_refuted", "C131_witness"], "note": "Programs refine the reference semantics of HeapSpec.v for every program (sizes below 2^16). False for matrices without entries: creating one from an empty view asks the allocator for zero bytes, which is undefined; this is the only undefined case."},
{"property": "C132", "status": "partial", "theorems": ["C131_programs", "C132_operators_refuted", "C132_from_array_refuted", "C132_leak_refuted", "C132_witness"], "note": "False: from_array, +, -, *, scalar multiples and row/column operations assign to uninitialised cells, which destroys values that do not exist; Drop never destroys the entries. Programs without those statements are sound except for the leak, whose exact size C131_programs gives."},
{"property": "C133", "status": "partial", "theorems": ["C133_views", "C133_matrices", "C133_view_matrix_refuted", "C133_witness"], "note": "Matrix with matrix and view with view are right; == of a view and a matrix calls itself and never returns."},
{"property": "C134", "status": "partial", "theorems": ["C134_exact", "C134_debug", "C134_enough_bits", "C134_release_agrees", "C134_panic_refuted", "C134_release_refuted"], "note": "Checked and wrapping w-bit arithmetic (SnfChkModel). Right whenever a debug build returns; false of the code: panics on small answers (C134_panic_refuted) and silent wrong results of a release build (C134_release_refuted)."},
{"property": "C135", "status": "partial", "theorems": ["C135_exact", "C135_debug", "C135_enough_bits", "C135_release_agrees", "C135_panic_refuted", "C135_release_refuted"], "note": "As C134, for the whole homology computation."},
{"property": "C136", "status": "proved", "theorems": ["C136_cell_counts", "C136_edges", "C136_low_dimensions"], "note": "FvecSpec.v: Pascal's triangle, the edges of a graph, matchings. C136_nontrivial: three points on a segment with a loop, 20, 36, 16, 2 cells."},
{"property": "C137", "status": "proved", "theorems": ["C137_first_boundary", "C137_homology", "C137_one_dimensional", "C137_one_point"], "note": "boundary_map itself returns empty lists of cells, so that IntegralHomology::new on a CubicalCplx panics (C55_refuted_integral_homology): the theorems are about the same matrices with lists of names of the right length. Exact integers. C137_nontrivial: one point on a graph with a double edge and a loop; two points on a star (21, 30, 9 cells; ranks 1, 1)."},
{"property": "C138", "status": "proved", "theorems": ["C138_euler", "C138_graph"], "note": "Exact integers; at most 64 vertices as in the statement (beyond that C45_refuted). C138_nontrivial: a triangle and a separate vertex."},
{"property": "C139", "status": "proved", "theorems": ["C139_snf", "C139_homology", "C139_graph", "C139_configurations", "C139_configurations_homology"], "note": "debug w and release w are the checked and the wrapping w-bit arithmetic of C134/C135; the theorems hold for all w >= 2."},
{"property": "C14", "status": "partial", "theorems": ["C14_arithmetic_partial", "C14_constants", "C13_C14_u64_sound", "C14_negated_zero_refuted"], "note": "full claim false only through negated zero; proved for all other programs"},
{"property": "C140", "status": "proved", "theorems": ["C140_isomorphic", "C140_reorder", "C140_canonical"], "note": "complexes on at most 64 vertices, the range in which attach keeps all cells (C45_refuted); exact integers; torsion is compared without units and signs because the code may list -1 and negative divisors (C43_refuted)"},
{"property": "C141", "status": "proved", "theorems": ["C141_cone", "C141_simplex"], "note": "at most 64 vertices (C45_refuted); exact integers; reported_divisors drops the spurious units that the code may list (C43_refuted)"},
{"property": "C142", "status": "proved", "theorems": ["C142_sphere", "C142_facets"], "note": "at most 64 vertices (C45_refuted); exact integers; reported_divisors drops the spurious units that the code may list (C43_refuted)"},
{"property": "C143", "status": "proved", "theorems": ["C143_collapse", "C143_collapses", "C143_collapsible"], "note": "The bound of 64 vertices is that of the bit sets of the code (see C45)."},
{"property": "C144", "status": "proved", "theorems": ["C144_text", "C144_determines", "C144_determines_variants", "C144_components", "C144_refuted_nested", "C144_refuted_empty"], "note": "The text of an f64 is a parameter: what is used of it is f64_display (AnaShowSpec.v). The condition on nested products is needed (C144_refuted_nested) and the operators keep it (flat_built). C144_refuted_empty shows that the text can be empty. C144_text gives the exact text."},
{"property": "C145", "status": "proved", "theorems": ["C145_union"], "note": "The complexes share at most one vertex; the chain complex of the union is split into the two parts, which meet in at most one 0-cell, and the quotient of cycles by boundaries is the direct sum. The numbering of the vertices is adjusted with C140. In degree 0 the statement requires disjoint complexes (a common vertex merges two components)."},
{"property": "C146", "status": "proved", "theorems": ["C146_two_norm", "C146_frobenius_norm", "C146_one_norm", "C146_inf_norm", "C146_const_dot", "C146_const_two_norm", "C146_no_overflow", "C146_const_no_overflow", "C146_nan_refuted", "C146_range_refuted"], "note": "norms at the type f64 with IEEE rounding (Flocq), real-number axioms of the standard library; NaN and the range are refuted by concrete values"},
{"property": "C147", "status": "proved", "theorems": ["C147_error", "C147_nearest", "C147_monotone", "C147_sign", "C147_order_refuted", "C147_zero_denominator_refuted"], "note": "IEEE 754 binary64 (Flocq), real-number axioms of the standard library"},
{"property": "C148", "status": "proved", "theorems": ["C148_laplacian", "C148_quadratic", "C148_row_sum_refuted"], "note": "IEEE 754 binary64 (Flocq), real-number axioms of the standard library"},
{"property": "C149", "status": "proved", "theorems": ["C149_products", "C149_dense_operand", "C149_infinite_refuted"], "note": "IEEE 754 binary64 (Flocq), real-number axioms of the standard library; the empty matrix panics as in C41_refuted_empty"},
{"property": "C15", "status": "partial", "theorems": ["C15_order_partial", "C15_compare_zeros_refuted", "C15_u64_sound"], "note": "comparing two zeros panics; all other pairs proved"},
{"property": "C150", "status": "proved", "theorems": ["C150_sum", "C150_product", "C150_laplacian", "C150_bound_refuted"], "note": "IEEE 754 binary64 (Flocq), real-number axioms of the standard library"},
{"property": "C151", "status": "proved", "theorems": ["C151_add_comm", "C151_transpose_product", "C151_gram", "C151_identity", "C151_add_assoc_refuted", "C151_infinite_refuted"], "note": "IEEE 754 binary64 (Flocq), real-number axioms of the standard library"},
{"property": "C152", "status": "proved", "theorems": ["C152_dominant", "C152_definite", "C152_weak_refuted"], "note": "Real numbers, exact arithmetic; real-number axioms of the standard library. The property covers the classes of matrices for which elimination without pivoting is commonly used; C73-C75 cover all matrices."},
{"property": "C153", "status": "proved", "theorems": ["C153_least_squares", "C153_ridge", "C153_dependent_refuted"], "note": "Real numbers, exact arithmetic; real-number axioms of the standard library."},
{"property": "C154", "status": "proved", "theorems": ["C154_envelope", "C154_band", "C154_triangular"], "note": "Every field, exact arithmetic; no axioms."},
{"property": "C155", "status": "proved", "theorems": ["C155_ldlt", "C155_sylvester", "C155_not_symmetric_refuted"], "note": "C155_ldlt: every field, no axioms. C155_sylvester: real numbers, exact arithmetic; real-number axioms of the standard library."},
{"property": "C156", "status": "proved", "theorems": ["C156_transpose", "C156_scale", "C156_block"], "note": "Every field, exact arithmetic; no axioms."},
{"property": "C157", "status": "proved", "theorems": ["C157_product", "C157_rows", "C157_finite_refuted"], "note": "Every field, exact arithmetic; no axioms."},
{"property": "C158", "status": "proved", "theorems": ["C158_cramer", "C158_unique"], "note": "Every field, exact arithmetic; no axioms."},
{"property": "C159", "status": "proved", "theorems": ["C159_inverse", "C159_linear"], "note": "Every field, exact arithmetic; no axioms."},
{"property": "C16", "status": "partial", "theorems": ["C16_sum_partial", "C16_sum_u64_sound", "C16_product_is_zero", "C16_product_refuted"], "note": "sum proved; product always yields zero"},
{"property": "C160", "status": "proved", "theorems": ["C160_regularised", "C160_singular", "C160_connected"], "note": "Real numbers, exact arithmetic; real-number axioms of the standard library."},
{"property": "C17", "status": "proved", "theorems": ["C17_cycle_action", "C17_cycle_rejects", "C17_cycle_equality", "C17_cycle_rotation"], "note": ""},
{"property": "C18", "status": "proved", "theorems": ["C18_product_is_composition"], "note": "for everything built through the API (swap of two empty ranges excepted, see C19)"},
{"property": "C19", "status": "partial", "theorems": ["C19_equality_extensional", "C19_empty_swap_refuted"], "note": "proved for all built values except the one returned by swap on two empty ranges, for which the claim is false"},
{"property": "C20", "status": "proved", "theorems": ["C20_bijection_support", "C20_from_disjoint_cycles"], "note": "same exception as C19"},
{"property": "C21", "status": "proved", "theorems": ["C21_inverse", "C21_group_laws"], "note": ""},
{"property": "C22", "status": "proved", "theorems": ["C22_generators"], "note": ""},
{"property": "C23", "status": "partial", "theorems": ["C23_power_partial", "C23_negative_power_is_identity", "C23_negative_power_refuted"], "note": "false for negative exponents: always the identity"},
{"property": "C24", "status": "proved", "theorems": ["C24_action", "C24_action_panics", "C24_action_of_product"], "note": ""},
{"property": "C25", "status": "partial", "theorems": ["C25_swap_partial", "C25_swap_reversed_partial", "C25_adjacent_reversed_refuted", "C25_one_empty_range_refuted"], "note": "false when the second range ends where the first starts, or one range is empty: panic or endless recursion"},
{"property": "C26", "status": "partial", "theorems": ["C26_const_product", "C26_vec_product", "C26_const_order", "C26_inverse_refuted", "C26_vec_order_refuted"], "note": "inverse of both table types returns zeros; VecPermutation::order does not terminate"},
{"property": "C27", "status": "partial", "theorems": ["C27_add", "C27_neg", "C27_sub", "C27_scale", "C27_no_panic", "C27_index", "C27_equality", "C27_built_canonical", "C27_from", "C27_laws", "C27_sum_partial", "C27_sum_refuted", "C27_from_refuted"], "note": "Proved for +,-,neg,scalar * with any exact arithmetic and any totally ordered basis. The claim is false for Sum of three or more vectors and for From<Vec> with repeated elements (refuted by witnesses); what does hold for Sum is proved."},
{"property": "C28", "status": "partial", "theorems": ["C28_merge_permutation", "C28_merge_sorted_partial", "C28_merge_sorted_refuted"], "note": "merge_by always permutes; sortedness is false in general (witness [5] with [1,2]) and proved when the second input has at most one item or the first is empty."},
{"property": "C29", "status": "partial", "theorems": ["C29_isomorphism_test_partial", "C29_isomorphism_sound", "C29_is_zero", "C29_isomorphism_refuted"], "note": "Decides isomorphism for divisor lists in invariant-factor form (uniqueness proved by counting quotients); false for arbitrary lists."},
{"property": "C30", "status": "proved", "theorems": ["C30_lossless", "C30_view_roundtrip", "C30_large_refuted"], "note": "Lossless for all sizes and strides below 2^16, as stated. Nothing in the code enforces that bound: C30_large_refuted shows a 1x65536 matrix is seen as 1x1."},
{"property": "C31", "status": "partial", "theorems": ["C31_reads", "C31_in_allocation", "C31_writes", "C31_no_aliasing", "C31_slice_refuted", "C31_empty_view_refuted"], "note": "All in-range reads and writes through any chain of sub-views and transposes are proved to hit exactly the reference entry, inside the allocation, without aliasing. Two memory-safety sub-claims are false: the intermediate slice reference spans more cells than the allocation, and an empty view past the last row is a pointer out of bounds."},
{"property": "C32", "status": "proved", "theorems": ["C32_add", "C32_sub", "C32_scale", "C32_mul", "C32_dot", "C32_transpose", "C32_constants", "C32_mismatch", "C32_eq", "C32_mul_assoc", "C32_mul_add", "C32_add_mul", "C32_mul_identity", "C32_transpose_mul"], "note": "Over any commutative ring of coefficients with exact arithmetic. Multiplying a 0-row or 0-column view with mismatched inner size is the one case not rejected (nothing is computed)."},
{"property": "C33", "status": "proved", "theorems": ["C33_swap_rows", "C33_swap_cols", "C33_row_operation", "C33_col_operation", "C33_elementary"], "note": ""},
{"property": "C34", "status": "proved", "theorems": ["C34_factors"], "note": "For every integer matrix of positive size (exact arithmetic): terminates, no panic, all debug assertions hold, R*M*C = D."},
{"property": "C35", "status": "proved", "theorems": ["C35_diagonal"], "note": ""},
{"property": "C36", "status": "proved", "theorems": ["C36_row_inverse"], "note": ""},
{"property": "C37", "status": "partial", "theorems": ["C37_col_invertible_partial", "C37_col_inverse_partial", "C37_before_divisibility_partial", "C37_col_inverse_refuted"], "note": "Claim is false: the last update of c_op_inv (line 1062) uses row_operation(s, r, w*y) instead of (r, s, w*y); witness diag(2,3). Proved: C is invertible, and the returned inverse is right up to the divisibility pass, and at the end when D has at most one nonzero entry or only units."},
{"property": "C38", "status": "partial", "theorems": ["C38_lower_bound_partial", "C38_rank_unique", "C38_refuted"], "note": "never panics, always a lower bound, exact when it reports full rank; false in general because pivot search starts at k+2 (matrix_impl.rs:1084,1091)"},
{"property": "C39", "status": "partial", "theorems": ["C39_rectangular", "C39_rejects_partial", "C39_ragged_refuted"], "note": "Rectangular arrays are proved faithful. Rejection of ragged arrays is false: arrays whose longer rows follow a shorter first row are silently truncated (the guard uses all instead of any)."},
{"property": "C40", "status": "partial", "theorems": ["C40_iter_partial", "C40_transpose", "C40_eq_partial", "C40_refuted_empty"], "note": "Holds whenever at least one entry is present. False for a matrix with no entry: the End sentinel pushed at sparse_matrix_impl.rs:104-107 makes binary_search_by panic (C40_refuted_empty), the opposite of what the comment there intends."},
{"property": "C41", "status": "partial", "theorems": ["C41_products_partial", "C41_transposed_partial", "C41_mismatch", "C41_refuted_empty"], "note": "All three products equal the dense product when both sparse factors have at least one entry (exact coefficients); with an empty factor they panic (C41_refuted_empty)."},
{"property": "C42", "status": "proved", "theorems": ["C42_vectors", "C42_matrices", "C42_constructors", "C42_laws"], "note": "all sizes and coefficient types with exact arithmetic; two_norm (f64) not modelled"},
{"property": "C43", "status": "partial", "theorems": ["C43_homology_partial", "C43_refuted"], "note": "no panic, reported module is ker/im, free rank formula, divisor chain; refuted in the detail that divisors equal to -1 (and negative ones) are reported, so a trivial group can be shown as nonzero; exact integers; complexes with zero-dimensional groups excluded (matrix constructors panic on empty sizes)"},
{"property": "C44", "status": "partial", "theorems": ["C44_upper_bound_partial", "C44_refuted"], "note": "never panics, reports at least the Betti number, exact iff the reported ranks are the ranks; false in general because of C38"},
{"property": "C45", "status": "partial", "theorems": ["C45_cells_partial", "C45_maximal_partial", "C45_invalid_partial", "C45_refuted"], "note": "Proved for every history of valid simplices on at most 64 vertices (any labels): the bases list exactly the (k+1)-subsets of attached simplices once each, maximal cells are an antichain of attached simplices. The unrestricted claim is false: C45_refuted exhibits a lost edge at 65 vertices (cells of different word counts are compared on the common prefix)."},
{"property": "C46", "status": "partial", "theorems": ["C46_entries_partial", "C46_boundary_squared_partial", "C46_homology_input_partial", "C46_empty_refuted"], "note": "Proved for all complexes on at most 64 vertices: every entry is the signed incidence, consecutive matrices multiply to zero, and the data is valid input for IntegralHomology (never panics). The empty complex panics (C46_empty_refuted); beyond 64 vertices C45_refuted already breaks the cell list."},
{"property": "C47", "status": "partial", "theorems": ["C47_count_partial", "C47_checked_partial", "C47_small_partial", "C47_refuted_at_21", "C47_refuted_overflow"], "note": "Complexes of at most 64 vertices. Over unbounded integers the count is exact; with checked u64/i64 arithmetic any value returned is exact, and a value is returned for at most 20 vertices (vertices plus maximal cells at most 63). The unconditional claim is refuted at 21 vertices: 21! overflows in an intermediate product. Release-mode wrapping is not modelled."},
{"property": "C48", "status": "proved", "theorems": ["C48_history", "C48_equality"], "note": "For every history of add_edge, remove_edge, swap and remove_edges_adjacent_to on a fresh graph: contains, n_edges, degree_of and the neighbour iterator answer as the abstract relation; a call panics exactly when its vertices are not two increasing numbers below n. RawSimpleGraph::new(0) panics. Equal answers imply equal graphs."},
{"property": "C49", "status": "partial", "theorems": ["C49_is_connected_partial", "C49_refuted_one_vertex"], "note": "Right for all graphs with at least two vertices; for the one-vertex graph (connected) the program answers false."},
{"property": "C50", "status": "partial", "theorems": ["C50_from", "C50_panics_refuted", "C50_up_to_multiplicity_partial", "C50_refuted_repeated_loop"], "note": "Vertices, multiplicities, loop and non-loop counts are right for every edge list that does not panic. The count up to multiplicity is right exactly without repeated loops; with repeated loops it is too small, and the call panics exactly when there are more loops than joined pairs (usize underflow)."},
{"property": "C51", "status": "partial", "theorems": ["C51_edges_partial", "C51_refuted_phantom_edge", "C51_one_vertex"], "note": "The iterator always yields (0,1) first, even if it is not an edge; all other edges come exactly once."},
{"property": "C52", "status": "proved", "theorems": ["C52_relabel", "C52_panics", "C52_product"], "note": "The action renames vertices, preserves the number of edges, panics exactly when the permutation moves a non-vertex, and is a left action."},
{"property": "C53", "status": "partial", "theorems": ["C53_tree_partial", "C53_panics_without_base_refuted", "C53_refuted_cycles"], "note": "Returns iff some vertex is a leaf or a branch vertex whose deletion leaves the rest connected; so it panics on connected graphs such as cycles. Otherwise: relabelled copy, unique smaller tree neighbour for every vertex but 0, every edge joins a vertex to a tree descendant, branches with a back edge come last."},
{"property": "C54", "status": "proved", "theorems": ["C54_from", "C54_laplacian"], "note": "Over any commutative ring of coefficients with exact arithmetic. A pair given twice keeps the last weight; an empty list or a loop panics."},
{"property": "C55", "status": "proved", "theorems": ["C55_cube_boundary", "C55_square_zero", "C55_boundary_map", "C55_panics", "C55_refuted_partial_order", "C55_partial_order_dim1", "C55_padd_total", "C55_refuted_integral_homology"], "note": "Cube::get_boundary gives each cell its incidence number, the boundary of the boundary vanishes, CubicalCplx::boundary_map gives the incidence matrices of the enumerated cells, consecutive ones multiplying to zero. Findings: with the derived field-wise PartialOrd, get_boundary panics for every cube of dimension >= 2 (refuted); boundary_map panics on a complex without cells; the lists of cells it returns are empty so integral homology of a cubical complex always panics."},
{"property": "C56", "status": "proved", "theorems": ["C56_cells_enumerated", "C56_refuted_phantom_edge", "C56_panics", "C56_udc"], "note": "udc lists every set of n pairwise disjoint closed cells exactly once (graphs in which 0 and 1 are adjacent, so every connected graph); a graph without that edge gets it as a phantom cell; panics characterised"},
{"property": "C57", "status": "partial", "theorems": ["C57_reduce_geodesic", "C57_reduce_decides", "C57_reduce_panics", "C57_inverse_partial", "C57_trivial_refuted", "C57_panics_refuted", "C57_evaluate", "C57_multiplicative", "C57_inverse_permutation"], "note": "literal claim false: the trivial result is [[]] (not equal to trivial_path() = []), and reduce_to_geodesic panics exactly when a proper non-empty prefix is trivial (characterised). Otherwise: p composed with its inverse reduces to [[]], reduction is the unique normal form of the partially commutative group, geodesic in edges and in steps, evaluation is multiplicative and invariant"},
{"property": "C58", "status": "proved", "theorems": ["C58_indices", "C58_empty_panics"], "note": "For every arithmetic (a record of operations without laws, so rounding and NaN are covered)."},
{"property": "C59", "status": "proved", "theorems": ["C59_add", "C59_sub", "C59_mul", "C59_div", "C59_neg", "C59_scalar", "C59_powers", "C59_sum_product", "C59_euclid_div", "C59_refuted_domain"], "note": "f64 is modelled by the reals of Coq's standard library (axioms listed in DESIGN.md), i32 exponents by unbounded integers. Wherever the operands have a value the result has the value of the operation; C59_refuted_domain shows the converse fails (a simplified result may be defined where an operand is not)."},
{"property": "C60", "status": "proved", "theorems": ["C60_partial_derivative", "C60_integer_powers", "C60_derivative_unique", "C60_refuted_zero_base", "C60_jacobian"], "note": "Over the reals. The derivative is computed for every function and is the partial derivative at every point where the function is defined and its non-integer powers have a positive base; at a zero of such a base the derivative has no value (C60_refuted_zero_base)."},
{"property": "C61", "status": "proved", "theorems": ["C61_change_of_basis"], "note": "exact integers"},
{"property": "C62", "status": "proved", "theorems": ["C62_cycles_basis"], "note": "exact integers; cells of each degree distinct"},
{"property": "C63", "status": "proved", "theorems": ["C63_boundaries_basis"], "note": "exact integers; cells of each degree distinct"},
{"property": "C64", "status": "partial", "theorems": ["C64_is_connected_partial", "C64_refuted"], "note": "Proved for complexes of at most 64 vertices; refuted at 65: on a star with 64 leaves the last edge is lost (cells of different word counts are compared on the common prefix) and is_connected answers false."},
{"property": "C65", "status": "partial", "theorems": ["C65_zero_skeleton_refuted", "C65_zero_skeleton_partial"], "note": "Holds for at most two labels; refuted for three or more (the constructor panics)."},
{"property": "C66", "status": "proved", "theorems": ["C66_subdivision", "C66_panics_refuted"], "note": "Full description of the returned graph. The panics are characterised: connected graphs without leaf and without non-separating vertex of degree three or more (a cycle, two cycles joined by an edge) panic."},
{"property": "C67", "status": "proved", "theorems": ["C67_paths", "C67_cycles", "C67_bound_reached"], "note": "Walks between different labels have at least m-1 edges (reached for m >= 3), cycles at least m+1."},
{"property": "C68", "status": "proved", "theorems": ["C68_circle_test"], "note": "Exact (real) arithmetic; Coq's axioms of the real numbers."},
{"property": "C69", "status": "proved", "theorems": ["C69_empty_circles", "C69_no_point_in_triangle", "C69_duplicates_unused"], "note": "Exact arithmetic."},
{"property": "C70", "status": "proved", "theorems": ["C70_interiors_disjoint"], "note": "Exact arithmetic."},
{"property": "C71", "status": "proved", "theorems": ["C71_complete", "C71_exact"], "note": "Exact arithmetic."},
{"property": "C72", "status": "proved", "theorems": ["C72_aux_outside", "C72_refuted_nonempty"], "note": "Exact arithmetic; the expectation that the hull is triangulated is refuted."},
{"property": "C73", "status": "proved", "theorems": ["C73_lu", "C73_panics"], "note": "Exact arithmetic over any field; None stands for a panic or a non-finite float."},
{"property": "C74", "status": "partial", "theorems": ["C74_det_partial", "C74_not_square", "C74_refuted"], "note": "The claim is false of the code: without pivoting a vanishing leading minor gives no finite result (C74_refuted); C74_det_partial is the exact characterisation."},
{"property": "C75", "status": "proved", "theorems": ["C75_solve", "C75_panics"], "note": "Exact arithmetic over any field. Finding: only the first column of b is solved for."},
{"property": "C76", "status": "proved", "theorems": ["C76_gram_schmidt", "C76_unique", "C76_panics"], "note": "Real numbers, exact arithmetic; None stands for a panic or a non-finite float."},
{"property": "C77", "status": "proved", "theorems": ["C77_gram_schmidt_without_normalize"], "note": "Real numbers, exact arithmetic."},
{"property": "C78", "status": "partial", "theorems": ["C78_householder_partial", "C78_refuted", "C78_bad_case", "C78_panics"], "note": "The claim is false of the code (sign of b when the tail is zero and the head negative): C78_refuted; C78_householder_partial proves it in every other case and C78_bad_case says what happens in this one."},
{"property": "C79", "status": "proved", "theorems": ["C79_givens", "C79_length"], "note": "Real numbers, exact arithmetic."},
{"property": "C80", "status": "partial", "theorems": ["C80_hessenberg_partial", "C80_spectrum", "C80_refuted", "C80_panics"], "note": "The similarity is false of the code: C80_refuted; C80_hessenberg_partial proves the shape for every square matrix and the similarity when the subdiagonal entries of the result but the last are not negative (the failing case is exactly a reflection that leaves a negative one)."},
{"property": "C81", "status": "proved", "theorems": ["C81_norms", "C81_triangle", "C81_submultiplicative", "C81_euclidean"], "note": "Real numbers, exact arithmetic."},
{"property": "C82", "status": "partial", "theorems": ["C82_spectrum_partial", "C82_triangular", "C82_two_by_two", "C82_panics", "C82_never_ends", "C82_refuted", "C82_values_refuted", "C82_double_panics", "C82_nonvacuous"], "note": "Full for upper triangular matrices and for 2x2 matrices whose lower entry is not taken for zero. In general the result is sorted, sums to the trace of the matrix qr ends with, and is exactly the set of its real eigenvalues when no subdiagonal entry lies strictly between 0 and 1e-11. The claims of termination, of exact values and about double eigenvalues are refuted."},
{"property": "C83", "status": "proved", "theorems": ["C83_lll", "C83_factors", "C83_terminates", "C83_short_vector", "C83_panics", "C83_dependent"], "note": "Real numbers, exact arithmetic (f64 rounding is not modelled)."},
{"property": "C84", "status": "partial", "theorems": ["C84_francis_partial", "C84_spectrum", "C84_op_identity", "C84_panics", "C84_refuted", "C84_op_refuted", "C84_nonvacuous"], "note": "The similarity is proved whenever the last but one subdiagonal entry of the result is not negative (unreduced input) or, for any Hessenberg input, when the shift column is no negative multiple of e_0 and all subdiagonal entries but the last are not negative. Without it the claim is refuted by [[1,-1,0],[1,1,-1],[0,1,1]] (trace 3 becomes 11). The operation returned by francis_step_with_op is proved to be the identity on every input, so the claim about it is refuted."},
{"property": "C85", "status": "partial", "theorems": ["C85_qr_partial", "C85_iteration", "C85_op_identity", "C85_panics", "C85_never_ends", "C85_refuted", "C85_op_refuted", "C85_op_panic_refuted", "C85_nonvacuous"], "note": "No panic (so the internal debug assertion holds), the form of the result and the iteration it comes from are proved for all inputs and numbers of iterations; an iteration keeps the trace unless the last but one subdiagonal entry of its window comes out negative. Termination is refuted, also for symmetric input, and so are both claims about qr_with_op."},
{"property": "C86", "status": "partial", "theorems": ["C86_tridiagonalization_partial", "C86_spectrum", "C86_fixed", "C86_refuted", "C86_panics", "C86_nonvacuous"], "note": "The full claim C86_claim is false of the code (C86_refuted: the trace of the path Laplacian goes from 6 to 22). Proved: no panic, symmetry and signs for every symmetric matrix of order >= 2; orthogonal similarity, trace and eigenvalues when every column stores a nonzero tail; fixed points; orders 0 and 1 panic."},
{"property": "C87", "status": "partial", "theorems": ["C87_orthogonal", "C87_accumulates_partial", "C87_refuted", "C87_panics", "C87_nonvacuous"], "note": "Orthogonality holds for every non-empty square matrix. The product identity is proved when every column stores a nonzero tail and refuted otherwise (C87_refuted)."},
{"property": "C88", "status": "partial", "theorems": ["C88_step_partial", "C88_spectrum", "C88_without_op", "C88_degenerate", "C88_panics", "C88_refuted"], "note": "The step is an exact orthogonal similarity by the returned rotations with the Wilkinson shift; B is tridiagonal if no rotation is skipped and nearly so (1e-12) always. C88_refuted: a 3x3 matrix whose bulge stays. Missing because false: exact tridiagonality; the degenerate corner gives 0/0."},
{"property": "C89", "status": "partial", "theorems": ["C89_symmetric_qr_partial", "C89_iterations", "C89_panics", "C89_op_panics", "C89_never_ends", "C89_refuted", "C89_op_refuted", "C89_window_refuted", "C89_nonvacuous"], "note": "The theorem gives everything claimed when the loop ends. Missing because false: termination (C89_refuted: an exact 2-cycle of a symmetric tridiagonal matrix of order 3; in f64 the matrix [[1,1e-9,0],[1e-9,-1,1e-9],[0,1e-9,0]] loops for ever as well), and the transformation returned with with_op=true (C89_op_refuted: diag(1,-1,1) for an input on which nothing is done; C89_window_refuted: the rotations of a window that starts behind the first row are applied to the rows from 0 on; C89_op_panics: order 2 always panics)."},
{"property": "C90", "status": "partial", "theorems": ["C90_spectrum_partial", "C90_split", "C90_never_ends", "C90_panics", "C90_tie", "C90_refuted", "C90_sum_refuted", "C90_nonvacuous"], "note": "The theorem gives everything claimed when the loop ends. Missing because false: the values are near the eigenvalues for every symmetric matrix (C90_refuted: an entry exactly equal to the tolerance; C90_sum_refuted: a negative entry in the first column, inherited from C86, trace 1 gives sum 9; C90_never_ends), and order 1 (C90_panics)."},
{"property": "C91", "status": "proved", "theorems": ["C91_random_orthogonal", "C91_panics", "C91_not_all_refuted", "C91_unit_vec", "C91_unit_vec_panics", "C91_nonvacuous"], "note": "Exact real arithmetic; the draws are arguments."},
{"property": "C92", "status": "partial", "theorems": ["C92_symmetric", "C92_sparse", "C92_wide_panics", "C92_tall_refuted", "C92_nonvacuous"], "note": "Proved for square matrices; the claim is false when there are more rows than columns (cells never initialised, C92_tall_refuted) and with more columns than rows the function panics."},
{"property": "C93", "status": "partial", "theorems": ["C93_invariant_space_partial", "C93_invariant_space_symmetric_partial", "C93_n_smallest_partial", "C93_n_th_partial", "C93_defined", "C93_exact_fails", "C93_triangular_refuted", "C93_split_refuted", "C93_residual", "C93_misses_refuted", "C93_constant_refuted", "C93_panics", "C93_nonvacuous"], "note": "The claim is false of the code (exact eigenvalues make solve divide by zero; vectors with sum zero are never found); the theorems say exactly when there is a result and what it is."},
{"property": "C94", "status": "proved", "theorems": ["C94_flow", "C94_blocked", "C94_property"], "note": "Flow edge, blocked, property: characterised for every arranged connected graph and every list of cells."},
{"property": "C95", "status": "proved", "theorems": ["C95_flow", "C95_settles", "C95_subdivided", "C95_base"], "note": "Flow of points terminates in one settled configuration; {0..n-1} when the tree has an unbranched start, which subdivided graphs are proved to have."},
{"property": "C96", "status": "proved", "theorems": ["C96_edge_path", "C96_loop", "C96_base_path", "C96_panics"], "note": "No panic, geodesic, loop at the base configuration, permutation."},
{"property": "C97", "status": "partial", "theorems": ["C97_matching_partial", "C97_low", "C97_refuted", "C97_edge_refuted"], "note": "The claim is false of the code: is_disrespected_by accepts any vertex between the ends, so a redundant cell can have a critical partner (three points on an H-shaped tree), or one collapsible at another edge. Proved: the pairing for cells whose other factors lie on one side of the edge, which covers all redundant 0-cells and collapsible 1-cells."},
{"property": "C98", "status": "proved", "theorems": ["C98_cells"], "note": "Totality, no duplicates, configurations, sorted, ranks and dimension."},
{"property": "C99", "status": "partial", "theorems": ["C99_complete_partial", "C99_sound_partial", "C99_tree_partial", "C99_refuted", "C99_extra_refuted", "C99_one_point_refuted"], "note": "The claim is false of the code: three points, a critical 2-cell that is not listed, and a listed 1-cell that is redundant; one point, a listed 1-cell that is collapsible. Proved: every critical cell with at most one edge or with edges only is listed; listed cells with at most one edge are critical when leaves are far enough from the starts of critical edges (always on trees: iff); for two points see C102."}
]}
