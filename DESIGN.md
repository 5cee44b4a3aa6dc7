# Formal model of shunski/toppo in Rocq (Coq 8.16.1)

## Method

* Each Rust function is modelled by a total Gallina function in `rocq/theories/<Area>Model.v`; every definition cites the file and
  lines it models and names its simplifications.  `&mut self` methods return the new value.  Panics of a debug build (explicit
  `panic!`, failed `assert!`, index out of range, `usize` underflow, `unwrap` of `None`, division by zero, integer overflow where
  widths are modelled) are `None`.  Loops that are not structurally bounded run on fuel, and running out of it is `None` too: a theorem
  that says a call returns `Some` also says that the fuel suffices.
* `<Area>Spec.v` holds the vocabulary of the property (subsets, determinants, walks, cycles, derivatives, circumscribed circles, …), without
  reference to the model.  `<Area>Proofs*.v` are lemmas, `<Area>Props*.v` the property theorems named after the property (`C17_…`),
  each followed by `Print Assumptions` and by an `Example` on a concrete non-trivial case.
* Where the unchanged code violates a property, a `…_refuted…` theorem proves the negation with a witness, and the strongest positive
  statement found is proved beside it (`_partial` in its name when it is the property on a restricted domain).
* `seeded/LOG.jsonl` records the wrong programs tried against the theorems: the edit of a model definition, the claim that it breaks,
  the theorems whose proofs fail.  For each edit every theorem of the affected files is re-run with the original proof script.

## Trusted base

* Coq's kernel (8.16.1, `coqc`; `vm_compute` is used in examples and witnesses).
* Axioms, as listed by the `Print Assumptions` below each theorem.  All theorems are "Closed under the global context", except those about
  real numbers: C59, C60, C144 (smooth functions), C68–C72 (plane geometry) and the numerical linear algebra (C73 and later where the
  statement mentions `R`).  These use axioms of Coq's standard library only: `ClassicalDedekindReals.sig_not_dec`,
  `ClassicalDedekindReals.sig_forall_dec`, `FunctionalExtensionality.functional_extensionality_dep` (all three come with
  `Coq.Reals`) and `Classical_Prop.classic`.  C58 has no axiom.
* Besides Coq's standard library, only C120 and later theorems on floating-point numbers use a library: Flocq (its IEEE 754 binary64 numbers and rounding
  lemmas).  Flocq declares no axiom; those theorems list the four axioms above.
* The model is linked to the Rust code by reading only.  In particular: the meaning given to standard library functions
  (`Vec`, `sort`, `binary_search_by`, iterators, `Rc`, hash maps) is written into the models, and `num::integer::gcd` (an external crate) is
  taken to be the mathematical gcd with `gcd(0,0) = 0`.

## What is modelled

| Crate, file | Model | Not modelled |
|---|---|---|
| util/src/lib.rs | UtilModel: `bitwise`, `BinaryPool`, `LabeledSet`, `TupleIterator`; ShowModel, ShowModel2 (`Debug` of pools, `Display` of `LabeledSet`) | |
| alg/src/commutative.rs | PidModel: `PID` of the integers, gcd, Bezout, with unbounded or w-bit checked arithmetic | `PID` of `f64` and of complex numbers |
| alg/src/commutative/rational_impl.rs | RationalModel: all operators, with unbounded or u64 checked arithmetic; RatFloatModel (`Into<f64>`); ShowModel (`Display`) | the macro |
| alg/src/non_commutative*.rs | PermModel: `Cycle`, `Permutation`, `ConstPermutation`, `VecPermutation`, group actions; ShowModel (`Display`) | |
| alg/src/lin_alg.rs | LinModel: `Vector`, `Merge`, `Module` (GVec in AnaModel for other coefficients); ShowModel (`Display`) | |
| alg/src/lin_alg/matrix_impl.rs 1–333 | ViewModel: fat pointers, views, reads and writes on an explicit memory | — |
| alg/src/lin_alg/matrix_impl.rs 126–188, 332–400, 487–541, 559–748, 800–816 (memory) | HeapModel: allocation, uninitialised cells, assignment and `ptr::write`, destructors of entries, `Drop`, comparison; programs of matrix statements | unwinding after a panic, exhaustion of memory, aliasing of the intermediate slice references (C31_slice_refuted) |
| alg/src/lin_alg/matrix_impl.rs 334–1133 | MatModel, SnfModel (exact), SnfChkModel (Smith form and homology with w-bit arithmetic, checked or wrapping), RankModel, HomModel (`Matrix * Vec<Basis>`) | random constructors |
| alg/src/lin_alg/matrix_impl.rs 1134–2190 | NumModel (Gram–Schmidt, LLL, Householder, Givens, Hessenberg form, norms), LuModel (dominant and definite matrices in DomLuProps, normal equations in LeastSqProps, band and triangular matrices in BandLuProps, symmetric ones in SylvProps, laws of `det` in DetLawProps and DetMulProps, Cramer's rule in CramerProps, `solve` as a linear map in SolveLawProps), FloatModel (the dense matrices, `lu`, `det`, `solve` at IEEE 754 binary64; integers stored as f64 in IntFloatProps, laws in GramFloatProps), NormFloatModel (the norms at binary64), FrancisModel (Francis steps, `qr`, `spectrum`), TriModel, WilkModel, RandModel (also 690–714), InvIterModel (symmetric eigenvalue code, random matrices, eigenvectors) ; ShowModel (`Display`, integer entries) | convergence speed, `Display` of floats |
| alg/src/lin_alg/sparse_matrix_impl.rs | SparseModel (the products at binary64 in SparseFloatProps); ShowModel2 (`Display`, integer entries) | |
| alg/src/lin_alg/const_matrix_impl.rs | ConstModel | |
| topo_spaces/src/lib.rs | HomModel: both homology computations | the descriptions as strings |
| topo_spaces/src/simplicial | SimpModel: cells, complexes, boundary maps | macros |
| topo_spaces/src/graph.rs | GraphModel (`RawSimpleGraph`, maximal tree), LabGraphModel (`Graph`, `SimpleGraph`, `WeightedSimpleGraph`; the Laplacian at binary64 in LapFloatProps, elimination on it in GroundProps), CubeModel (`CubeFactor`), EmbedModel (`modify_embedding`), ShowModel, ShowModel2 (`Display`, `Debug`) | macros, drawing |
| topo_spaces/src/cubical.rs | CubeModel (`CubicalCplx`, `Cube`), CubePartialModel, EdgePathModel (`EdgePath`), MorseModel (`Cube::property`, `flow`, `get_ends`; `CubeFactor::flow`, `is_blocked`; edge paths of graph.rs 357–435) , MorseCplxModel (`UdnMorseCplx` construction, `get_cells_of_dim`, `boundary_map`) ; ShowModel2 (`Display` of both complexes) | `generate_path` (never called) |
| analysis/src/lib.rs | AnaModel: `AtomicSmoothFn` over the reals; MvModel: `MultiVarFn`, its Jacobian, `eval` of matrices of functions; AnaShowModel (`Display`) | the text of an `f64` (a parameter) |
| geom/src/lib.rs | GeomModel: `Triangle`, `delaunay_triangulation`, any arithmetic or the reals; GeomFloatModel (at IEEE 754 binary64) | drawing in tests |

General simplifications: `usize` is unbounded above except where a theorem is about overflow; integer matrices and formal sums use exact
integers (w-bit ones in C134, C135); `f64` is an unconstrained record of operations (C58), IEEE 754 binary64 with
rounding, infinities and NaN (C120–C125), or the real numbers (everywhere else; no rounding, NaN or infinity).  Release-mode
wrapping is modelled for the Smith normal form and homology only (C134, C135).  Not done: rounding errors of the
other floating-point numerics.  Not expressible here: convergence speed of the iterative
eigenvalue routines, and randomness.


## Properties: what is modelled and what is proved

Statements are in `properties.jsonl`; `rocq/theories/*Props*.v` holds the theorems. "partial" means that the property as first
written down is false of the code or is proved on a restricted domain; the note says which, and a `_refuted` theorem gives the witness.

| Property | Status | Theorems | Note |
|---|---|---|---|
| C01 BinaryPool behaves like a finite set of indices | proved | `C01_pool_is_a_set` | all operation trees |
| C02 BinaryPool iteration is the sorted list of members | proved | `C02_iter_sorted_members` |  |
| C03 BinaryPool subset test and equality are extensional | proved | `C03_subset`, `C03_equality_extensional` |  |
| C04 BinaryPool::from accepts exactly in-range indices | proved | `C04_from` |  |
| C05 LabeledSet behaves like a set of labels | proved | `C05_labeled_set` |  |
| C06 tuple_iter enumerates every k-combination once, in lexicographic order | proved | `C06_tuple_iter`, `C06_size_zero_panics` | k = 0 panics |
| C07 count_ones is the population count | proved | `C07_count_ones` |  |
| C08 Integer euclid_div is Euclidean division | proved | `C08_euclid_div`, `C08_euclid_div_width`, `C08_zero_divisor_panics` |  |
| C09 divides decides divisibility | proved | `C09_divides`, `C09_zero_panics` |  |
| C10 bezout_identity returns the gcd and Bezout coefficients | proved | `C10_bezout` |  |
| C100 The complex of critical cells has the homology of the configuration space | partial | `C104_boundary_flat`, `C104_panics`, `C100_refuted` | The claim is false of the code: on the H-shaped tree with three points the ranks are [1;6;1;0] (Euler characteristic -4), those of the configuration space [165;360;238;48] (-5); boundary_map panics as soon as there is a 2-cell (C104_panics). |
| C101 The bound on the dimension is respected | partial | `C101_bound_partial`, `C101_refuted` | The claim is false for u = 0: the bound is not looked at for the first factor and then never met again. Proved for u >= 1. |
| C102 For two points the complex of critical cells lists exactly the critical cells | proved | `C102_two_points` | C99_two_nontrivial is the witness (a critical 2-cell on a graph with two loops). |
| C103 The complex of critical cells has exactly one 0-cell, the points at the base | proved | `C103_base` | C100_boundary_nontrivial and C99_tree_nontrivial are witnesses. |
| C104 boundary_map of the complex of critical cells: zero in dimension at most one, panic otherwise | proved | `C104_boundary_flat`, `C104_panics` | The two theorems cover both cases; witnesses C100_boundary_nontrivial and C99_two_nontrivial. |
| C105 For two points the complex of critical cells has the Euler characteristic of the configuration space | proved | `C105_euler_two_points` | Proof by a sign-reversing involution on the non-critical pairs; witness C105_nontrivial. |
| C106 Vector-valued smooth functions and their sparse Jacobians | partial | `C106_new`, `C106_eval`, `C106_dense_eval`, `C106_sparse_eval_partial`, `C106_jacobian_partial`, `C106_nonconstant_partial`, `C106_refuted_constant`, `C106_jacobian_panics` | holds whenever some partial derivative is not the function Zero; false otherwise: the Jacobian of a constant function is computed but evaluating it panics (C106_refuted_constant) |
| C107 Placing a subdivided graph in space | partial | `C107_positions`, `C107_panics`, `C107_distinct_partial`, `C107_refuted_two`, `C107_refuted_loop` | placement and panics are proved in general; the points are different only for 3 or more marked points and edges that are not loops: with 2 marked points the middle vertex is put on the end of its edge (C107_refuted_two), and the inner vertices of a loop on its vertex (C107_refuted_loop) |
| C108 Euler-Poincare: homology has the Euler characteristic of the complex | proved | `C108_integral`, `C108_field` | The condition on the lowest boundary map (given as a 1 x n zero matrix by every caller) is necessary: euler_needs_augmentation. euler_rp2 and euler_circle meet the hypotheses. |
| C109 Quadratic form and kernel of the graph Laplacian | proved | `C109_quadratic`, `C109_kernel` | Entries are real numbers instead of f64. negative_weight shows the sign condition is needed; two_parts_real meets the hypotheses. |
| C11 bezout_identity never overflows on in-range inputs | partial | `C11_gcd_no_overflow`, `C11_bezout_nonneg_partial`, `C11_bezout_half_range_partial`, `C11_bezout_overflow_refuted` | full claim false: bezout_identity(2,-(2^63-1)) overflows i64; holds for nonnegative operands and for operands in half the range |
| C110 H_0 of a simplicial complex counts its connected components | partial | `C110_components_partial`, `C110_connected_partial`, `C110_exists`, `C110_refuted` | The free rank is right and agrees with is_connected, and the cycles modulo boundaries are the free group of that rank; but the reported module need not be free: for the path 3-0-1-2 it carries the spurious divisor -1 (printed Z + Z_-1), because units of sign -1 are not dropped. At most 64 vertices as in C45. |
| C111 The printed homology determines the homology | proved | `C111_module_text`, `C111_modules`, `C111_homology`, `C111_lines` | Texts are byte lists; decimal numerals are Coq's. C111_lines gives the whole text, line by line. |
| C112 Permutations print in cycle notation, printed alike means act alike | proved | `C112_text`, `C112_printed_alike`, `C112_exact` |  |
| C113 Printed rationals determine and are determined by the number | partial | `C113_text_partial`, `C113_refuted` | False of the code: the negation of zero prints "-0". Holds for all programs that never negate zero. |
| C114 The description of cycles and boundaries is complete and unambiguous | proved | `C114_cube_text`, `C114_total`, `C114_determined`, `C114_sum_text`, `C114_lines`, `C114_integer_basis_ambiguous` | For cubes. The generic code is ambiguous for a basis of integers (C114_integer_basis_ambiguous); simplices have no Display. C114_sum_text and C114_lines give the exact texts. |
| C115 The printed simple graph determines the graph | proved | `C115_graphs`, `C115_lines`, `C115_debug_text`, `C115_debug` | C115_lines gives the exact text. C115_debug: the same for the Debug form. |
| C116 The printed subdivided graph lists every vertex and every edge once | proved | `C116_text` | Connected graphs. |
| C117 Vertices of a subdivided graph have different names | partial | `C117_names_partial`, `C117_refuted` | False for labels that look like the name of an inner vertex; holds when no label contains a parenthesis or a comma. |
| C118 The printed integer matrix determines the matrix | partial | `C118_matrices_partial`, `C118_refuted`, `C118_lines` | False for matrices without rows (the number of columns does not show); holds otherwise. C118_lines gives the exact text of every well-formed matrix. |
| C119 The debug text of a BinaryPool determines it | proved | `C119_pools`, `C119_text` | C119_text gives the exact text. |
| C12 is_prime decides primality | partial | `C12_is_prime_partial`, `C12_primes_accepted_partial`, `C12_is_prime_refuted`, `C12_n_prime_factors_partial` | full claim false: is_prime is true for every n other than 0 and 1 (exact behaviour proved) |
| C120 Rounding error of dense f64 products | proved | `C120_dot`, `C120_product`, `C120_entrywise`, `C120_gam`, `C120_no_overflow` | IEEE 754 binary64 with round to nearest even (Flocq). |
| C121 Backward error of lu at f64 | proved | `C121_lu`, `C121_total` | Entrywise backward error for the factors actually returned, with underflow. |
| C122 Residual of solve at f64 | proved | `C122_solve` | Componentwise residual bound with underflow. |
| C123 det at f64 is near the determinant of a near matrix | partial | `C123_det`, `C123_nan_refuted` | Positive part under the hypotheses of the statement; finiteness for every regular input is refuted (zero pivot, no pivoting). |
| C124 Triangulation at f64 returns or panics as it should | proved | `C124_returns`, `C124_nonfinite_panics`, `C124_first_vertex` | IEEE 754 binary64 (Flocq). |
| C125 Rounded circle test is right off the circle for small integers; triangles of the result do not overlap | partial | `C125_small_integers`, `C125_flat`, `C125_points`, `C125_later_points_partial`, `C125_overlap_refuted` | The circle test is proved right; the claim on disjoint triangles is false of the code at f64 (refuted with five integer points). |
| C126 The configuration complex has Gal's Euler characteristic | proved | `C126_euler`, `C126_morse_two_points` | specification in GalSpec.v (formal power series, degrees counted on the edge list); cases with numbers C126_nontrivial, C126_morse_nontrivial |
| C127 The configuration complex of a connected graph is connected | proved | `C127_connected`, `C127_H0` | cells read off the built complex (cells_of_dim), incidence numbers from the specification; hypotheses met in C127_nontrivial (20 points configurations, 20x36 matrix) |
| C128 A printed configuration complex lists every cell once and determines the cells | proved | `C128_text`, `C128_determines`, `C128_morse_text`, `C128_morse_determines` | exact text in ShowSpec2.v; bound 0 excluded for UdnMorseCplx (see C101); cases C128_nontrivial, C128_morse_nontrivial |
| C129 The printed sparse matrix determines the entries | partial | `C129_text`, `C129_alike`, `C129_size_refuted`, `C129_panics` | Text and injectivity on entries proved whenever there is an entry. False of the code in full: the size is not shown (C129_size_refuted) and a matrix with rows but no entry panics (C129_panics, from C40_refuted_empty). |
| C13 Rational values are in canonical form | partial | `C13_canonical_partial`, `C13_eq_is_numeric_equality`, `C13_C14_u64_sound`, `C13_two_zeros_refuted` | full claim false: -zero is a second zero; proved for every program that never applies unary minus to zero |
| C130 A printed LabeledSet lists its members; printed alike means same members | partial | `C130_text`, `C130_numbers`, `C130_refuted` | Text proved for all label types; injective for numbers as labels; false for labels that contain the separator (C130_refuted). |
| C131 Matrix memory is safe for plain entries | partial | `C131_programs`, `C131_undefined_only_if_empty`, `C131_no_leak`, `C131_empty_refuted`, `C131_witness` | Programs refine the reference semantics of HeapSpec.v for every program (sizes below 2^16). False for matrices without entries: creating one from an empty view asks the allocator for zero bytes, which is undefined; this is the only undefined case. |
| C132 Matrix memory is safe for entries with a destructor | partial | `C131_programs`, `C132_operators_refuted`, `C132_from_array_refuted`, `C132_leak_refuted`, `C132_witness` | False: from_array, +, -, *, scalar multiples and row/column operations assign to uninitialised cells, which destroys values that do not exist; Drop never destroys the entries. Programs without those statements are sound except for the leak, whose exact size C131_programs gives. |
| C133 Comparing matrices and views | partial | `C133_views`, `C133_matrices`, `C133_view_matrix_refuted`, `C133_witness` | Matrix with matrix and view with view are right; == of a view and a matrix calls itself and never returns. |
| C134 Smith normal form on machine integers | partial | `C134_exact`, `C134_debug`, `C134_enough_bits`, `C134_release_agrees`, `C134_panic_refuted`, `C134_release_refuted` | Checked and wrapping w-bit arithmetic (SnfChkModel). Right whenever a debug build returns; false of the code: panics on small answers (C134_panic_refuted) and silent wrong results of a release build (C134_release_refuted). |
| C135 Integral homology on machine integers | partial | `C135_exact`, `C135_debug`, `C135_enough_bits`, `C135_release_agrees`, `C135_panic_refuted`, `C135_release_refuted` | As C134, for the whole homology computation. |
| C136 The numbers of cells of the configuration complex | proved | `C136_cell_counts`, `C136_edges`, `C136_low_dimensions` | FvecSpec.v: Pascal's triangle, the edges of a graph, matchings. C136_nontrivial: three points on a segment with a loop, 20, 36, 16, 2 cells. |
| C137 Homology of the configuration complex | proved | `C137_first_boundary`, `C137_homology`, `C137_one_dimensional`, `C137_one_point` | boundary_map itself returns empty lists of cells, so that IntegralHomology::new on a CubicalCplx panics (C55_refuted_integral_homology): the theorems are about the same matrices with lists of names of the right length. Exact integers. C137_nontrivial: one point on a graph with a double edge and a loop; two points on a star (21, 30, 9 cells; ranks 1, 1). |
| C138 Euler characteristic and Betti numbers of simplicial complexes as reported | proved | `C138_euler`, `C138_graph` | Exact integers; at most 64 vertices as in the statement (beyond that C45_refuted). C138_nontrivial: a triangle and a separate vertex. |
| C139 Smith form and homology of graphs never overflow | proved | `C139_snf`, `C139_homology`, `C139_graph`, `C139_configurations`, `C139_configurations_homology` | debug w and release w are the checked and the wrapping w-bit arithmetic of C134/C135; the theorems hold for all w >= 2. |
| C14 Rational arithmetic agrees with the field Q | partial | `C14_arithmetic_partial`, `C14_constants`, `C13_C14_u64_sound`, `C14_negated_zero_refuted` | full claim false only through negated zero; proved for all other programs |
| C140 Isomorphic simplicial complexes get the same homology report | proved | `C140_isomorphic`, `C140_reorder`, `C140_canonical` | complexes on at most 64 vertices, the range in which attach keeps all cells (C45_refuted); exact integers; torsion is compared without units and signs because the code may list -1 and negative divisors (C43_refuted) |
| C141 Cones and single simplices are reported as a point | proved | `C141_cone`, `C141_simplex` | at most 64 vertices (C45_refuted); exact integers; reported_divisors drops the spurious units that the code may list (C43_refuted) |
| C142 The surface of a simplex is reported as a sphere | proved | `C142_sphere`, `C142_facets` | at most 64 vertices (C45_refuted); exact integers; reported_divisors drops the spurious units that the code may list (C43_refuted) |
| C143 An elementary collapse does not change the homology report | proved | `C143_collapse`, `C143_collapses`, `C143_collapsible` | The bound of 64 vertices is that of the bit sets of the code (see C45). |
| C144 A printed smooth function determines its values | proved | `C144_text`, `C144_determines`, `C144_determines_variants`, `C144_components`, `C144_refuted_nested`, `C144_refuted_empty` | The text of an f64 is a parameter: what is used of it is f64_display (AnaShowSpec.v). The condition on nested products is needed (C144_refuted_nested) and the operators keep it (flat_built). C144_refuted_empty shows that the text can be empty. C144_text gives the exact text. |
| C145 The homology of a union with at most one common vertex is the direct sum | proved | `C145_union` | The complexes share at most one vertex; the chain complex of the union is split into the two parts, which meet in at most one 0-cell, and the quotient of cycles by boundaries is the direct sum. The numbering of the vertices is adjusted with C140. In degree 0 the statement requires disjoint complexes (a common vertex merges two components). |
| C146 Norms at f64 with rounding | proved | `C146_two_norm`, `C146_frobenius_norm`, `C146_one_norm`, `C146_inf_norm`, `C146_const_dot`, `C146_const_two_norm`, `C146_no_overflow`, `C146_const_no_overflow`, `C146_nan_refuted`, `C146_range_refuted` | norms at the type f64 with IEEE rounding (Flocq), real-number axioms of the standard library; NaN and the range are refuted by concrete values |
| C147 Conversion of Rational to f64 | proved | `C147_error`, `C147_nearest`, `C147_monotone`, `C147_sign`, `C147_order_refuted`, `C147_zero_denominator_refuted` | IEEE 754 binary64 (Flocq), real-number axioms of the standard library |
| C148 The Laplacian of an f64-weighted graph | proved | `C148_laplacian`, `C148_quadratic`, `C148_row_sum_refuted` | IEEE 754 binary64 (Flocq), real-number axioms of the standard library |
| C149 Sparse products of f64 matrices equal the dense product bit for bit | proved | `C149_products`, `C149_dense_operand`, `C149_infinite_refuted` | IEEE 754 binary64 (Flocq), real-number axioms of the standard library; the empty matrix panics as in C41_refuted_empty |
| C15 Rational ordering agrees with Q | partial | `C15_order_partial`, `C15_compare_zeros_refuted`, `C15_u64_sound` | comparing two zeros panics; all other pairs proved |
| C150 Integer matrices stored as f64 are computed with exactly | proved | `C150_sum`, `C150_product`, `C150_laplacian`, `C150_bound_refuted` | IEEE 754 binary64 (Flocq), real-number axioms of the standard library |
| C151 Which laws of matrix arithmetic survive rounding | proved | `C151_add_comm`, `C151_transpose_product`, `C151_gram`, `C151_identity`, `C151_add_assoc_refuted`, `C151_infinite_refuted` | IEEE 754 binary64 (Flocq), real-number axioms of the standard library |
| C152 LU, determinant and solve on diagonally dominant and positive definite matrices | proved | `C152_dominant`, `C152_definite`, `C152_weak_refuted` | Real numbers, exact arithmetic; real-number axioms of the standard library. The property covers the classes of matrices for which elimination without pivoting is commonly used; C73-C75 cover all matrices. |
| C153 Least squares and ridge regression by the normal equations | proved | `C153_least_squares`, `C153_ridge`, `C153_dependent_refuted` | Real numbers, exact arithmetic; real-number axioms of the standard library. |
| C154 LU keeps the band of a matrix and leaves triangular matrices alone | proved | `C154_envelope`, `C154_band`, `C154_triangular` | Every field, exact arithmetic; no axioms. |
| C155 LU of symmetric matrices and Sylvester's test | proved | `C155_ldlt`, `C155_sylvester`, `C155_not_symmetric_refuted` | C155_ldlt: every field, no axioms. C155_sylvester: real numbers, exact arithmetic; real-number axioms of the standard library. |
| C156 det of the transpose and of a multiple, lu of a leading block | proved | `C156_transpose`, `C156_scale`, `C156_block` | Every field, exact arithmetic; no axioms. |
| C157 det of a product and under row operations | proved | `C157_product`, `C157_rows`, `C157_finite_refuted` | Every field, exact arithmetic; no axioms. |
| C158 Cramer's rule for solve, uniqueness of the factors of lu | proved | `C158_cramer`, `C158_unique` | Every field, exact arithmetic; no axioms. |
| C159 solve undoes multiplication and is linear | proved | `C159_inverse`, `C159_linear` | Every field, exact arithmetic; no axioms. |
| C16 Rational Sum and Product fold the whole iterator | partial | `C16_sum_partial`, `C16_sum_u64_sound`, `C16_product_is_zero`, `C16_product_refuted` | sum proved; product always yields zero |
| C160 Elimination on the Laplacian of a weighted graph | proved | `C160_regularised`, `C160_singular`, `C160_connected` | Real numbers, exact arithmetic; real-number axioms of the standard library. |
| C17 Cycle construction is canonical | proved | `C17_cycle_action`, `C17_cycle_rejects`, `C17_cycle_equality`, `C17_cycle_rotation` |  |
| C18 Permutation product is composition | proved | `C18_product_is_composition` | for everything built through the API (swap of two empty ranges excepted, see C19) |
| C19 Permutation equality is extensional | partial | `C19_equality_extensional`, `C19_empty_swap_refuted` | proved for all built values except the one returned by swap on two empty ranges, for which the claim is false |
| C20 Permutation is a bijection with the claimed support | proved | `C20_bijection_support`, `C20_from_disjoint_cycles` | same exception as C19 |
| C21 Permutation inverse and group laws | proved | `C21_inverse`, `C21_group_laws` |  |
| C22 Permutation decomposition into generators | proved | `C22_generators` |  |
| C23 Permutation power is iterated product | partial | `C23_power_partial`, `C23_negative_power_is_identity`, `C23_negative_power_refuted` | false for negative exponents: always the identity |
| C24 Permutation action on a vector | proved | `C24_action`, `C24_action_panics`, `C24_action_of_product` |  |
| C25 Permutation::swap exchanges two blocks | partial | `C25_swap_partial`, `C25_swap_reversed_partial`, `C25_adjacent_reversed_refuted`, `C25_one_empty_range_refuted` | false when the second range ends where the first starts, or one range is empty: panic or endless recursion |
| C26 VecPermutation / ConstPermutation group operations | partial | `C26_const_product`, `C26_vec_product`, `C26_const_order`, `C26_inverse_refuted`, `C26_vec_order_refuted` | inverse of both table types returns zeros; VecPermutation::order does not terminate |
| C27 Formal sums: coefficient arithmetic | partial | `C27_add`, `C27_neg`, `C27_sub`, `C27_scale`, `C27_no_panic`, `C27_index`, `C27_equality`, `C27_built_canonical`, `C27_from`, `C27_laws`, `C27_sum_partial`, `C27_sum_refuted`, `C27_from_refuted` | Proved for +,-,neg,scalar * with any exact arithmetic and any totally ordered basis. The claim is false for Sum of three or more vectors and for From<Vec> with repeated elements (refuted by witnesses); what does hold for Sum is proved. |
| C28 Merging sorted iterators | partial | `C28_merge_permutation`, `C28_merge_sorted_partial`, `C28_merge_sorted_refuted` | merge_by always permutes; sortedness is false in general (witness [5] with [1,2]) and proved when the second input has at most one item or the first is empty. |
| C29 Module isomorphism test | partial | `C29_isomorphism_test_partial`, `C29_isomorphism_sound`, `C29_is_zero`, `C29_isomorphism_refuted` | Decides isomorphism for divisor lists in invariant-factor form (uniqueness proved by counting quotients); false for arbitrary lists. |
| C30 Fat-pointer encoding of matrix views is lossless | proved | `C30_lossless`, `C30_view_roundtrip`, `C30_large_refuted` | Lossless for all sizes and strides below 2^16, as stated. Nothing in the code enforces that bound: C30_large_refuted shows a 1x65536 matrix is seen as 1x1. |
| C31 Matrix views address exactly the right entries | partial | `C31_reads`, `C31_in_allocation`, `C31_writes`, `C31_no_aliasing`, `C31_slice_refuted`, `C31_empty_view_refuted` | All in-range reads and writes through any chain of sub-views and transposes are proved to hit exactly the reference entry, inside the allocation, without aliasing. Two memory-safety sub-claims are false: the intermediate slice reference spans more cells than the allocation, and an empty view past the last row is a pointer out of bounds. |
| C32 Matrix ring operations | proved | `C32_add`, `C32_sub`, `C32_scale`, `C32_mul`, `C32_dot`, `C32_transpose`, `C32_constants`, `C32_mismatch`, `C32_eq`, `C32_mul_assoc`, `C32_mul_add`, `C32_add_mul`, `C32_mul_identity`, `C32_transpose_mul` | Over any commutative ring of coefficients with exact arithmetic. Multiplying a 0-row or 0-column view with mismatched inner size is the one case not rejected (nothing is computed). |
| C33 Elementary row and column operations | proved | `C33_swap_rows`, `C33_swap_cols`, `C33_row_operation`, `C33_col_operation`, `C33_elementary` |  |
| C34 Smith normal form factors the input | proved | `C34_factors` | For every integer matrix of positive size (exact arithmetic): terminates, no panic, all debug assertions hold, R*M*C = D. |
| C35 Smith normal form is diagonal with divisibility chain | proved | `C35_diagonal` |  |
| C36 Smith normal form row transform is invertible with the returned inverse | proved | `C36_row_inverse` |  |
| C37 Smith normal form column transform is invertible with the returned inverse | partial | `C37_col_invertible_partial`, `C37_col_inverse_partial`, `C37_before_divisibility_partial`, `C37_col_inverse_refuted` | Claim is false: the last update of c_op_inv (line 1062) uses row_operation(s, r, w*y) instead of (r, s, w*y); witness diag(2,3). Proved: C is invertible, and the returned inverse is right up to the divisibility pass, and at the end when D has at most one nonzero entry or only units. |
| C38 rank_as_linear_map is the rank | partial | `C38_lower_bound_partial`, `C38_rank_unique`, `C38_refuted` | never panics, always a lower bound, exact when it reports full rank; false in general because pivot search starts at k+2 (matrix_impl.rs:1084,1091) |
| C39 Matrix::from_array is faithful | partial | `C39_rectangular`, `C39_rejects_partial`, `C39_ragged_refuted` | Rectangular arrays are proved faithful. Rejection of ragged arrays is false: arrays whose longer rows follow a shorter first row are silently truncated (the guard uses all instead of any). |
| C40 Sparse matrix iteration and equality | partial | `C40_iter_partial`, `C40_transpose`, `C40_eq_partial`, `C40_refuted_empty` | Holds whenever at least one entry is present. False for a matrix with no entry: the End sentinel pushed at sparse_matrix_impl.rs:104-107 makes binary_search_by panic (C40_refuted_empty), the opposite of what the comment there intends. |
| C41 Sparse products agree with dense products | partial | `C41_products_partial`, `C41_transposed_partial`, `C41_mismatch`, `C41_refuted_empty` | All three products equal the dense product when both sparse factors have at least one entry (exact coefficients); with an empty factor they panic (C41_refuted_empty). |
| C42 Const vectors/matrices arithmetic | proved | `C42_vectors`, `C42_matrices`, `C42_constructors`, `C42_laws` | all sizes and coefficient types with exact arithmetic; two_norm (f64) not modelled |
| C43 Integral homology of a chain complex is computed correctly | partial | `C43_homology_partial`, `C43_refuted` | no panic, reported module is ker/im, free rank formula, divisor chain; refuted in the detail that divisors equal to -1 (and negative ones) are reported, so a trivial group can be shown as nonzero; exact integers; complexes with zero-dimensional groups excluded (matrix constructors panic on empty sizes) |
| C44 Homology with field coefficients | partial | `C44_upper_bound_partial`, `C44_refuted` | never panics, reports at least the Betti number, exact iff the reported ranks are the ranks; false in general because of C38 |
| C45 Attaching simplices yields the generated complex | partial | `C45_cells_partial`, `C45_maximal_partial`, `C45_invalid_partial`, `C45_refuted` | Proved for every history of valid simplices on at most 64 vertices (any labels): the bases list exactly the (k+1)-subsets of attached simplices once each, maximal cells are an antichain of attached simplices. The unrestricted claim is false: C45_refuted exhibits a lost edge at 65 vertices (cells of different word counts are compared on the common prefix). |
| C46 Simplicial boundary of boundary is zero | partial | `C46_entries_partial`, `C46_boundary_squared_partial`, `C46_homology_input_partial`, `C46_empty_refuted` | Proved for all complexes on at most 64 vertices: every entry is the signed incidence, consecutive matrices multiply to zero, and the data is valid input for IntegralHomology (never panics). The empty complex panics (C46_empty_refuted); beyond 64 vertices C45_refuted already breaks the cell list. |
| C47 n_cells_of_dim counts cells | partial | `C47_count_partial`, `C47_checked_partial`, `C47_small_partial`, `C47_refuted_at_21`, `C47_refuted_overflow` | Complexes of at most 64 vertices. Over unbounded integers the count is exact; with checked u64/i64 arithmetic any value returned is exact, and a value is returned for at most 20 vertices (vertices plus maximal cells at most 63). The unconditional claim is refuted at 21 vertices: 21! overflows in an intermediate product. Release-mode wrapping is not modelled. |
| C48 Simple graph edge set refinement | proved | `C48_history`, `C48_equality` | For every history of add_edge, remove_edge, swap and remove_edges_adjacent_to on a fresh graph: contains, n_edges, degree_of and the neighbour iterator answer as the abstract relation; a call panics exactly when its vertices are not two increasing numbers below n. RawSimpleGraph::new(0) panics. Equal answers imply equal graphs. |
| C49 Graph connectivity | partial | `C49_is_connected_partial`, `C49_refuted_one_vertex` | Right for all graphs with at least two vertices; for the one-vertex graph (connected) the program answers false. |
| C50 Graph construction counts edges | partial | `C50_from`, `C50_panics_refuted`, `C50_up_to_multiplicity_partial`, `C50_refuted_repeated_loop` | Vertices, multiplicities, loop and non-loop counts are right for every edge list that does not panic. The count up to multiplicity is right exactly without repeated loops; with repeated loops it is too small, and the call panics exactly when there are more loops than joined pairs (usize underflow). |
| C51 Graph edge iterator | partial | `C51_edges_partial`, `C51_refuted_phantom_edge`, `C51_one_vertex` | The iterator always yields (0,1) first, even if it is not an edge; all other edges come exactly once. |
| C52 Relabelling a graph by a permutation | proved | `C52_relabel`, `C52_panics`, `C52_product` | The action renames vertices, preserves the number of edges, panics exactly when the permutation moves a non-vertex, and is a left action. |
| C53 Maximal tree | partial | `C53_tree_partial`, `C53_panics_without_base_refuted`, `C53_refuted_cycles` | Returns iff some vertex is a leaf or a branch vertex whose deletion leaves the rest connected; so it panics on connected graphs such as cycles. Otherwise: relabelled copy, unique smaller tree neighbour for every vertex but 0, every edge joins a vertex to a tree descendant, branches with a back edge come last. |
| C54 Graph Laplacian | proved | `C54_from`, `C54_laplacian` | Over any commutative ring of coefficients with exact arithmetic. A pair given twice keeps the last weight; an empty list or a loop panics. |
| C55 Cube boundary of boundary is zero | proved | `C55_cube_boundary`, `C55_square_zero`, `C55_boundary_map`, `C55_panics`, `C55_refuted_partial_order`, `C55_partial_order_dim1`, `C55_padd_total`, `C55_refuted_integral_homology` | Cube::get_boundary gives each cell its incidence number, the boundary of the boundary vanishes, CubicalCplx::boundary_map gives the incidence matrices of the enumerated cells, consecutive ones multiplying to zero. Findings: with the derived field-wise PartialOrd, get_boundary panics for every cube of dimension >= 2 (refuted); boundary_map panics on a complex without cells; the lists of cells it returns are empty so integral homology of a cubical complex always panics. |
| C56 Unordered configuration cells are enumerated once | proved | `C56_cells_enumerated`, `C56_refuted_phantom_edge`, `C56_panics`, `C56_udc` | udc lists every set of n pairwise disjoint closed cells exactly once (graphs in which 0 and 1 are adjacent, so every connected graph); a graph without that edge gets it as a phantom cell; panics characterised |
| C57 Edge paths: inverse and composition | partial | `C57_reduce_geodesic`, `C57_reduce_decides`, `C57_reduce_panics`, `C57_inverse_partial`, `C57_trivial_refuted`, `C57_panics_refuted`, `C57_evaluate`, `C57_multiplicative`, `C57_inverse_permutation` | literal claim false: the trivial result is [[]] (not equal to trivial_path() = []), and reduce_to_geodesic panics exactly when a proper non-empty prefix is trivial (characterised). Otherwise: p composed with its inverse reduces to [[]], reduction is the unique normal form of the partially commutative group, geodesic in edges and in steps, evaluation is multiplicative and invariant |
| C58 Delaunay triangulation index sanity | proved | `C58_indices`, `C58_empty_panics` | For every arithmetic (a record of operations without laws, so rounding and NaN are covered). |
| C59 Smooth function algebra preserves evaluation | proved | `C59_add`, `C59_sub`, `C59_mul`, `C59_div`, `C59_neg`, `C59_scalar`, `C59_powers`, `C59_sum_product`, `C59_euclid_div`, `C59_refuted_domain` | f64 is modelled by the reals of Coq's standard library (axioms listed in DESIGN.md), i32 exponents by unbounded integers. Wherever the operands have a value the result has the value of the operation; C59_refuted_domain shows the converse fails (a simplified result may be defined where an operand is not). |
| C60 Symbolic partial derivative is the derivative | proved | `C60_partial_derivative`, `C60_integer_powers`, `C60_derivative_unique`, `C60_refuted_zero_base`, `C60_jacobian` | Over the reals. The derivative is computed for every function and is the partial derivative at every point where the function is defined and its non-integer powers have a positive base; at a zero of such a base the derivative has no value (C60_refuted_zero_base). |
| C61 Change of basis: integer matrix times a list of basis cells | proved | `C61_change_of_basis` | exact integers |
| C62 Reported cycles form a basis of the cycle group | proved | `C62_cycles_basis` | exact integers; cells of each degree distinct |
| C63 Reported boundaries form a basis of the boundary group | proved | `C63_boundaries_basis` | exact integers; cells of each degree distinct |
| C64 SimplicialCplx::is_connected decides connectedness | partial | `C64_is_connected_partial`, `C64_refuted` | Proved for complexes of at most 64 vertices; refuted at 65: on a star with 64 leaves the last edge is lost (cells of different word counts are compared on the common prefix) and is_connected answers false. |
| C65 new_from_zero_skeleton builds the discrete complex on the given labels | partial | `C65_zero_skeleton_refuted`, `C65_zero_skeleton_partial` | Holds for at most two labels; refuted for three or more (the constructor panics). |
| C66 Subdivision of a labelled multigraph | proved | `C66_subdivision`, `C66_panics_refuted` | Full description of the returned graph. The panics are characterised: connected graphs without leaf and without non-separating vertex of degree three or more (a cycle, two cycles joined by an edge) panic. |
| C67 The subdivision is fine enough | proved | `C67_paths`, `C67_cycles`, `C67_bound_reached` | Walks between different labels have at least m-1 edges (reached for m >= 3), cycles at least m+1. |
| C68 Circle test | proved | `C68_circle_test` | Exact (real) arithmetic; Coq's axioms of the real numbers. |
| C69 The result is Delaunay | proved | `C69_empty_circles`, `C69_no_point_in_triangle`, `C69_duplicates_unused` | Exact arithmetic. |
| C70 The triangles do not overlap | proved | `C70_interiors_disjoint` | Exact arithmetic. |
| C71 Completeness of the triangulation | proved | `C71_complete`, `C71_exact` | Exact arithmetic. |
| C72 Effect of the auxiliary triangle | proved | `C72_aux_outside`, `C72_refuted_nonempty` | Exact arithmetic; the expectation that the hull is triangulated is refuted. |
| C73 LU factorisation without pivoting | proved | `C73_lu`, `C73_panics` | Exact arithmetic over any field; None stands for a panic or a non-finite float. |
| C74 det is the determinant | partial | `C74_det_partial`, `C74_not_square`, `C74_refuted` | The claim is false of the code: without pivoting a vanishing leading minor gives no finite result (C74_refuted); C74_det_partial is the exact characterisation. |
| C75 solve returns the solution of the linear system | proved | `C75_solve`, `C75_panics` | Exact arithmetic over any field. Finding: only the first column of b is solved for. |
| C76 Gram-Schmidt orthonormalisation | proved | `C76_gram_schmidt`, `C76_unique`, `C76_panics` | Real numbers, exact arithmetic; None stands for a panic or a non-finite float. |
| C77 Gram-Schmidt without normalisation | proved | `C77_gram_schmidt_without_normalize` | Real numbers, exact arithmetic. |
| C78 Householder vectors | partial | `C78_householder_partial`, `C78_refuted`, `C78_bad_case`, `C78_panics` | The claim is false of the code (sign of b when the tail is zero and the head negative): C78_refuted; C78_householder_partial proves it in every other case and C78_bad_case says what happens in this one. |
| C79 Givens rotations | proved | `C79_givens`, `C79_length` | Real numbers, exact arithmetic. |
| C80 Hessenberg form | partial | `C80_hessenberg_partial`, `C80_spectrum`, `C80_refuted`, `C80_panics` | The similarity is false of the code: C80_refuted; C80_hessenberg_partial proves the shape for every square matrix and the similarity when the subdiagonal entries of the result but the last are not negative (the failing case is exactly a reflection that leaves a negative one). |
| C81 Matrix norms | proved | `C81_norms`, `C81_triangle`, `C81_submultiplicative`, `C81_euclidean` | Real numbers, exact arithmetic. |
| C82 Spectrum | partial | `C82_spectrum_partial`, `C82_triangular`, `C82_two_by_two`, `C82_panics`, `C82_never_ends`, `C82_refuted`, `C82_values_refuted`, `C82_double_panics`, `C82_nonvacuous` | Full for upper triangular matrices and for 2x2 matrices whose lower entry is not taken for zero. In general the result is sorted, sums to the trace of the matrix qr ends with, and is exactly the set of its real eigenvalues when no subdiagonal entry lies strictly between 0 and 1e-11. The claims of termination, of exact values and about double eigenvalues are refuted. |
| C83 Lattice reduction | proved | `C83_lll`, `C83_factors`, `C83_terminates`, `C83_short_vector`, `C83_panics`, `C83_dependent` | Real numbers, exact arithmetic (f64 rounding is not modelled). |
| C84 One double-shift (Francis) step | partial | `C84_francis_partial`, `C84_spectrum`, `C84_op_identity`, `C84_panics`, `C84_refuted`, `C84_op_refuted`, `C84_nonvacuous` | The similarity is proved whenever the last but one subdiagonal entry of the result is not negative (unreduced input) or, for any Hessenberg input, when the shift column is no negative multiple of e_0 and all subdiagonal entries but the last are not negative. Without it the claim is refuted by [[1,-1,0],[1,1,-1],[0,1,1]] (trace 3 becomes 11). The operation returned by francis_step_with_op is proved to be the identity on every input, so the claim about it is refuted. |
| C85 QR iteration | partial | `C85_qr_partial`, `C85_iteration`, `C85_op_identity`, `C85_panics`, `C85_never_ends`, `C85_refuted`, `C85_op_refuted`, `C85_op_panic_refuted`, `C85_nonvacuous` | No panic (so the internal debug assertion holds), the form of the result and the iteration it comes from are proved for all inputs and numbers of iterations; an iteration keeps the trace unless the last but one subdiagonal entry of its window comes out negative. Termination is refuted, also for symmetric input, and so are both claims about qr_with_op. |
| C86 Tridiagonalisation of symmetric matrices | partial | `C86_tridiagonalization_partial`, `C86_spectrum`, `C86_fixed`, `C86_refuted`, `C86_panics`, `C86_nonvacuous` | The full claim C86_claim is false of the code (C86_refuted: the trace of the path Laplacian goes from 6 to 22). Proved: no panic, symmetry and signs for every symmetric matrix of order >= 2; orthogonal similarity, trace and eigenvalues when every column stores a nonzero tail; fixed points; orders 0 and 1 panic. |
| C87 Extracting the accumulated reflections | partial | `C87_orthogonal`, `C87_accumulates_partial`, `C87_refuted`, `C87_panics`, `C87_nonvacuous` | Orthogonality holds for every non-empty square matrix. The product identity is proved when every column stores a nonzero tail and refuted otherwise (C87_refuted). |
| C88 One step of the symmetric QR algorithm | partial | `C88_step_partial`, `C88_spectrum`, `C88_without_op`, `C88_degenerate`, `C88_panics`, `C88_refuted` | The step is an exact orthogonal similarity by the returned rotations with the Wilkinson shift; B is tridiagonal if no rotation is skipped and nearly so (1e-12) always. C88_refuted: a 3x3 matrix whose bulge stays. Missing because false: exact tridiagonality; the degenerate corner gives 0/0. |
| C89 The symmetric QR algorithm is backward stable | partial | `C89_symmetric_qr_partial`, `C89_iterations`, `C89_panics`, `C89_op_panics`, `C89_never_ends`, `C89_refuted`, `C89_op_refuted`, `C89_window_refuted`, `C89_nonvacuous` | The theorem gives everything claimed when the loop ends. Missing because false: termination (C89_refuted: an exact 2-cycle of a symmetric tridiagonal matrix of order 3; in f64 the matrix [[1,1e-9,0],[1e-9,-1,1e-9],[0,1e-9,0]] loops for ever as well), and the transformation returned with with_op=true (C89_op_refuted: diag(1,-1,1) for an input on which nothing is done; C89_window_refuted: the rotations of a window that starts behind the first row are applied to the rows from 0 on; C89_op_panics: order 2 always panics). |
| C90 spectrum_symmetric returns the spectrum of a nearby matrix | partial | `C90_spectrum_partial`, `C90_split`, `C90_never_ends`, `C90_panics`, `C90_tie`, `C90_refuted`, `C90_sum_refuted`, `C90_nonvacuous` | The theorem gives everything claimed when the loop ends. Missing because false: the values are near the eigenvalues for every symmetric matrix (C90_refuted: an entry exactly equal to the tolerance; C90_sum_refuted: a negative entry in the first column, inherited from C86, trace 1 gives sum 9; C90_never_ends), and order 1 (C90_panics). |
| C91 random_orthogonal returns an orthogonal matrix, random_unit_vec a unit vector | proved | `C91_random_orthogonal`, `C91_panics`, `C91_not_all_refuted`, `C91_unit_vec`, `C91_unit_vec_panics`, `C91_nonvacuous` | Exact real arithmetic; the draws are arguments. |
| C92 random_symmetric and random_sparse_symmetric | partial | `C92_symmetric`, `C92_sparse`, `C92_wide_panics`, `C92_tall_refuted`, `C92_nonvacuous` | Proved for square matrices; the claim is false when there are more rows than columns (cells never initialised, C92_tall_refuted) and with more columns than rows the function panics. |
| C93 spectrum_with_* return eigenvectors | partial | `C93_invariant_space_partial`, `C93_invariant_space_symmetric_partial`, `C93_n_smallest_partial`, `C93_n_th_partial`, `C93_defined`, `C93_exact_fails`, `C93_triangular_refuted`, `C93_split_refuted`, `C93_residual`, `C93_misses_refuted`, `C93_constant_refuted`, `C93_panics`, `C93_nonvacuous` | The claim is false of the code (exact eigenvalues make solve divide by zero; vectors with sum zero are never found); the theorems say exactly when there is a result and what it is. |
| C94 Discrete gradient: flow edges, blocked vertices and the type of a cell | proved | `C94_flow`, `C94_blocked`, `C94_property` | Flow edge, blocked, property: characterised for every arranged connected graph and every list of cells. |
| C95 Points flow to the base configuration | proved | `C95_flow`, `C95_settles`, `C95_subdivided`, `C95_base` | Flow of points terminates in one settled configuration; {0..n-1} when the tree has an unbranched start, which subdivided graphs are proved to have. |
| C96 Edge paths of critical 1-cells are geodesic loops at the base configuration | proved | `C96_edge_path`, `C96_loop`, `C96_base_path`, `C96_panics` | No panic, geodesic, loop at the base configuration, permutation. |
| C97 Redundant and collapsible cells are matched | partial | `C97_matching_partial`, `C97_low`, `C97_refuted`, `C97_edge_refuted` | The claim is false of the code: is_disrespected_by accepts any vertex between the ends, so a redundant cell can have a critical partner (three points on an H-shaped tree), or one collapsible at another edge. Proved: the pairing for cells whose other factors lie on one side of the edge, which covers all redundant 0-cells and collapsible 1-cells. |
| C98 The complex of critical cells is built without panicking and lists configurations, each once | proved | `C98_cells` | Totality, no duplicates, configurations, sorted, ranks and dimension. |
| C99 The complex of critical cells lists exactly the critical cells | partial | `C99_complete_partial`, `C99_sound_partial`, `C99_tree_partial`, `C99_refuted`, `C99_extra_refuted`, `C99_one_point_refuted` | The claim is false of the code: three points, a critical 2-cell that is not listed, and a listed 1-cell that is redundant; one point, a listed 1-cell that is collapsible. Proved: every critical cell with at most one edge or with edges only is listed; listed cells with at most one edge are critical when leaves are far enough from the starts of critical edges (always on trees: iff); for two points see C102. |
