{"id": "C01", "title": "BinaryPool behaves like a finite set of indices", "statement": "For every sequence of new/from/add/remove/fill/resize/union/intersection calls, contains(i) reports exactly membership in the set obtained by the same operations on a mathematical set of indices below len, n_elements() is that set's cardinality, is_full() says whether it is all of 0..len, and a call panics exactly when an index is >= len or the two lengths differ.", "quantifier": "all lengths, all histories of operations, all indices", "why_tests_cant": "Unbounded histories, lengths crossing 64-bit word boundaries.", "anchors": ["util/src/lib.rs: BinaryPool::{new,add,remove,union,intersection,fill,resize,contains,n_elements,is_full}"]}
{"id": "C02", "title": "BinaryPool iteration is the sorted list of members", "statement": "iter() yields exactly the indices for which contains is true, in strictly increasing order, each once.", "quantifier": "all reachable pools", "why_tests_cant": "Every subset of every length.", "anchors": ["util/src/lib.rs: BinaryPool::iter, BinaryPoolIter::next"]}
{"id": "C03", "title": "BinaryPool subset test and equality are extensional", "statement": "is_subset_of(a,b) is true iff every member of a is a member of b; two pools compare equal iff they have the same length and the same members, whatever histories built them.", "quantifier": "all pairs of reachable pools", "why_tests_cant": "Depends on bits past the length staying clear for every history.", "anchors": ["util/src/lib.rs: BinaryPool::is_subset_of, derived PartialEq"]}
{"id": "C04", "title": "BinaryPool::from accepts exactly in-range indices", "statement": "from(len, v) returns a pool whose members are exactly the entries of v, with n_elements the number of distinct entries, if all entries are < len, and panics otherwise.", "quantifier": "all lengths and index vectors", "why_tests_cant": "All vectors, including duplicates and boundary indices.", "anchors": ["util/src/lib.rs: BinaryPool::from"]}
{"id": "C05", "title": "LabeledSet behaves like a set of labels", "statement": "With distinct labels, any history of add/remove yields the set of labels added and not since removed; n_elements is its size; iter() lists it in registration order; an unregistered label panics and leaves nothing to observe.", "quantifier": "all label lists without duplicates, all histories", "why_tests_cant": "Unbounded histories and label lists.", "anchors": ["util/src/lib.rs: LabeledSet::{new,add,remove,n_elements,iter}"]}
{"id": "C06", "title": "tuple_iter enumerates every k-combination once, in lexicographic order", "statement": "For k>=1, slice.tuple_iter(k) terminates and yields exactly the sublists of length k picked at strictly increasing positions, each position set exactly once, in lexicographic order of positions; nothing if k exceeds the length.", "quantifier": "all slices and all k >= 1", "why_tests_cant": "A loop with carried cursor state; number of outputs is binomial.", "anchors": ["util/src/lib.rs: TupleIterator::{new,is_blocked,next}, TupleIterable::tuple_iter"]}
{"id": "C07", "title": "count_ones is the population count", "statement": "bitwise::count_ones(x) terminates and returns the number of one bits of x.", "quantifier": "all 64-bit words", "why_tests_cant": "2^64 inputs.", "anchors": ["util/src/lib.rs: bitwise::count_ones"]}
{"id": "C08", "title": "Integer euclid_div is Euclidean division", "statement": "For d != 0, n.euclid_div(d) = (q,r) with n = q*d + r and 0 <= r < |d|; in machine arithmetic it fails only for MIN / -1.", "quantifier": "all pairs with nonzero divisor", "why_tests_cant": "All signs and magnitudes.", "anchors": ["alg/src/commutative.rs: PID::euclid_div for integers"]}
{"id": "C09", "title": "divides decides divisibility", "statement": "For d != 0, d.divides(n) is true iff n is an integer multiple of d; d=0 panics.", "quantifier": "all integers d, n", "why_tests_cant": "All pairs.", "anchors": ["alg/src/commutative.rs: PID::divides"]}
{"id": "C10", "title": "bezout_identity returns the gcd and Bezout coefficients", "statement": "bezout_identity(a,b) terminates with (g,x,y), g >= 0 the greatest common divisor and a*x + b*y = g; gcd(a,b) terminates with the same g.", "quantifier": "all integers a, b", "why_tests_cant": "Termination and identity for all inputs.", "anchors": ["alg/src/commutative.rs: bezout_identity, bezout_identity_rec, gcd"]}
{"id": "C100", "title": "The complex of critical cells has the homology of the configuration space", "statement": "The boundary map of UdnMorseCplx does not panic and its ranks give the Euler characteristic of the unordered configuration space (the alternating sum of the ranks of CubicalCplx::udc).", "quantifier": "all connected graphs, all n >= 1", "why_tests_cant": "an identity between two enumerations over all graphs", "anchors": ["topo_spaces/src/cubical.rs: impl Complex for UdnMorseCplx, boundary_map, get_boundary_of"]}
{"id": "C101", "title": "The bound on the dimension is respected", "statement": "UdnMorseCplx::new(graph, n, Some(u)) lists no cell of dimension greater than u.", "quantifier": "all connected graphs, all n >= 1, all u", "why_tests_cant": "quantifies over all graphs and recursion depths", "anchors": ["topo_spaces/src/cubical.rs: UdnMorseCplx::expand (upper_dim)"]}
{"id": "C102", "title": "For two points the complex of critical cells lists exactly the critical cells", "statement": "For two points and no (or a large enough) bound on the dimension, in every dimension the cells listed by UdnMorseCplx are exactly the two-point configurations that Cube::property calls critical (in the order in which cells are written down).", "quantifier": "all connected graphs, all dimensions, all bounds that are absent or at least 2", "why_tests_cant": "equality of two sets over all graphs; the same claim is false for three points, so examples with few points do not transfer", "anchors": ["topo_spaces/src/cubical.rs: UdnMorseCplx::expand, Cube::property"]}
{"id": "C103", "title": "The complex of critical cells has exactly one 0-cell, the points at the base", "statement": "get_cells_of_dim(0) of UdnMorseCplx is the single configuration with the points on vertices 0..n-1.", "quantifier": "all connected graphs, all n >= 1, all bounds other than 0", "why_tests_cant": "ranges over all graphs and all numbers of points", "anchors": ["topo_spaces/src/cubical.rs: UdnMorseCplx::expand, get_cells_of_dim"]}
{"id": "C104", "title": "boundary_map of the complex of critical cells: zero in dimension at most one, panic otherwise", "statement": "If the largest dimension of a listed cell is at most 1, UdnMorseCplx::boundary_map returns one zero matrix per dimension with as many columns as cells, together with the cells; if it is 2 or more, it panics.", "quantifier": "all connected graphs, all n >= 1, all bounds other than 0", "why_tests_cant": "ranges over all graphs and all numbers of points; the flow of each boundary face is a terminating rewriting whose result must be the base cell for every graph", "anchors": ["topo_spaces/src/cubical.rs: UdnMorseCplx::boundary_map, get_boundary_of, MorsePath"]}
{"id": "C105", "title": "For two points the complex of critical cells has the Euler characteristic of the configuration space", "statement": "For two points, the alternating sum of the ranks of UdnMorseCplx equals that of CubicalCplx::udc.", "quantifier": "all connected graphs (loops and multiple edges allowed), all bounds on the dimension that are absent or at least 2", "why_tests_cant": "an identity between two enumerations over all graphs; it is false for three points (C100), so it rests on a cancellation argument and not on a pattern visible in examples", "anchors": ["topo_spaces/src/cubical.rs: UdnMorseCplx::expand, CubicalCplx::udc, Cube::property"]}
{"id": "C106", "title": "Vector-valued smooth functions and their sparse Jacobians", "statement": "For every vector-valued function built from smooth functions, eval gives the column of the values of the components, and evaluating the sparse matrix returned by jacobian at a point gives, at row i and column j, the partial derivative of component i in direction j (what the sparse matrix does not list is zero). A matrix of functions, dense or sparse, is evaluated entry by entry.", "quantifier": "all lists of smooth functions, all numbers of variables, all points where the components are defined and differentiable", "why_tests_cant": "the functions, the number of components and variables and the points are unbounded; a test fixes one function", "anchors": ["analysis/src/lib.rs: MultiVarFn, MultiVarFnBuilder::set, MultiVarFn::jacobian, Function for MultiVarFn, Function for Matrix<AtomicSmoothFn>, Function for SparseMatrix<AtomicSmoothFn>"]}
{"id": "C107", "title": "Placing a subdivided graph in space", "statement": "For every multigraph given by labelled edges and every embedding of its labels as points, modify_embedding of the subdivided graph places every vertex exactly once: the labels at their points, and the inner vertices of an edge inside the segment between the points of its two ends, equally spaced and pairwise different from each other and from the ends. It panics exactly when the labels of the embedding are not those of the graph.", "quantifier": "all edge lists, all numbers of marked points, all embeddings in any dimension", "why_tests_cant": "graphs, numbers of marked points and embeddings are unbounded", "anchors": ["topo_spaces/src/graph.rs: SimpleGraph::modify_embedding, SimpleGraph::subdivided_graph_from, VertexVector", "alg/src/commutative/rational_impl.rs: Into<f64> for Rational"]}
{"id": "C108", "title": "Euler-Poincare: homology has the Euler characteristic of the complex", "statement": "The alternating sum of the free ranks that homology reports, over all degrees, equals the alternating sum of the numbers of cells, when the lowest boundary map is the zero map. The same holds for the dimensions reported with field coefficients, even where the single numbers are wrong (C44).", "quantifier": "all chain complexes over Z (any ordered cell type) and over any field", "why_tests_cant": "an identity between the outputs of all degrees for every complex of every length", "anchors": ["topo_spaces/src/lib.rs: homology, HomologyWithFieldCoefficients", "alg/src/lin_alg/matrix_impl.rs: smith_normal_form, rank_as_linear_map"]}
{"id": "C109", "title": "Quadratic form and kernel of the graph Laplacian", "statement": "For every weighted graph and vector x, the i-th entry of laplacian()*x is the sum over j of w_ij (x_i - x_j), and twice x^T laplacian() x is the sum of w_ij (x_i - x_j)^2 over ordered pairs. For non-negative weights the form is never negative, it vanishes exactly on the kernel of the matrix, and the kernel consists of the vectors that agree on any two labels joined by edges of non-zero weight.", "quantifier": "all lists of weighted edges, over every commutative ring (identity) and over the reals with non-negative weights (kernel), all vectors", "why_tests_cant": "the spectral reading of the Laplacian (used by spectrum_with_n_smallest callers) must hold for every graph and vector", "anchors": ["topo_spaces/src/graph.rs: WeightedSimpleGraph::from, laplacian"]}
{"id": "C11", "title": "bezout_identity never overflows on in-range inputs", "statement": "For w-bit signed inputs other than the minimum value, every intermediate product and sum computed by gcd and bezout_identity fits in w bits, so no overflow panic or wrap can occur.", "quantifier": "all widths, all non-minimal inputs", "why_tests_cant": "Overflow on some input among 2^128 pairs.", "anchors": ["alg/src/commutative.rs: bezout_identity_rec, PID::euclid_div, PID::simplify"]}
{"id": "C110", "title": "H_0 of a simplicial complex counts its connected components", "statement": "For every complex built by attach, the first module that homology reports is free of rank the number of connected components, and is_connected answers true exactly when that rank is one.", "quantifier": "all attach histories (at most 64 vertices), all max_dim, all label types", "why_tests_cant": "relates two independently computed answers (a Smith normal form and a closure of bit sets) for every complex; small examples agree", "anchors": ["topo_spaces/src/lib.rs: IntegralHomology::new", "topo_spaces/src/simplicial/mod_impl.rs: boundary_map, is_connected", "alg/src/lin_alg/matrix_impl.rs: smith_normal_form"]}
{"id": "C111", "title": "The printed homology determines the homology", "statement": "println!(\"{}\", module) shows the usual direct sum (0, Z, Z^r, Z_d, (Z_d)^m joined by ' + '); two modules print alike exactly when is_isomorphic_to answers true, and two IntegralHomology values that print alike consist of the same modules in every dimension.", "quantifier": "all free ranks, all lists of divisors and multiplicities, all lists of modules", "why_tests_cant": "Unambiguity of a printed form is a statement about all pairs of values.", "anchors": ["alg/src/lin_alg.rs: Display for Module, is_isomorphic_to", "topo_spaces/src/lib.rs: Display for IntegralHomology"]}
{"id": "C112", "title": "Permutations print in cycle notation, printed alike means act alike", "statement": "A Permutation is shown as its cycles '(a, b, c)' one after the other (the identity as '(1)'); two permutations that print alike map every index alike, and for permutations built by the API the converse holds.", "quantifier": "all permutations; for the converse all values built by the API", "why_tests_cant": "Ranges over all pairs of permutations of any size.", "anchors": ["alg/src/non_commutative/permutation.rs: Display for Cycle, Display for Permutation"]}
{"id": "C113", "title": "Printed rationals determine and are determined by the number", "statement": "Two Rational values print alike (Display and Debug) exactly when they are equal numbers.", "quantifier": "all results of programs over the Rational API", "why_tests_cant": "Ranges over all programs; the exception (-0) only shows for one operation on one value.", "anchors": ["alg/src/commutative/rational_impl.rs: Display, Debug, neg"]}
{"id": "C114", "title": "The description of cycles and boundaries is complete and unambiguous", "statement": "get_description_of_cycles and get_description_of_boundaries of a complex whose cells are cubes never panic when no cube is empty, and two results with the same description have the same cycles (boundaries): same dimensions, same order, same cells, same coefficients.", "quantifier": "all lists of lists of formal sums of cubes", "why_tests_cant": "Unambiguity over all formal sums.", "anchors": ["topo_spaces/src/lib.rs: get_description_of_cycles, get_description_of_boundaries", "alg/src/lin_alg.rs: Display for Vector", "topo_spaces/src/cubical.rs: Display for Cube", "topo_spaces/src/graph.rs: Display for CubeFactor"]}
{"id": "C115", "title": "The printed simple graph determines the graph", "statement": "Printing a RawSimpleGraph never panics, and two graphs print alike exactly when they have the same number of vertices and the same edges.", "quantifier": "all graphs made by the API", "why_tests_cant": "Ranges over all pairs of graphs.", "anchors": ["topo_spaces/src/graph.rs: Display for RawSimpleGraph"]}
{"id": "C116", "title": "The printed subdivided graph lists every vertex and every edge once", "statement": "Printing a SimpleGraph obtained from a connected labelled graph does not panic and shows the vertex names joined by ', ', then every edge once as '[v, w]', joined by ', '.", "quantifier": "all edge lists and numbers of marked points for which the subdivided graph is built and connected", "why_tests_cant": "The separator logic and the edge iterator interact for every graph; a test sees one graph.", "anchors": ["topo_spaces/src/graph.rs: Display for SimpleGraph, Display for SimpleVertex, edge_iter, n_edges"]}
{"id": "C117", "title": "Vertices of a subdivided graph have different names", "statement": "The printed names of the vertices of a subdivided graph are pairwise different.", "quantifier": "all edge lists and numbers of marked points", "why_tests_cant": "Collisions depend on the labels the user chooses.", "anchors": ["topo_spaces/src/graph.rs: Display for VertexVector, Display for SimpleVertex, subdivided_graph_from"]}
{"id": "C118", "title": "The printed integer matrix determines the matrix", "statement": "Two integer matrices print alike exactly when they are equal (same size, same entries).", "quantifier": "all integer matrices", "why_tests_cant": "Ranges over all sizes and entries.", "anchors": ["alg/src/lin_alg/matrix_impl.rs: Display for SubMatrix, Display for Matrix"]}
{"id": "C119", "title": "The debug text of a BinaryPool determines it", "statement": "Two BinaryPool values have the same Debug text exactly when they are equal.", "quantifier": "all pools made by programs over the API", "why_tests_cant": "Ranges over all histories and sizes.", "anchors": ["util/src/lib.rs: Debug for BinaryPool, PartialEq"]}
{"id": "C12", "title": "is_prime decides primality", "statement": "For a positive integer n, n.is_prime() is true iff n is prime.", "quantifier": "all positive integers", "why_tests_cant": "Infinite range.", "anchors": ["alg/src/commutative.rs: PID::is_prime"]}
{"id": "C120", "title": "Rounding error of dense f64 products", "statement": "If the f64 dot product or matrix product comes back finite, all operands were finite and every entry differs from the exact value by at most gamma_n times the product of absolute values (gamma_n=(1+2^-53)^n-1) plus an underflow term; entrywise sums, differences and multiples have one rounding each; entries up to 2^500 and up to 2^23 columns never overflow.", "quantifier": "all f64 matrices of all shapes, with IEEE 754 rounding, infinities and NaN", "why_tests_cant": "A test compares a few products with a tolerance picked by hand; the bound is for all inputs and sizes.", "anchors": ["alg/src/lin_alg/matrix_impl.rs: Mul, Add, Sub, dot"]}
{"id": "C121", "title": "Backward error of lu at f64", "statement": "For every square f64 matrix lu, det and solve return (no panic). If the factors are finite, the input was finite and L*U equals the input up to gamma_(n-1)*|L||U| plus an underflow term, entrywise.", "quantifier": "all square f64 matrices", "why_tests_cant": "The bound must hold whatever the pivots and roundings.", "anchors": ["alg/src/lin_alg/matrix_impl.rs: lu"]}
{"id": "C122", "title": "Residual of solve at f64", "statement": "If the computed factors and the computed solution are finite, the residual |A x - b| is at most (3 gamma_n + gamma_n^2) |L||U||x| plus an underflow term, in every component.", "quantifier": "all square f64 systems", "why_tests_cant": "A test checks a few residuals.", "anchors": ["alg/src/lin_alg/matrix_impl.rs: solve"]}
{"id": "C123", "title": "det at f64 is near the determinant of a near matrix", "statement": "If the factors and det are finite and no partial product of pivots underflows, det equals, up to n-1 relative roundings, the determinant of a matrix within the lu backward error of the input. For every finite matrix det should be finite: false, a zero pivot gives NaN.", "quantifier": "all square f64 matrices", "why_tests_cant": "Universal over values and sizes.", "anchors": ["alg/src/lin_alg/matrix_impl.rs: det"]}
{"id": "C124", "title": "Triangulation at f64 returns or panics as it should", "statement": "With IEEE 754 arithmetic, delaunay_triangulation returns on every non-empty list of at most 2^23 points with finite coordinates of size at most 2^500 (indices as in C58, later points fail the circle test of each triangle), panics if there are two points and one coordinate is not finite, and circum_circle_contains never holds for the first vertex, whatever the numbers (NaN and infinities included).", "quantifier": "all lists of f64 points", "why_tests_cant": "Universal over all f64 values including NaN, infinities and all roundings.", "anchors": ["geom/src/lib.rs: delaunay_triangulation, Triangle::circum_circle_contains"]}
{"id": "C125", "title": "Rounded circle test is right off the circle for small integers; triangles of the result do not overlap", "statement": "For integer coordinates up to 64 the f64 circle test is true for every integer point strictly inside the circumscribed circle and false for every one strictly outside; for vertices on one line it is false. The triangles returned at f64 should have disjoint interiors as in exact arithmetic (C70): false, five integer points on a circle give overlapping triangles.", "quantifier": "all integer points with coordinates up to 64 (over 10^16 quadruples); all lists of such points", "why_tests_cant": "Too many cases for enumeration; needs an analysis of the rounding errors.", "anchors": ["geom/src/lib.rs: Triangle::circum_circle_contains, delaunay_triangulation"]}
{"id": "C126", "title": "The configuration complex has Gal's Euler characteristic", "statement": "For n points on a connected graph given by its edge list, the alternating sum of the numbers of cells of the complex built by UnorderedConfiguration/CubicalCplx is the coefficient of t^n in prod over vertices (1 + (1 - deg v) t) divided by (1 - t)^(number of edges): it depends only on the vertex degrees and the number of edges, not on the subdivision, the numbering of the vertices or the maximal tree. For two points the complex of critical cells has this value too.", "quantifier": "all edge lists whose graph is connected (loops and multiple edges included), all n >= 1", "why_tests_cant": "an identity between an enumeration of cells and a closed formula, for all graphs and all numbers of points", "anchors": ["topo_spaces/src/cubical.rs: CubicalCplx::udc, UdnMorseCplx::new", "topo_spaces/src/graph.rs: Graph::from, Graph::subdivided_graph_from, modify_embedding"]}
{"id": "C127", "title": "The configuration complex of a connected graph is connected", "statement": "For n >= 1 points on a connected graph the complex CubicalCplx::udc is not empty, any two of its 0-cells are connected by a chain of 0-cells in which each is joined to the next by a 1-cell of the complex, and with the first boundary matrix of boundary_map an integer 0-chain is a boundary exactly when its coefficients add up to 0 (H_0 is Z).", "quantifier": "all edge lists whose subdivided graph is connected, all n >= 1, all pairs of 0-cells, all integer 0-chains", "why_tests_cant": "quantifies over all graphs, numbers of points and pairs of configurations", "anchors": ["topo_spaces/src/cubical.rs: CubicalCplx::udc, boundary_map", "topo_spaces/src/graph.rs: Graph::subdivided_graph_from, modify_embedding"]}
{"id": "C128", "title": "A printed configuration complex lists every cell once and determines the cells", "statement": "Printing CubicalCplx::udc (and UdnMorseCplx) of a connected graph does not panic and shows for every dimension up to the dimension of the complex a heading (with the right number of cells for UdnMorseCplx) and then each cell of that dimension exactly once. Two complexes that print alike have the same dimension and the same cells in every dimension (and, for udc, the same number of points).", "quantifier": "all pairs of edge lists with connected subdivided graphs, all n >= 1, all bounds on the dimension other than 0 (UdnMorseCplx)", "why_tests_cant": "injectivity of a printer over all complexes", "anchors": ["topo_spaces/src/cubical.rs: Display for CubicalCplx, Display for UdnMorseCplx", "topo_spaces/src/graph.rs: Display for CubeFactor"]}
{"id": "C129", "title": "The printed sparse matrix determines the entries", "statement": "Printing a SparseMatrix shows one line (i, j): v for every stored entry, by rows and in each row by columns; two sparse matrices of the same size print alike exactly when they have the same entries, and printing never panics; different matrices print differently.", "quantifier": "all sizes and all entry functions", "why_tests_cant": "ranges over all matrices and pairs of matrices", "anchors": ["alg/src/lin_alg/sparse_matrix_impl.rs: Display for SparseMatrix, row_iter"]}
{"id": "C13", "title": "Rational values are in canonical form", "statement": "Every Rational obtained from constructors and arithmetic has positive denominator, coprime numerator and denominator, and a single representation of zero, so == is equality of rational numbers.", "quantifier": "all expressions over Rational", "why_tests_cant": "All operation sequences.", "anchors": ["alg/src/commutative/rational_impl.rs: Rational::new, Add, Sub, Mul, Div, Neg; commutative.rs derived PartialEq"]}
{"id": "C130", "title": "A printed LabeledSet lists its members; printed alike means same members", "statement": "After any history of add and remove a LabeledSet prints its members, in the order of the labels, separated by commas in braces; two sets over the same labels print alike exactly when they have the same members.", "quantifier": "all label lists without repetition, all histories, all pairs of sets", "why_tests_cant": "ranges over all histories and label types", "anchors": ["util/src/lib.rs: Display for LabeledSet"]}
{"id": "C131", "title": "Matrix memory is safe for plain entries", "statement": "For an entry type without a destructor, every sequence of matrix statements (from_array, zero, identity, as_matrix of any chain of views, +, -, *, scalar multiples, element assignment, +=, -=, *=, write, swap_rows, swap_cols, row_operation, col_operation, transpose, drop, in any order, on any variables and any chains of sub-ranges and transpositions) either panics exactly where its arguments are out of range or of the wrong size, or completes with every living matrix holding exactly the entries that the mathematical meaning gives it. No cell is read before it was written, none outside the allocation or after the free; a block is freed exactly once, with the layout it was allocated with, and when all matrices are dropped no block remains. Temporaries of row and column operations are freed.", "quantifier": "all programs of these statements, all entry types, all sizes below 2^16", "why_tests_cant": "A program can interleave constructors, views and in-place changes in unboundedly many ways; an uninitialised read or a bad free may go unnoticed in a test run.", "anchors": ["alg/src/lin_alg/matrix_impl.rs: Matrix::new, write, from_array, zero, identity, as_matrix, Add, Sub, Mul, AddAssign, SubAssign, MulAssign, swap_rows, swap_cols, row_operation, col_operation, transpose, Drop, Deref"]}
{"id": "C132", "title": "Matrix memory is safe for entries with a destructor", "statement": "For an entry type that owns memory (AtomicSmoothFn is a PID), matrix programs are defined and the destructor of every stored entry runs exactly once.", "quantifier": "all programs as in C131, all entry types with a destructor", "why_tests_cant": "Destroying a value that was never written, or never destroying one, is not visible in the results of a run.", "anchors": ["alg/src/lin_alg/matrix_impl.rs: Matrix::new, from_array, Add, Sub, Mul, row_operation, col_operation, Drop", "analysis/src/lib.rs: PID for AtomicSmoothFn"]}
{"id": "C133", "title": "Comparing matrices and views", "statement": "== between two matrices, two views, or a view and a matrix, in any state a program reaches, returns whether the sizes and all entries agree.", "quantifier": "all programs as in C131, all pairs of matrices and views, all entry types", "why_tests_cant": "Views of transposed and restricted matrices of every shape; non-termination is not observable by a test.", "anchors": ["alg/src/lin_alg/matrix_impl.rs:559-585 PartialEq"]}
{"id": "C134", "title": "Smith normal form on machine integers", "statement": "On a w-bit signed integer type, smith_normal_form either panics with an overflow (debug build) or returns exactly the result of exact arithmetic: R*M*C = D diagonal with a divisibility chain, R and C invertible over the integers, the first returned matrix the inverse of R; for every matrix a wide enough type returns, and a release build returns the same wherever a debug build does not panic. It never overflows when the matrix and the answer are representable, and a release build is right too: both false.", "quantifier": "all widths w, all integer matrices with at least one row and column", "why_tests_cant": "Overflow depends on the values of intermediate products over all matrices; no test run can show that every returned result is free of undetected overflow.", "anchors": ["alg/src/lin_alg/matrix_impl.rs: Matrix::smith_normal_form, row_operation, col_operation, Mul<T>, Add", "alg/src/commutative.rs: PID::euclid_div, bezout_identity"]}
{"id": "C135", "title": "Integral homology on machine integers", "statement": "For a chain complex over a w-bit integer type IntegralHomology::new in a debug build either panics with an overflow or returns the homology groups, bases of the cycles and of the boundaries of exact arithmetic; for every complex a wide enough type returns; a release build agrees wherever the debug build does not panic. It never overflows when the answer is small, and a release build never reports wrong homology: both false.", "quantifier": "all widths, all chain complexes of nonzero free groups, all cell types, all dimension bounds", "why_tests_cant": "Quantifies over all complexes and all intermediate values of the elimination.", "anchors": ["topo_spaces/src/lib.rs: IntegralHomology::new", "alg/src/lin_alg/matrix_impl.rs: smith_normal_form, Matrix * Vec<Basis>"]}
{"id": "C136", "title": "The numbers of cells of the configuration complex", "statement": "For n points on a connected graph the complex built by CubicalCplx has, in dimension k <= n, exactly M_k * binom(V - 2k, n - k) cells, where V is the number of vertices of the subdivided graph and M_k its number of sets of k pairwise disjoint edges, and none above n; its list of ranks holds these numbers. With v vertices, a edges between different vertices and l loops given and n >= 2: V = v + a max(n-2, 1) + l n, there are binom(V, n) points and (a (max(n-2, 1) + 1) + l (n+1)) binom(V-2, n-1) one-dimensional cells.", "quantifier": "all edge lists whose graph is connected (loops and multiple edges included), all n >= 1 (closed formulas: n >= 2), all dimensions", "why_tests_cant": "an exact count of an enumeration for every graph and every number of points: a cell listed twice or left out changes it", "anchors": ["topo_spaces/src/cubical.rs: CubicalCplx::udc, CubicalCplx::new", "topo_spaces/src/graph.rs: Graph::from, Graph::subdivided_graph_from"]}
{"id": "C137", "title": "Homology of the configuration complex", "statement": "For n points on a connected graph, the Smith normal form of the first boundary matrix of CubicalCplx::boundary_map has one nonzero diagonal entry less than there are 0-cells, all 1 or -1. If the integral homology is computed from the matrices of boundary_map, with any names of the right number for the cells, it does not panic, degree 0 has rank 1, and the alternating sum of the ranks is Gal's number; without 2-cells the first Betti number is 1 minus that number; for one point it is (edges) - (vertices) + 1 of the given multigraph and all higher ranks are 0.", "quantifier": "all edge lists whose graph is connected, all n >= 1, all totally ordered types of names", "why_tests_cant": "relates the enumeration of the cells, the signs of the boundary matrices, the Smith normal form and the homology computation for every graph and every number of points", "anchors": ["topo_spaces/src/cubical.rs: CubicalCplx::udc, boundary_map", "topo_spaces/src/lib.rs: IntegralHomology::new", "alg/src/lin_alg/matrix_impl.rs: smith_normal_form"]}
{"id": "C138", "title": "Euler characteristic and Betti numbers of simplicial complexes as reported", "statement": "For a complex built by attach on at most 64 vertices (see C45), H!(K) reports ranks whose alternating sum is the alternating sum of the numbers of cells; for a graph (dimension 1) with c components the ranks are c in degree 0, (edges) - (vertices) + c in degree 1 and 0 above.", "quantifier": "all attach histories on at most 64 vertices, all label types with decidable equality", "why_tests_cant": "an identity between the cells of an arbitrary history of attach calls and the result of the whole chain boundary_map, smith_normal_form, IntegralHomology", "anchors": ["topo_spaces/src/simplicial/mod_impl.rs: attach, boundary_map", "topo_spaces/src/lib.rs: IntegralHomology::new"]}
{"id": "C139", "title": "Smith form and homology of graphs never overflow", "statement": "For an integer matrix in which every column contains only 0, 1 and -1, with 1 at most once and -1 at most once (the boundary matrix of any graph), `smith_normal_form` never panics and never wraps, on any integer type of two or more bits: debug and release builds return the same exact answer, all entries of the five returned matrices are 0, 1 or -1, and both transformations come with their true inverses (the defect of the column inverse seen for general matrices does not occur). `IntegralHomology::new` of a complex of such matrices is likewise exact in every build, all cycles and boundaries have coefficients 1 and -1, and the only number that can be listed as a divisor is -1. This covers the homology of every one-dimensional simplicial complex built by `attach`. It also covers the first boundary matrix of the configuration complex of any number of points on any connected graph, and the homology of such complexes without 2-cells.", "quantifier": "all matrices of this form, of any size; all complexes of them with any totally ordered bases; all histories of attached simplices of dimension at most 1; all integer widths from 2 bits", "why_tests_cant": "Intermediate values during elimination depend on the pivot order and on all entries; that they stay in {-1,0,1} for graphs of any size needs an invariant (contracting components along a forest), not samples.", "anchors": ["alg/src/lin_alg/matrix_impl.rs: Matrix::smith_normal_form", "topo_spaces/src/lib.rs: IntegralHomology::new", "topo_spaces/src/simplicial/mod_impl.rs: attach, boundary_map", "topo_spaces/src/cubical.rs: CubicalCplx::boundary_map"]}
{"id": "C14", "title": "Rational arithmetic agrees with the field Q", "statement": "new, +, -, *, / and unary minus compute the rational number they denote; division by zero (and a zero denominator) panics.", "quantifier": "all rational operands", "why_tests_cant": "All operands and sign combinations.", "anchors": ["alg/src/commutative/rational_impl.rs: Add, Sub, Mul, Div, Neg"]}
{"id": "C140", "title": "Isomorphic simplicial complexes get the same homology report", "statement": "If two lists of attached simplices differ by renaming the vertices, by the order of the simplices, by the order of the vertices inside a simplex, or by redundant faces, then IntegralHomology reports the same free rank and the same torsion (divisors other than 1 and -1, up to sign) in every degree, although the vertex numbering, the order of the cells and the signs of the boundary matrices all differ. For every chain complex the reported numbers are the invariants of cycles modulo boundaries: any presentation as Z^r x Z/e1 x .. with each e dividing the next gives the same rank and the same divisors.", "quantifier": "all pairs of isomorphic complexes with at most 64 vertices, all orders of their bases, all degrees; for the second part all chain complexes", "why_tests_cant": "two runs on arbitrary isomorphic inputs follow different elimination paths; equality of their results rests on the uniqueness of invariant factors", "anchors": ["topo_spaces/src/simplicial/mod_impl.rs: SimplicialCplx::attach, boundary_map", "topo_spaces/src/lib.rs: IntegralHomology::new"]}
{"id": "C141", "title": "Cones and single simplices are reported as a point", "statement": "If every attached simplex together with some fixed vertex lies in an attached simplex (a cone; in particular when one simplex of any dimension is attached), IntegralHomology reports free rank 1 in degree 0, free rank 0 in every other degree and no torsion, whatever the order in which the simplices and vertices were given.", "quantifier": "all cones with at most 64 vertices, any dimension, any vertex type, any order of the bases, any truncation degree", "why_tests_cant": "all complexes of unbounded dimension and every elimination path of the Smith form; needs a chain contraction argument", "anchors": ["topo_spaces/src/simplicial/mod_impl.rs: SimplicialCplx::attach, boundary_map", "topo_spaces/src/lib.rs: IntegralHomology::new"]}
{"id": "C142", "title": "The surface of a simplex is reported as a sphere", "statement": "When the proper faces of an (n+1)-simplex are attached (for example its facets, one after the other, or any other list of simplices generating the same faces, in any order), n >= 1, IntegralHomology reports free rank 1 in degrees 0 and n, free rank 0 elsewhere and no torsion; with a truncation degree below n the top class is not listed.", "quantifier": "all n >= 1 with n+2 <= 64 vertices, any vertex type, all attaching orders and bases, all truncation degrees", "why_tests_cant": "all dimensions; the largest of these complexes have far too many cells to run", "anchors": ["topo_spaces/src/simplicial/mod_impl.rs: SimplicialCplx::attach, boundary_map", "topo_spaces/src/lib.rs: IntegralHomology::new"]}
{"id": "C143", "title": "An elementary collapse does not change the homology report", "statement": "If sigma is a free face of a complex (one simplex tau = sigma plus one vertex contains it properly, and no other), the complex and what is left after removing sigma and tau get the same free ranks and the same torsion from IntegralHomology in every degree, whatever lists of simplices were attached to build the two complexes, even when the removal lowers the dimension. The same holds for any number of collapses one after the other; a complex that collapses to a vertex is reported as a point.", "quantifier": "all lists of attached simplices with at most 64 vertices, all vertex types with an equality, all free faces, all sequences of collapses, all truncation degrees", "why_tests_cant": "homotopy invariance relates two runs on unboundedly many pairs of complexes", "anchors": ["topo_spaces/src/simplicial/mod_impl.rs: SimplicialCplx::attach, boundary_map", "topo_spaces/src/lib.rs: IntegralHomology::new"]}
{"id": "C144", "title": "A printed smooth function determines its values", "statement": "If two smooth functions that were made from coordinates and constants with the operators and methods (sums, products, quotients, powers, sin, cos, partial derivatives, ...) print the same text, then they are defined at the same points and have the same values there; the printed text of a function with several components determines the number of components and the values of each. This also holds for values made directly with the public enum variants as long as no Product is directly a factor of a Product, and fails without that condition: the square of x0 x1 and x0 times the square of x1, as nested Products, print alike. The text can be empty: the derivative of 1 / (1 / x) is printed as nothing.", "quantifier": "for all functions reachable with the operators (any expression), all points, and every printing of f64 that is injective and prints 32-bit integers as integers", "why_tests_cant": "a test compares a few texts; ambiguity of the notation is a statement about all pairs of expressions of any depth", "anchors": ["analysis/src/lib.rs:384 Display for AtomicSmoothFn", "analysis/src/lib.rs:589 Display for MultiVarFn", "alg/src/lin_alg.rs:409 Display for Vector"]}
{"id": "C145", "title": "The homology of a union with at most one common vertex is the direct sum", "statement": "Attach the simplices of two histories to one SimplicialCplx. If the two lists have at most one vertex in common, then in every positive degree the group that IntegralHomology::new reports for the result is isomorphic to the direct sum of the groups it reports for the two complexes built separately: the free ranks add and the orders of the torsion subgroups multiply. If they have no vertex in common this holds in degree 0 as well. It does not depend on the order of the vertices, the comparison functions or max_dim.", "quantifier": "all pairs of non-empty lists of non-empty simplices with distinct vertices sharing at most one vertex, at most 64 vertices in all, all comparison functions that are total orders, all bounds on the degree", "why_tests_cant": "it compares the reports of three complexes, in all degrees and for all complexes; each report goes through cell enumeration, signs and Smith normal form", "anchors": ["topo_spaces/src/simplicial/mod_impl.rs: SimplicialCplx::attach, boundary_map", "topo_spaces/src/lib.rs: IntegralHomology::new"]}
{"id": "C146", "title": "Norms at f64 with rounding", "statement": "At f64, whenever the result is finite, two_norm of a column, frobenius_norm, and the dot product and two_norm of a ConstVector differ from the exact norm (dot product) of the stored entries only by the rounding of their products, sums and square root, with a relative bound (1+2^-53)^(entries+1)-1 plus an underflow term; one_norm and inf_norm differ from the largest column (row) sum by the relative bound of one sum if no entry is NaN; a vector of at most 2^23 entries of size at most 2^500 has a finite two_norm. Refuted outside these hypotheses: one_norm and inf_norm of a matrix with a NaN entry can be 0, two_norm of [2^600] is infinite and two_norm of [2^-600] is 0.", "quantifier": "every matrix and every constant vector of f64 entries, of any size", "why_tests_cant": "rounding errors accumulate over the sizes and values; a test compares a few vectors with a tolerance", "anchors": ["alg/src/lin_alg/matrix_impl.rs: SubMatrix<f64>::one_norm, two_norm, inf_norm, frobenius_norm", "alg/src/lin_alg/const_matrix_impl.rs: ConstVector::dot, ConstVector::two_norm"]}
{"id": "C147", "title": "Conversion of Rational to f64", "statement": "Into<f64> of a canonical Rational whose numerator and denominator fit in u64 is finite, has the sign of the rational number, is zero only for zero, and differs from it by at most 4*2^-53 times its size; if both parts are at most 2^53 it is the nearest f64 and the conversion keeps the order. Refuted beyond 53 bits: (2^53-3)/2^53 < (2^53+1)/(2^53+3) but the converted values are in the opposite order; 1/(-0) converts to minus infinity.", "quantifier": "every canonical Rational with 64-bit parts", "why_tests_cant": "2^128 pairs of parts; the order is only lost for parts above 2^53", "anchors": ["alg/src/commutative/rational_impl.rs: impl Into<f64> for Rational"]}
{"id": "C148", "title": "The Laplacian of an f64-weighted graph", "statement": "For every list of finite f64 weights, laplacian() has off-diagonal entries that are exactly the negated weights and is exactly symmetric; each finite diagonal entry is the weighted degree, and each row sums to zero, up to gamma_n times the sum of the absolute weights of the row. Twice the quadratic form differs from the weighted sum of squared differences by at most 2 gamma_n times the sum of absolute degrees times x_i^2, so for weights that are not negative the form is not below the rounding error. Rows need not sum to zero exactly: the star with the weights 2^53, 1 and 1 has a row that sums to -2.", "quantifier": "all lists of labelled edges with finite f64 weights, all real vectors", "why_tests_cant": "the rounding bound is over all weights and all numbers of vertices, and semidefiniteness is over all real vectors", "anchors": ["topo_spaces/src/graph.rs: WeightedSimpleGraph::from, WeightedSimpleGraph::laplacian"]}
{"id": "C149", "title": "Sparse products of f64 matrices equal the dense product bit for bit", "statement": "For sparse f64 matrices that have at least one entry and store only finite values, sparse*sparse, sparse*dense and dense*sparse return exactly the matrix the dense product returns (including signed zeros, overflows and not-a-number results, up to NaN payloads), although they skip the entries that are not stored. With one dense operand only that operand has to be finite. If an infinite value meets an entry that is not stored the dense product is NaN and the sparse ones are not.", "quantifier": "all sizes, all patterns of stored entries, all finite f64 values", "why_tests_cant": "bit-for-bit agreement under rounding for every pattern of zeros; sample values rarely show a reordered sum or a negative zero", "anchors": ["alg/src/lin_alg/sparse_matrix_impl.rs: Mul for SparseMatrix", "alg/src/lin_alg/matrix_impl.rs: Mul for Matrix"]}
{"id": "C15", "title": "Rational ordering agrees with Q", "statement": "cmp/partial_cmp is the total order of the rational numbers denoted, never panicking.", "quantifier": "all pairs of rationals", "why_tests_cant": "All pairs including zeros and mixed signs.", "anchors": ["alg/src/commutative/rational_impl.rs: Ord::cmp"]}
{"id": "C150", "title": "Integer matrices stored as f64 are computed with exactly", "statement": "For f64 matrices whose entries are integers, sums, differences and products are exactly those the same code computes over the integers, and the Laplacian of a graph with integer weights is exact (its rows sum to zero exactly), provided the sums of the absolute values of the terms of each entry stay within 2^53. At 2^53 + 1 the product is wrong.", "quantifier": "all sizes, all integer entries and weights within the bound", "why_tests_cant": "exactness for every size and every combination of entries up to a bound near 10^16", "anchors": ["alg/src/lin_alg/matrix_impl.rs: Add, Sub, Mul for Matrix", "topo_spaces/src/graph.rs: WeightedSimpleGraph::laplacian"]}
{"id": "C151", "title": "Which laws of matrix arithmetic survive rounding", "statement": "At f64 matrix addition commutes bit for bit, the transpose of a product is the product of the transposes in reverse order bit for bit, and the Gram matrix A^T A is exactly symmetric; if A has no NaN the diagonal of A^T A is not negative and has no NaN (overflow included). Multiplying a finite matrix by the identity keeps every value. Not kept: associativity of addition (2^53, 1, 1), and the product with the identity when an entry is infinite.", "quantifier": "all sizes, all f64 entries including infinities, NaN and signed zeros", "why_tests_cant": "bitwise identities over all f64 values; a reordered sum would break symmetry only for rare roundings", "anchors": ["alg/src/lin_alg/matrix_impl.rs: Mul for Matrix, Add for Matrix, transpose, identity"]}
{"id": "C152", "title": "LU, determinant and solve on diagonally dominant and positive definite matrices", "statement": "In exact real arithmetic, on every square matrix of order n > 0 whose diagonal entries exceed in absolute value the sum of the others in their row (or column), and on every matrix whose quadratic form is positive definite (symmetric or not), `lu` and `det` return, `det` is the determinant and is not zero, and `solve` returns a matrix whose first column solves the system for every right-hand side with n rows; the determinant is positive for positive definite matrices and for dominant ones with a positive diagonal. Strictness is needed: `solve` divides by zero on a matrix whose diagonal entries equal the rest of their rows.", "quantifier": "every order, every real matrix that is strictly diagonally dominant or positive definite, every right-hand side", "why_tests_cant": "Absence of a zero pivot for all matrices of a class of every order.", "anchors": ["alg/src/lin_alg/matrix_impl.rs: lu, det, solve"]}
{"id": "C153", "title": "Least squares and ridge regression by the normal equations", "statement": "In exact real arithmetic, for every matrix A whose columns are linearly independent and every column b with as many rows, `(A.transpose() * A).solve(A.transpose() * b)` returns a column, and it is the one and only vector minimising the sum of squares of A y - b. For every matrix A whatever and c > 0, adding `Matrix::identity(n) * c` to the square matrix gives the one and only minimiser of |A y - b|^2 + c |y|^2. Without independent columns the plain equations can divide by zero.", "quantifier": "every rectangular real matrix with a column, every right-hand side, every c > 0, every competitor y", "why_tests_cant": "Optimality against all vectors, for all matrices of all sizes.", "anchors": ["alg/src/lin_alg/matrix_impl.rs: transpose, Mul, Add, identity, solve"]}
{"id": "C154", "title": "LU keeps the band of a matrix and leaves triangular matrices alone", "statement": "Over every field with exact arithmetic, the factors `lu` stores are zero wherever the matrix has a leading zero of its row or of its column; so a matrix with p diagonals below the main one and q above has factors with p and q. On a triangular matrix (upper or lower) `lu` and `det` stay finite exactly when no diagonal entry but perhaps the last is zero, `solve` exactly when none is; `det` is then the product of the diagonal; an upper triangular matrix comes back from `lu` unchanged, a lower triangular one with the entries below the diagonal divided by the diagonal entry of their column.", "quantifier": "every field, every order, every matrix, every bandwidth and envelope", "why_tests_cant": "Absence of fill-in for all patterns of zeros of all orders.", "anchors": ["alg/src/lin_alg/matrix_impl.rs: lu, det, solve"]}
{"id": "C155", "title": "LU of symmetric matrices and Sylvester's test", "statement": "Over every field with exact arithmetic, the factors `lu` stores for a symmetric matrix are transposes of each other up to the diagonal D of the result, and the matrix is L D L^T. Over the reals, a symmetric matrix is positive definite exactly when `lu` returns with a positive diagonal, and exactly when its leading minors are positive. Without symmetry a positive diagonal proves nothing.", "quantifier": "every field (every real matrix for the test), every order, every symmetric matrix", "why_tests_cant": "An equivalence quantified over all vectors, for all matrices of all orders.", "anchors": ["alg/src/lin_alg/matrix_impl.rs: lu, det"]}
{"id": "C156", "title": "det of the transpose and of a multiple, lu of a leading block", "statement": "Over every field with exact arithmetic, for every square matrix of order n > 0: `det` of the transpose equals `det` of the matrix, and one is finite exactly when the other is; `det` of the matrix times c (c not zero) is c^n times `det`, finite on the same matrices; and the leading block of the factors `lu` stores is what `lu` gives on the leading block.", "quantifier": "every field, every order, every square matrix, every factor but zero, every size of block", "why_tests_cant": "Equations between results for all matrices of all orders, including where the code leaves the finite numbers.", "anchors": ["alg/src/lin_alg/matrix_impl.rs: lu, det, transpose, Mul<T>"]}
{"id": "C157", "title": "det of a product and under row operations", "statement": "Over every field with exact arithmetic, for square matrices of the same order n > 0: when `det` is finite on A, B and A * B, it is multiplicative (and when it is finite on A and A * B only, `det` of the product is `det` of A times the determinant of B); adding a multiple of a row to another keeps `det`, and exchanging two rows changes its sign, whenever it is finite before and after. Finiteness is not inherited: `det` of a product can leave the finite numbers although that of both factors is finite.", "quantifier": "every field, every order, every pair of square matrices, every pair of rows and factor", "why_tests_cant": "Equations between determinants for all matrices of all orders.", "anchors": ["alg/src/lin_alg/matrix_impl.rs: det, Mul, row_operation, swap_rows"]}
{"id": "C158", "title": "Cramer's rule for solve, uniqueness of the factors of lu", "statement": "Over every field with exact arithmetic: whenever `solve` of a square system stays finite, `det` of the matrix is finite and not zero, and each entry of the first column of the result times it is the determinant of the matrix with the first column of the right-hand side in the place of that column (Cramer's rule). Whatever unit lower triangular and upper triangular matrices multiply to a matrix, `lu` of that matrix stays finite exactly when no diagonal entry of the second but perhaps the last is zero, and then returns exactly these two.", "quantifier": "every field, every order, every system, every pair of triangular matrices", "why_tests_cant": "Equations and uniqueness for all matrices of all orders.", "anchors": ["alg/src/lin_alg/matrix_impl.rs: solve, lu, det"]}
{"id": "C159", "title": "solve undoes multiplication and is linear", "statement": "Over every field with exact arithmetic, for every square matrix A of order n > 0 without a zero leading minor and every column x with n rows: `solve` of A and A * x is x, and A times `solve` of A and x is x. Whenever `solve` stays finite on two columns, it takes their sum to the sum of the solutions and a multiple to the multiple.", "quantifier": "every field, every order, every such matrix, every column", "why_tests_cant": "Inverse laws and linearity for all systems of all orders.", "anchors": ["alg/src/lin_alg/matrix_impl.rs: solve, Mul, Add, Mul<T>"]}
{"id": "C16", "title": "Rational Sum and Product fold the whole iterator", "statement": "sum() of an iterator of Rationals is the sum and product() is the product of its elements (empty sum 0, empty product 1).", "quantifier": "all finite iterators", "why_tests_cant": "All lengths.", "anchors": ["alg/src/commutative/rational_impl.rs: Sum, Product"]}
{"id": "C160", "title": "Elimination on the Laplacian of a weighted graph", "statement": "In exact real arithmetic, for every weighted graph with non-negative weights: with c > 0 times the identity added, `det` of the Laplacian is finite and positive and `solve` returns the solution for every column, whose entries times c have the sum of the right-hand side; for the Laplacian itself `solve` divides by zero for every right-hand side and `det` is 0 when it is finite; when the edges of non-zero weight connect all labels, `lu` returns with positive pivots but the last, and `det` is 0.", "quantifier": "every list of weighted edges with non-negative weights, every factor, every right-hand side", "why_tests_cant": "Ranges over all graphs, weights and right-hand sides.", "anchors": ["topo_spaces/src/graph.rs: laplacian (1715)", "alg/src/lin_alg/matrix_impl.rs: lu, det, solve"]}
{"id": "C17", "title": "Cycle construction is canonical", "statement": "A Cycle built from a duplicate-free list acts as x_i -> x_{i+1} cyclically and fixes everything else, whatever rotation of the list is given; equal as values iff equal as functions; a list with repeats is rejected.", "quantifier": "all lists of indices", "why_tests_cant": "All lists and rotations.", "anchors": ["alg/src/non_commutative/permutation.rs: Cycle::from, bring_smallest_first, map"]}
{"id": "C18", "title": "Permutation product is composition", "statement": "(p*q).map(x) = p.map(q.map(x)) for every x, and the product of valid permutations is a valid permutation in canonical disjoint-cycle form.", "quantifier": "all permutations p, q and all points", "why_tests_cant": "Unbounded support; cycle-chasing loop.", "anchors": ["alg/src/non_commutative/permutation.rs: Mul for Permutation, Permutation::map"]}
{"id": "C19", "title": "Permutation equality is extensional", "statement": "Two permutations built through the API are equal iff they map every point equally.", "quantifier": "all reachable permutations", "why_tests_cant": "All pairs.", "anchors": ["alg/src/non_commutative/permutation.rs: Permutation::from_disjoint_cycles, derived PartialEq"]}
{"id": "C20", "title": "Permutation is a bijection with the claimed support", "statement": "map is a bijection of the naturals, moves exactly the points listed by unfixed_indeces_iter, and each such point once.", "quantifier": "all permutations", "why_tests_cant": "Infinite domain.", "anchors": ["alg/src/non_commutative/permutation.rs: Permutation::map, unfixed_indeces_iter"]}
{"id": "C21", "title": "Permutation inverse and group laws", "statement": "p*p.inverse() and p.inverse()*p are the identity; multiplication is associative with identity neutral; inverse of inverse is p.", "quantifier": "all permutations", "why_tests_cant": "All permutations.", "anchors": ["alg/src/non_commutative/permutation.rs: Group for Permutation, alg/src/non_commutative.rs: Group::inverse"]}
{"id": "C22", "title": "Permutation decomposition into generators", "statement": "in_terms_of_gens returns transpositions whose product is the permutation.", "quantifier": "all permutations", "why_tests_cant": "All permutations.", "anchors": ["alg/src/non_commutative/permutation.rs: in_terms_of_gens"]}
{"id": "C23", "title": "Permutation power is iterated product", "statement": "p^n is the n-fold product for n >= 0 and the inverse's for negative n.", "quantifier": "all permutations, all integer exponents", "why_tests_cant": "All exponents.", "anchors": ["alg/src/non_commutative/permutation.rs: BitXor for Permutation"]}
{"id": "C24", "title": "Permutation action on a vector", "statement": "Acting on a Vec by a permutation moves elements according to the permutation and acting by a product equals acting successively.", "quantifier": "all vectors, all permutations within range", "why_tests_cant": "All vectors and permutations.", "anchors": ["alg/src/non_commutative/permutation.rs: Gset for Vec, alg/src/non_commutative.rs: Gset::action_by"]}
{"id": "C25", "title": "Permutation::swap exchanges two blocks", "statement": "swap(r1,r2) of two disjoint ranges maps the first block onto the place of the second and vice versa keeping inner order and the order of the points in between.", "quantifier": "all pairs of disjoint ranges", "why_tests_cant": "Recursive block-swap.", "anchors": ["alg/src/non_commutative/permutation.rs: Permutation::swap, swap_ranges_of_the_same_length"]}
{"id": "C26", "title": "VecPermutation / ConstPermutation group operations", "statement": "Product is composition of the index maps, inverse is the inverse map, order is the least positive exponent giving the identity.", "quantifier": "all index permutations", "why_tests_cant": "All sizes.", "anchors": ["alg/src/non_commutative/permutation.rs: ConstPermutation, VecPermutation: Mul, inverse, order, eval"]}
{"id": "C27", "title": "Formal sums: coefficient arithmetic", "statement": "For Vector formal sums, the coefficient of every basis element in v+w, v-w, -v, c*v is the sum, difference, negation, multiple of the coefficients; no zero coefficient and no repeated basis element is stored.", "quantifier": "all formal sums", "why_tests_cant": "All sums, all overlaps of supports.", "anchors": ["alg/src/lin_alg.rs: Vector, Add, Sub, Neg, Mul, Sum, formal_sum_impl!"]}
{"id": "C28", "title": "Merging sorted iterators", "statement": "merge_by on sorted inputs yields a sorted permutation of all their items.", "quantifier": "all sorted inputs", "why_tests_cant": "All interleavings.", "anchors": ["alg/src/lin_alg.rs: Merge, merge_by"]}
{"id": "C29", "title": "Module isomorphism test", "statement": "Module::is_isomorphic_to / is_zero depend only on the isomorphism class described by free rank and elementary divisors.", "quantifier": "all modules", "why_tests_cant": "All divisor lists.", "anchors": ["alg/src/lin_alg.rs: Module::new, is_isomorphic_to, is_zero"]}
{"id": "C30", "title": "Fat-pointer encoding of matrix views is lossless", "statement": "For sizes and strides below 2^16, extract(compress(size, offsets)) = (size, offsets).", "quantifier": "all sizes and strides", "why_tests_cant": "2^64 combinations.", "anchors": ["alg/src/lin_alg/matrix_impl.rs: compress, extract"]}
{"id": "C31", "title": "Matrix views address exactly the right entries", "statement": "Indexing by ranges, transposing, and any composition of the two gives a view whose (i,j) entry is the corresponding entry of the underlying matrix; out-of-range indices panic and in-range ones never leave the allocation; writes through a view change exactly the viewed entry.", "quantifier": "all matrices, all nested views", "why_tests_cant": "All nestings of sub-ranges and transposes (unsafe pointer arithmetic).", "anchors": ["alg/src/lin_alg/matrix_impl.rs: SubMatrix::{index,index_mut,transpose}, unpack_bounds_for_sub, check_bounds_for_sub"]}
{"id": "C32", "title": "Matrix ring operations", "statement": "+, -, scalar * and matrix * on (sub)matrices compute the mathematical operations entrywise / row-by-column, mismatched sizes panic, and multiplication is associative, distributes, and has identity() as unit.", "quantifier": "all conforming sizes and entries", "why_tests_cant": "All sizes.", "anchors": ["alg/src/lin_alg/matrix_impl.rs: Add, Sub, Mul for SubMatrix, dot, Matrix::identity, Matrix::zero"]}
{"id": "C33", "title": "Elementary row and column operations", "statement": "swap_rows/swap_cols/row_operation/col_operation change exactly the stated rows/columns, as multiplication by the corresponding elementary matrix.", "quantifier": "all matrices, indices, scalars", "why_tests_cant": "All sizes and aliasing choices (r1 = r2).", "anchors": ["alg/src/lin_alg/matrix_impl.rs: swap_rows, swap_cols, row_operation, col_operation"]}
{"id": "C34", "title": "Smith normal form factors the input", "statement": "smith_normal_form terminates on every integer matrix with R*M*C = D where R and C are the returned operation matrices.", "quantifier": "all integer matrices of positive size", "why_tests_cant": "Termination and algebra over unbounded matrices.", "anchors": ["alg/src/lin_alg/matrix_impl.rs: Matrix::smith_normal_form"]}
{"id": "C35", "title": "Smith normal form is diagonal with divisibility chain", "statement": "The returned D is zero off the diagonal, its nonzero diagonal entries come first and each divides the next.", "quantifier": "all integer matrices", "why_tests_cant": "All matrices.", "anchors": ["alg/src/lin_alg/matrix_impl.rs: Matrix::smith_normal_form"]}
{"id": "C36", "title": "Smith normal form row transform is invertible with the returned inverse", "statement": "The first two returned matrices are mutually inverse.", "quantifier": "all integer matrices", "why_tests_cant": "All matrices.", "anchors": ["alg/src/lin_alg/matrix_impl.rs: Matrix::smith_normal_form"]}
{"id": "C37", "title": "Smith normal form column transform is invertible with the returned inverse", "statement": "The last two returned matrices are mutually inverse.", "quantifier": "all integer matrices", "why_tests_cant": "All matrices; only inputs needing a divisibility fix reach the last branch.", "anchors": ["alg/src/lin_alg/matrix_impl.rs: Matrix::smith_normal_form"]}
{"id": "C38", "title": "rank_as_linear_map is the rank", "statement": "rank_as_linear_map returns the rank of the matrix over the field.", "quantifier": "all matrices over Q", "why_tests_cant": "All matrices.", "anchors": ["alg/src/lin_alg/matrix_impl.rs: Matrix::rank_as_linear_map"]}
{"id": "C39", "title": "Matrix::from_array is faithful", "statement": "matrix built from a rectangular nested array has exactly those entries and size; a ragged array is rejected.", "quantifier": "all nested arrays", "why_tests_cant": "All shapes.", "anchors": ["alg/src/lin_alg/matrix_impl.rs: Matrix::from_array"]}
{"id": "C40", "title": "Sparse matrix iteration and equality", "statement": "A SparseMatrix built from an entry function lists, per row and per column, exactly the non-empty entries in increasing index order; transposing exchanges the two.", "quantifier": "all entry functions and sizes", "why_tests_cant": "All sparsity patterns.", "anchors": ["alg/src/lin_alg/sparse_matrix_impl.rs: SparseMatrix::from_fn, row_iter, col_iter, transpose"]}
{"id": "C41", "title": "Sparse products agree with dense products", "statement": "Sparse*sparse, sparse*dense and dense*sparse products equal the dense product of the represented matrices.", "quantifier": "all conforming matrices", "why_tests_cant": "All sparsity patterns.", "anchors": ["alg/src/lin_alg/sparse_matrix_impl.rs: Mul impls"]}
{"id": "C42", "title": "Const vectors/matrices arithmetic", "statement": "ConstVector/ConstMatrix +, -, scalar *, dot, identity agree with entrywise definitions.", "quantifier": "all sizes and entries", "why_tests_cant": "All sizes.", "anchors": ["alg/src/lin_alg/const_matrix_impl.rs"]}
{"id": "C43", "title": "Integral homology of a chain complex is computed correctly", "statement": "For boundary maps with d*d=0, the reported module in degree k has free rank dim C_k - rank d_k - rank d_{k+1} and torsion given by the non-unit elementary divisors of d_{k+1}.", "quantifier": "all chain complexes", "why_tests_cant": "All complexes.", "anchors": ["topo_spaces/src/lib.rs: IntegralHomology::new, H!"]}
{"id": "C44", "title": "Homology with field coefficients", "statement": "homology reports dim C_k - rank d_k - rank d_{k+1}.", "quantifier": "all complexes", "why_tests_cant": "All complexes.", "anchors": ["topo_spaces/src/lib.rs: HomologyWithFieldCoefficients::homology"]}
{"id": "C45", "title": "Attaching simplices yields the generated complex", "statement": "After any sequence of attach calls, the i-cells are exactly the (i+1)-subsets of some attached simplex, and the stored maximal cells form an antichain.", "quantifier": "all attach histories", "why_tests_cant": "All histories, number of vertices crossing word boundary.", "anchors": ["topo_spaces/src/simplicial/mod_impl.rs: SimplicialCplx::attach, get_i_cells, SimplicialCell"]}
{"id": "C46", "title": "Simplicial boundary of boundary is zero", "statement": "For every complex and dimension, boundary_map composed with the next boundary_map is the zero matrix.", "quantifier": "all complexes", "why_tests_cant": "All complexes.", "anchors": ["topo_spaces/src/simplicial/mod_impl.rs: boundary_map, get_face"]}
{"id": "C47", "title": "n_cells_of_dim counts cells", "statement": "n_cells_of_dim(i) equals the number of i-cells listed by get_i_cells.", "quantifier": "all complexes", "why_tests_cant": "Inclusion-exclusion over subsets of maximal cells.", "anchors": ["topo_spaces/src/simplicial/mod_impl.rs: n_cells_of_dim"]}
{"id": "C48", "title": "Simple graph edge set refinement", "statement": "For RawSimpleGraph, any history of add_edge/remove_edge/swap/remove_edges_adjacent_to behaves as on an abstract set of unordered vertex pairs; contains, n_edges, degree_of and adjacent_vertices_iter agree with that set.", "quantifier": "all graphs and histories", "why_tests_cant": "Triangular index packing for every size.", "anchors": ["topo_spaces/src/graph.rs: RawSimpleGraph"]}
{"id": "C49", "title": "Graph connectivity", "statement": "is_connected is true iff every two vertices are joined by a path.", "quantifier": "all graphs", "why_tests_cant": "All graphs.", "anchors": ["topo_spaces/src/graph.rs: RawSimpleGraph::is_connected"]}
{"id": "C50", "title": "Graph construction counts edges", "statement": "Graph::from keeps each edge with its multiplicity and the reported counts of vertices and edges agree.", "quantifier": "all edge lists", "why_tests_cant": "All multigraphs with loops.", "anchors": ["topo_spaces/src/graph.rs: Graph::from"]}
{"id": "C51", "title": "Graph edge iterator", "statement": "edge_iter lists each edge exactly once.", "quantifier": "all graphs", "why_tests_cant": "All graphs.", "anchors": ["topo_spaces/src/graph.rs: EdgeIter"]}
{"id": "C52", "title": "Relabelling a graph by a permutation", "statement": "Acting on a graph by a permutation yields the graph in which images of adjacent vertices are adjacent; acting by a product is acting successively.", "quantifier": "all graphs and permutations", "why_tests_cant": "All graphs.", "anchors": ["topo_spaces/src/graph.rs: Gset for RawSimpleGraph"]}
{"id": "C53", "title": "Maximal tree", "statement": "choose_maximal_tree on a connected graph yields a spanning tree compatible with the new vertex order: each non-root vertex has exactly one smaller tree neighbour.", "quantifier": "all connected graphs", "why_tests_cant": "All graphs.", "anchors": ["topo_spaces/src/graph.rs: choose_maximal_tree, maximal_tree_contains"]}
{"id": "C54", "title": "Graph Laplacian", "statement": "The Laplacian of a weighted graph is symmetric and its rows sum to zero.", "quantifier": "all weighted graphs", "why_tests_cant": "All graphs.", "anchors": ["topo_spaces/src/graph.rs: WeightedSimpleGraph::laplacian"]}
{"id": "C55", "title": "Cube boundary of boundary is zero", "statement": "The boundary of the boundary of every cube of a graph configuration space cancels.", "quantifier": "all cubes of all dimensions", "why_tests_cant": "All cubes.", "anchors": ["topo_spaces/src/cubical.rs: Cube::get_boundary, CubicalCplx::boundary_map"]}
{"id": "C56", "title": "Unordered configuration cells are enumerated once", "statement": "udc enumerates exactly the sets of n pairwise disjoint closed cells of the graph.", "quantifier": "all graphs and n", "why_tests_cant": "Recursive tree expansion.", "anchors": ["topo_spaces/src/cubical.rs: CubicalCplx::udc, expand"]}
{"id": "C57", "title": "Edge paths: inverse and composition", "statement": "An EdgePath composed with its inverse reduces to the trivial path, and evaluation to a permutation is multiplicative.", "quantifier": "all edge paths", "why_tests_cant": "All words.", "anchors": ["topo_spaces/src/cubical.rs: EdgePath"]}
{"id": "C58", "title": "Delaunay triangulation index sanity", "statement": "delaunay_triangulation of a non-empty list whose distances can be compared does not panic; each output triangle has three strictly increasing indices below the number of points, no triangle occurs twice, the triangles are the points with these indices, and each fails the circle test for the points after its last vertex. Without points the call panics.", "quantifier": "all point lists and all outcomes of the floating-point circle test", "why_tests_cant": "All geometric predicates.", "anchors": ["geom/src/lib.rs: delaunay_triangulation"]}
{"id": "C59", "title": "Smooth function algebra preserves evaluation", "statement": "eval of f+g, f-g, f*g, c*f, -f, f.powi(n) equals the operation on the evals, at every point.", "quantifier": "all expressions, all points", "why_tests_cant": "All expression trees.", "anchors": ["analysis/src/lib.rs: AtomicSmoothFn ops, eval"]}
{"id": "C60", "title": "Symbolic partial derivative is the derivative", "statement": "eval of partial_derivative(i) at x is the partial derivative of eval in direction i at x.", "quantifier": "all expressions, all points of the domain", "why_tests_cant": "All expression trees.", "anchors": ["analysis/src/lib.rs: partial_derivative"]}
{"id": "C61", "title": "Change of basis: integer matrix times a list of basis cells", "statement": "Matrix<i64> * Vec<Basis> panics exactly when the number of columns differs from the number of cells; otherwise the i-th resulting formal sum is canonical and has, at each listed cell, the entry of row i in the column of that cell (and 0 at every other cell).", "quantifier": "all matrices, all cell lists, all total orders on cells", "why_tests_cant": "All sizes, including lists with repeated cells where coefficients must add up.", "anchors": ["alg/src/lin_alg/matrix_impl.rs: Mul<Vec<Basis>> for Matrix<i64>"]}
{"id": "C62", "title": "Reported cycles form a basis of the cycle group", "statement": "For every chain complex, the cycles stored by IntegralHomology in degree k are canonical formal sums supported on the k-cells, are killed by the k-th boundary map, are linearly independent over Z and generate every cycle.", "quantifier": "all chain complexes, all degrees", "why_tests_cant": "Spanning and independence over Z for every complex.", "anchors": ["topo_spaces/src/lib.rs: IntegralHomology::new (cycles)"]}
{"id": "C63", "title": "Reported boundaries form a basis of the boundary group", "statement": "For every chain complex, the boundaries stored by IntegralHomology in degree k form a Z-basis of the image of the (k+1)-st boundary map.", "quantifier": "all chain complexes, all degrees", "why_tests_cant": "Spanning and independence over Z for every complex.", "anchors": ["topo_spaces/src/lib.rs: IntegralHomology::new (boundaries)"]}
{"id": "C64", "title": "SimplicialCplx::is_connected decides connectedness", "statement": "For every sequence of attached simplices, is_connected returns true exactly when any two vertices of the complex are linked by a chain of vertices in which consecutive ones belong to a common attached simplex; the loop terminates and never panics on a non-empty complex.", "quantifier": "all finite sequences of valid simplices (any number of components, any overlap pattern)", "why_tests_cant": "the loop grows a union of touching cells until its dimension stops changing; correctness is a fixpoint argument over every overlap pattern", "anchors": ["topo_spaces/src/simplicial/mod_impl.rs: SimplicialCplx::is_connected", "topo_spaces/src/simplicial/mod_impl.rs: SimplicialCell::join"]}
{"id": "C65", "title": "new_from_zero_skeleton builds the discrete complex on the given labels", "statement": "For every list of distinct labels, new_from_zero_skeleton returns a complex whose labelled zero skeleton is that list.", "quantifier": "all lists of labels", "why_tests_cant": "the constructor passes the fixed ambient size 1 for every vertex, so success depends on the length of the list; all lengths matter", "anchors": ["topo_spaces/src/simplicial/mod_impl.rs: SimplicialCplx::new_from_zero_skeleton", "topo_spaces/src/simplicial/mod_impl.rs: SimplicialCell::new"]}
{"id": "C66", "title": "Subdivision of a labelled multigraph", "statement": "subdivided_graph_from lists every label once and the inner vertices of every edge with the documented positions, makes exactly consecutive vertices adjacent, gives a simple graph with the computed number of vertices, and panics only when no tree can be chosen.", "quantifier": "all edge lists with loops and repeated edges, all numbers of marked points", "why_tests_cant": "All multigraphs; nested loops over cells with a running vertex count.", "anchors": ["topo_spaces/src/graph.rs: SimpleGraph::subdivided_graph_from"]}
{"id": "C67", "title": "The subdivision is fine enough", "statement": "In the graph subdivided for n points, every walk between two different original vertices has at least n-1 edges and every cycle at least n+1.", "quantifier": "all edge lists, all numbers of points, all walks", "why_tests_cant": "All walks of unbounded length.", "anchors": ["topo_spaces/src/graph.rs: SimpleGraph::subdivided_graph_from"]}
{"id": "C68", "title": "Circle test", "statement": "In exact arithmetic, for a triangle whose vertices are not on one line, circum_circle_contains answers true exactly for the points closer to the (unique) circumcentre than the vertices.", "quantifier": "all proper triangles, all points of the plane", "why_tests_cant": "A continuum of triangles and points.", "anchors": ["geom/src/lib.rs: Triangle::circum_circle_contains"]}
{"id": "C69", "title": "The result is Delaunay", "statement": "In exact arithmetic every returned triangle is proper, no input point is strictly inside its circumscribed circle, no input point other than a vertex is in the triangle or on its border, and a repeated point is never a vertex.", "quantifier": "all point lists, with repeated, collinear and cocircular points", "why_tests_cant": "All configurations of any number of points; the insertion history matters.", "anchors": ["geom/src/lib.rs: delaunay_triangulation"]}
{"id": "C70", "title": "The triangles do not overlap", "statement": "In exact arithmetic no point of the plane is inside two of the returned triangles.", "quantifier": "all point lists, all pairs of returned triangles, all points of the plane", "why_tests_cant": "A continuum of points and all insertion histories.", "anchors": ["geom/src/lib.rs: delaunay_triangulation"]}
{"id": "C71", "title": "Completeness of the triangulation", "statement": "In exact arithmetic every triangle of input points with no other input point and no vertex of the auxiliary triangle in its closed disc is returned; in general position the result is exactly the set of triangles whose circles contain neither.", "quantifier": "all point lists, all index triples", "why_tests_cant": "All configurations of any number of points.", "anchors": ["geom/src/lib.rs: delaunay_triangulation"]}
{"id": "C72", "title": "Effect of the auxiliary triangle", "statement": "The convex hull is not always covered: a vertex of the auxiliary triangle (at a finite distance) in the circle of a triangle suppresses it; three non-collinear points can give an empty result. No auxiliary vertex is inside the circle of a returned triangle.", "quantifier": "all point lists", "why_tests_cant": "The negative part is a counterexample in exact arithmetic with irrational coordinates; the positive part is for all inputs.", "anchors": ["geom/src/lib.rs: delaunay_triangulation"]}
{"id": "C73", "title": "LU factorisation without pivoting", "statement": "Over a field with exact arithmetic, `lu` of a square matrix of order n > 0 stays finite exactly when the leading minors of orders 1..n-1 are nonzero; then the unit lower triangular factor and the upper triangular factor packed in the returned matrix multiply to the input, and each diagonal entry is the ratio of two consecutive leading minors. Non-square or empty matrices panic.", "quantifier": "every field, every square matrix of any order", "why_tests_cant": "A test factors finitely many matrices of small order; the failure set (a vanishing leading minor) is a hypersurface random tests never hit.", "anchors": ["alg/src/lin_alg/matrix_impl.rs: lu (1686-1706)"]}
{"id": "C74", "title": "det is the determinant", "statement": "`det` of a square matrix is its determinant (Laplace expansion), for every square matrix; for a non-square matrix it is 0. (False as stated: for a matrix with a vanishing leading minor, e.g. [[0,1],[1,0]], no finite number is returned; it holds exactly when the leading minors of orders 1..n-1 are nonzero.)", "quantifier": "every field, every matrix", "why_tests_cant": "A universally quantified identity, and the exceptions have measure zero.", "anchors": ["alg/src/lin_alg/matrix_impl.rs: det (1137-1147, 1644-1647), lu"]}
{"id": "C75", "title": "solve returns the solution of the linear system", "statement": "Over a field with exact arithmetic, for a square matrix A of order n > 0 and a right-hand side with n rows and at least one column, `solve` stays finite exactly when all leading minors of A are nonzero; then the first column of the result is the one and only solution x of A x = (first column of b), and every other column of b is returned unchanged. Mismatched shapes panic.", "quantifier": "every field, every order, every A and b", "why_tests_cant": "Correctness and uniqueness for all systems of all orders.", "anchors": ["alg/src/lin_alg/matrix_impl.rs: solve (1306-1336), lu (1694-1704)"]}
{"id": "C76", "title": "Gram-Schmidt orthonormalisation", "statement": "In exact real arithmetic `gram_schmidt` of a matrix with at least one column stays finite exactly when the columns are linearly independent; then the columns of the result are orthonormal and the input is the result times an upper triangular matrix with positive diagonal; this determines the result uniquely.", "quantifier": "all real matrices of all sizes", "why_tests_cant": "Holds for all sizes and all real entries; tests sample floats.", "anchors": ["alg/src/lin_alg/matrix_impl.rs: gram_schmidt (1189-1204)"]}
{"id": "C77", "title": "Gram-Schmidt without normalisation", "statement": "In exact real arithmetic `gram_schmidt_without_normalize` stays finite exactly when all columns but the last are linearly independent; then the columns of the result are pairwise orthogonal and the input is the result times an upper triangular matrix with unit diagonal.", "quantifier": "all real matrices of all sizes", "why_tests_cant": "All sizes and entries.", "anchors": ["alg/src/lin_alg/matrix_impl.rs: gram_schmidt_without_normalize (1206-1215)"]}
{"id": "C78", "title": "Householder vectors", "statement": "For every non-empty column vector x, `householder_vec` returns (v, b) with v[0] = 1 such that I - b v v^t is orthogonal and maps x to |x| e_0. (False as stated: when all components but the first are zero and the first is negative the code returns b = -2 instead of 2, and I - b v v^t is diag(3,1,..,1); it holds in every other case.)", "quantifier": "all real vectors of all lengths", "why_tests_cant": "The failing case is a measure-zero ray; the positive part is an identity over all vectors.", "anchors": ["alg/src/lin_alg/matrix_impl.rs: householder_vec (1262-1286, 1678-1680)"]}
{"id": "C79", "title": "Givens rotations", "statement": "`givens_rotation(a, b)` returns (c, s) with c^2 + s^2 = 1; if b = 0 or |b| >= 1e-12 then s a + c b = 0 and (c a - s b)^2 = a^2 + b^2; for 0 < |b| < 1e-12 it returns (1, 0), which leaves b in place.", "quantifier": "all real a, b", "why_tests_cant": "All pairs of reals.", "anchors": ["alg/src/lin_alg/matrix_impl.rs: givens_rotation (1288-1304)"]}
{"id": "C80", "title": "Hessenberg form", "statement": "On every square matrix `hessenberg_form` returns a matrix of the same size with zeros below the first subdiagonal that is orthogonally similar to the input, so it has the same trace and eigenvalues. (False as stated: a column that is already cleared below a negative subdiagonal entry hits the wrong sign of `householder_vec` and the result is not similar to the input, e.g. its trace changes from 1 to 9. It holds whenever the subdiagonal entries of the result but the last are not negative. It panics exactly on non-square matrices.)", "quantifier": "all real square matrices of all sizes", "why_tests_cant": "The failing inputs have zeros exactly below the subdiagonal; random tests never meet them. The positive part is an identity over all matrices of all sizes.", "anchors": ["alg/src/lin_alg/matrix_impl.rs: hessenberg_form (1707-1728)"]}
{"id": "C81", "title": "Matrix norms", "statement": "`one_norm` is the largest column sum of absolute values, `inf_norm` the largest row sum, `frobenius_norm` the root of the sum of squares, `two_norm` the Euclidean norm of a column vector and a panic otherwise; one_norm and inf_norm satisfy |A+B| <= |A|+|B| and |AB| <= |A||B|, two_norm the triangle inequality.", "quantifier": "all real matrices of all sizes", "why_tests_cant": "Inequalities over all matrices.", "anchors": ["alg/src/lin_alg/matrix_impl.rs: one_norm, two_norm, inf_norm, frobenius_norm (1649-1676)"]}
{"id": "C82", "title": "Spectrum", "statement": "In exact real arithmetic `spectrum` of a symmetric matrix ends and returns, sorted, exactly its eigenvalues; for an upper triangular matrix it returns the sorted diagonal; for a 2x2 matrix it returns the eigenvalues if they are real. (False as stated: it never ends on [[a,b,0],[b,a,b],[0,b,a]]; it takes entries below 1e-11 for zero whatever the scale, so [[0,e],[e,0]] with e = 1e-12 gives 0, 0; a double real eigenvalue of a 2x2 block panics.)", "quantifier": "all real square matrices of every order, all numbers of iterations", "why_tests_cant": "eigenvalues must be right for every matrix, and non-termination cannot be observed by a test at all", "anchors": ["alg/src/lin_alg/matrix_impl.rs: spectrum, real_spectrum_of_two_by_two, qr"]}
{"id": "C83", "title": "Lattice reduction", "statement": "For linearly independent columns and 1/4 < delta < 1, `lll_lattice_reduce` never panics and terminates (when the entries are integer multiples of one number, as those of every finite f64 matrix are); the result generates exactly the same lattice, is size-reduced and satisfies the Lovasz condition for delta; hence no non-zero lattice vector is shorter than the first column by more than the factor (delta-1/4)^((m-1)/2). More columns than rows or a delta out of range panics; if the columns but the last are dependent the result is not finite.", "quantifier": "all real matrices with independent columns of all sizes, all delta, all numbers of iterations; termination for all commensurable entries", "why_tests_cant": "Correctness is over all lattices and all dimensions and needs a termination argument with a potential function (Gram determinants).", "anchors": ["alg/src/lin_alg/matrix_impl.rs: lll_lattice_reduce (1226-1260), gram_schmidt_coeff_update (1217-1224)"]}
{"id": "C84", "title": "One double-shift (Francis) step", "statement": "On a matrix in Hessenberg form of order at least three, `francis_step` returns a matrix in Hessenberg form P^t A P, with P orthogonal and its first column the normalised first column of A^2 - sA + tI, where s and t are the trace and determinant of the trailing 2x2 block; so trace and eigenvalues are kept. `francis_step_with_op` also returns P. Orders below three and non-square matrices panic. (False as stated: when the last reflection is applied to a negative multiple of e_0 the middle row and column are multiplied by three; and the returned operation is always the identity.)", "quantifier": "all real Hessenberg matrices of every order, exact arithmetic", "why_tests_cant": "a test sees finitely many matrices; the bulge chase must keep the form and the similarity for every order and all entries, and the failing inputs are a set of measure zero", "anchors": ["alg/src/lin_alg/matrix_impl.rs: raw_francis_step, francis_step, francis_step_with_op, householder_vec"]}
{"id": "C85", "title": "QR iteration", "statement": "`qr` never panics on a square matrix and ends on every symmetric one; the result has zeros below the first subdiagonal, no two neighbouring subdiagonal entries above 1e-15, and comes from the Hessenberg form of the input by iterations that set negligible entries to zero and make a double-shift step on the last active window, so the trace is kept. `qr_with_op` also returns the accumulated operation and does not panic. (False in part: `qr` does not end on [[a,b,0],[b,a,b],[0,b,a]] for any a and any b > 1e-15 not negligible beside a; `qr_with_op` returns the identity or panics on a size mismatch.)", "quantifier": "all real square matrices, all orders, all numbers of iterations", "why_tests_cant": "the internal assertion and the shape of the result must hold after any number of iterations on any matrix, and a test cannot show that a loop never ends", "anchors": ["alg/src/lin_alg/matrix_impl.rs: raw_qr, qr, qr_with_op, raw_francis_step, hessenberg_form"]}
{"id": "C86", "title": "Tridiagonalisation of symmetric matrices", "statement": "householder_tridiagonalization of a symmetric matrix of order at least 2 does not panic and leaves a tridiagonal part (diagonal and its neighbours) that is symmetric and orthogonally similar to the input, so trace and eigenvalues are kept; a symmetric tridiagonal matrix with entries >= 0 beside the diagonal is returned unchanged. (False as stated: a column that already is zero below a negative subdiagonal entry is not reflected but scaled, e.g. the 3x3 path Laplacian; orders 0 and 1 panic.)", "quantifier": "all symmetric matrices of real numbers, with or without stored reflections", "why_tests_cant": "a test compares a few random matrices; the claim is about every symmetric matrix, and the failing ones have measure zero", "anchors": ["alg/src/lin_alg/matrix_impl.rs: householder_tridiagonalization"]}
{"id": "C87", "title": "Extracting the accumulated reflections", "statement": "extract_householder_vecs of a non-empty square matrix of order m returns an orthogonal matrix of order m+1; applied to the block stored by householder_tridiagonalization(true) of a symmetric A, with Q bordered by 1, it satisfies (1+Q) A (1+Q)^t = T for the tridiagonal part T of the result. (The second part is false when some column needed no reflection: the extraction then contributes a sign change.)", "quantifier": "all square matrices of real numbers; all symmetric A of order at least 3", "why_tests_cant": "orthogonality and the product identity are equalities over all matrices of all orders", "anchors": ["alg/src/lin_alg/matrix_impl.rs: extract_householder_vecs"]}
{"id": "C88", "title": "One step of the symmetric QR algorithm", "statement": "implicit_symmetric_qr_with_wilkinson_shift on a symmetric tridiagonal matrix A of order n >= 2 does not panic, leaves a symmetric tridiagonal matrix B = P^t A P where P is the product of the plane rotations whose cosines and sines are returned, and the first column of P is proportional to that of A - mI for m the eigenvalue of the trailing 2x2 block nearest its corner; trace and eigenvalues are kept; the flag only decides whether the rotations are returned. (False as stated: a rotation against an entry below 1e-12 is skipped, so entries below 1e-12 outside the band can stay; if the last two diagonal entries are equal and the entry beside them is 0, the shift is 0/0.)", "quantifier": "all symmetric tridiagonal matrices of real numbers of order at least 2", "why_tests_cant": "an identity between real matrices of every order; the failures are on a set no random matrix meets", "anchors": ["alg/src/lin_alg/matrix_impl.rs: implicit_symmetric_qr_with_wilkinson_shift", "alg/src/lin_alg/matrix_impl.rs: givens_rotation"]}
{"id": "C89", "title": "The symmetric QR algorithm is backward stable", "statement": "`symmetric_qr(false)` on a symmetric matrix of order at least 2 does not panic. If its loop ends, after k iterations, the matrix left behind is symmetric, tridiagonal up to entries below (k+1)/10^12, its diagonal blocks have order at most two, no entry beside the diagonal lies strictly between 0 and 10^-10 in absolute value, its trace is that of the tridiagonal form T, and it is exactly orthogonally similar to T + F for a symmetric F of Frobenius norm at most n(k+1)(k+51)/10^10 (and to A + F when the reduction of A met no zero column); every iteration is a Wilkinson-shift step on the last window that is not yet split.", "quantifier": "for all symmetric real matrices of order at least 2 and every number of iterations", "why_tests_cant": "The claim bounds the effect of skipped rotations and of entries set to zero over any number of iterations and every matrix; it also shows that the loop does not end on every matrix and that the accumulated transformation is wrong, which sample matrices do not meet.", "anchors": ["alg/src/lin_alg/matrix_impl.rs: symmetric_qr", "alg/src/lin_alg/matrix_impl.rs: implicit_symmetric_qr_with_wilkinson_shift"]}
{"id": "C90", "title": "spectrum_symmetric returns the spectrum of a nearby matrix", "statement": "`spectrum_symmetric` on a symmetric matrix of order at least 2 does not panic. If it ends, it returns n numbers in ascending order whose sum is the trace of the tridiagonal form T, and - unless an entry beside the diagonal of the final matrix is exactly 10^-10 in absolute value - they are exactly the eigenvalues of T + F for a symmetric F of Frobenius norm at most n(k+1)(k+52)/10^10 (of A + F when the reduction of A met no zero column). On a tridiagonal matrix that is split already they are exactly its eigenvalues.", "quantifier": "for all symmetric real matrices of order at least 2 and every number of iterations", "why_tests_cant": "The backward error bound holds for every matrix and every number of iterations; the failing inputs (an entry equal to the tolerance, a negative first column, a matrix on which the loop swings for ever) are too special to be met by samples.", "anchors": ["alg/src/lin_alg/matrix_impl.rs: spectrum_symmetric", "alg/src/lin_alg/matrix_impl.rs: symmetric_qr"]}
{"id": "C91", "title": "random_orthogonal returns an orthogonal matrix, random_unit_vec a unit vector", "statement": "For every sequence of draws from [0,1) in which no column is all zero, Matrix::random_orthogonal(n) returns an n x n matrix Q with Q^t Q = Q Q^t = 1, whose first column is the first draw normalised; it fails when n = 0 or when all the numbers drawn for a column are zero. random_unit_vec returns a vector of length one in the direction of the numbers drawn. (Not every orthogonal matrix can come out: the first column is never negative.)", "quantifier": "all orders n and all sequences of random draws", "why_tests_cant": "a test sees a few draws and a tolerance; orthogonality must hold for every draw and every order", "anchors": ["alg/src/lin_alg/matrix_impl.rs: Matrix::random_orthogonal, random_unit_vec, householder_vec"]}
{"id": "C92", "title": "random_symmetric and random_sparse_symmetric", "statement": "random_symmetric(n, n) returns a symmetric matrix with every cell initialised from the draws, random_sparse_symmetric the same with the cells whose second draw is not a multiple of four set to zero, mirror cells alike. With more columns than rows (and at least one row) random_symmetric panics; with more rows than columns the claim that a matrix is returned is false: the rows beyond the square part are never initialised.", "quantifier": "all sizes, coefficient types and draws", "why_tests_cant": "uninitialised memory usually reads as some harmless number, and the claim is about all sizes and draws", "anchors": ["alg/src/lin_alg/matrix_impl.rs: Matrix::random_symmetric, random_sparse_symmetric, Matrix::new"]}
{"id": "C93", "title": "spectrum_with_* return eigenvectors", "statement": "spectrum_with_invariant_space(_symmetric), spectrum_with_n_smallest_eigenvecs_symmetric and spectrum_with_n_th_eigenvec_symmetric return, with the values of spectrum(_symmetric), unit eigenvectors for them. False: a result exists exactly when no leading minor of any A - lambda used is zero, so whenever a value is a true eigenvalue - all triangular matrices, all symmetric tridiagonal matrices that split into blocks of order at most two - there is none (division by zero). Otherwise the i-th vector x is the unit vector with (A - lambda_i)^2 x a positive constant vector: for symmetric A its residual is at most that of the vector of ones, it is orthogonal to every eigenvector whose entries sum to zero, and when all row sums of A agree it is the vector of ones, normalised, whatever i is. Asking for more vectors than the order, or for an index that is too large, panics.", "quantifier": "all square matrices, numbers of vectors, indices and iteration counts", "why_tests_cant": "the failure is hidden by rounding errors on most inputs, and the claims are about all matrices", "anchors": ["alg/src/lin_alg/matrix_impl.rs: spectrum_with_invariant_space, spectrum_with_invariant_space_symmetric, spectrum_with_n_smallest_eigenvecs_symmetric, spectrum_with_n_th_eigenvec_symmetric, solve"]}
{"id": "C94", "title": "Discrete gradient: flow edges, blocked vertices and the type of a cell", "statement": "On a connected graph with its maximal tree chosen (by choose_maximal_tree or by subdivided_graph_from), CubeFactor::flow of a vertex v with 0 < v < n returns the edge to the unique next vertex towards the base point; it panics at vertex 0, outside the graph and for edges. is_blocked is true exactly when the vertex is 0 or the next vertex is occupied by the (closed) cell. Cube::property reports Critical exactly when no factor is mobile (an unblocked vertex, or a tree edge with no vertex of the cell strictly between its ends), and otherwise Redundant(i)/Collapsible(i) for the first mobile factor, and never panics.", "quantifier": "all arranged connected graphs, all vertices, all lists of cells of the graph", "why_tests_cant": "quantifies over every connected graph, its depth-first numbering and every cell", "anchors": ["topo_spaces/src/graph.rs: CubeFactor::flow, is_blocked, is_disrespected_by, is_in_maximal_tree", "topo_spaces/src/cubical.rs: Cube::property"]}
{"id": "C95", "title": "Points flow to the base configuration", "statement": "Cube::flow of any configuration of n distinct vertices terminates without panic and returns exactly one cell with coefficient 1: a configuration in which every point is blocked, reached by single moves along tree edges towards the base point. If the tree starts with a path of n vertices the result is {0,..,n-1}; graphs subdivided for n points have this property, and in every graph with a chosen tree the base point has only one child.", "quantifier": "all arranged graphs, all n, all configurations of points", "why_tests_cant": "termination and the limit of an unbounded recursion for every graph and every starting configuration", "anchors": ["topo_spaces/src/cubical.rs: Cube::flow", "topo_spaces/src/graph.rs: choose_maximal_tree, subdivided_graph_from"]}
{"id": "C96", "title": "Edge paths of critical 1-cells are geodesic loops at the base configuration", "statement": "get_edge_path of a one-dimensional configuration of n cells never panics and returns a geodesic edge path, homotopic to: settle backwards, cross the edge from its larger to its smaller end, settle forwards; it moves a settled configuration to a settled configuration without collisions. When the tree starts with a path of n vertices it is a loop at {0,..,n-1} and evaluate_permutation returns the permutation it induces. get_edge_path_to_from_base_pt returns a geodesic from the given points to the settled configuration, or its inverse, and never panics.", "quantifier": "all arranged graphs, all one-dimensional configurations / all configurations of points", "why_tests_cant": "depends on reduce_to_geodesic never hitting its panic for any of the infinitely many generated words", "anchors": ["topo_spaces/src/graph.rs: RawSimpleGraph::get_edge_path, get_edge_path_recc, get_edge_path_to_from_base_pt", "topo_spaces/src/cubical.rs: EdgePath"]}
{"id": "C97", "title": "Redundant and collapsible cells are matched", "statement": "Replacing the first mobile vertex u of a redundant cell by its flow edge gives a collapsible cell whose first mobile factor is that edge, and conversely; the two operations are inverse to each other (a discrete vector field).", "quantifier": "all arranged graphs, all configurations of every dimension", "why_tests_cant": "a bijection between two infinite families of cells over all graphs", "anchors": ["topo_spaces/src/cubical.rs: Cube::property, Cube::flow", "topo_spaces/src/graph.rs: CubeFactor::is_disrespected_by"]}
{"id": "C98", "title": "The complex of critical cells is built without panicking and lists configurations, each once", "statement": "UdnMorseCplx::new(graph, n, upper_dim) for a connected graph and n >= 1 never panics, whatever upper_dim is. For every d, get_cells_of_dim(d) returns pairwise different lists of n pairwise disjoint closed cells of the subdivided graph, d of them edges, in increasing order of their first vertex and without edges between consecutively numbered vertices; the recorded ranks are the numbers of cells of each dimension and the recorded dimension is the largest one that occurs.", "quantifier": "all connected graphs (lists of labelled edges, with loops and multiple edges), all n >= 1, all bounds on the dimension", "why_tests_cant": "the recursion threads one mutable set of possible factors through exponentially many branches; absence of usize underflow and label panics depends on the shape of every graph", "anchors": ["topo_spaces/src/cubical.rs: UdnMorseCplx::new, new_from_simple_graph, expand, get_cells_of_dim, dim_of", "util/src/lib.rs: LabeledSet"]}
{"id": "C99", "title": "The complex of critical cells lists exactly the critical cells", "statement": "The cells listed by UdnMorseCplx are exactly the configurations that Cube::property calls critical.", "quantifier": "all connected graphs, all n >= 1, all dimensions", "why_tests_cant": "equality of two sets over all graphs and all numbers of points; small examples agree", "anchors": ["topo_spaces/src/cubical.rs: UdnMorseCplx::expand, Cube::property"]}
