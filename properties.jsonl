{"id": "C01", "title": "Partition answers exactly the equivalence closure of the unite calls", "statement": "After any sequence of unite/find/classes calls on a Partition, find(a) == find(b) holds exactly when a and b are related by the smallest equivalence relation containing every pair passed to unite; find never diverges and returns a member of the class it is asked about.", "quantifier": "every element type with decidable equality, every finite history of calls, every pair of elements (seen before or not)", "why_tests_cant": "the state space is all union-find forests reachable by any interleaving of unions and path compressions; tests sample a handful of histories", "anchors": ["src/partitions.rs: Partition::unite", "src/partitions.rs: Partition::find", "src/partitions.rs: PartitionImpl::root_index"]}
{"id": "C02", "title": "Partition reads do not change later answers", "statement": "find and classes take &self; although they rewrite the internal forest (path compression, lazily added elements), the answer of any later find is the same value as it would have been without them (the representative itself does not change).", "quantifier": "every reachable partition state, every sequence of interposed read calls", "why_tests_cant": "interior mutability behind UnsafeCell: needs an invariant over all histories", "anchors": ["src/partitions.rs: Partition::find", "src/partitions.rs: Partition::classes"]}
{"id": "C03", "title": "Partition::classes splits its argument into the equivalence classes in order of first appearance", "statement": "classes(elms) returns non-empty lists; two positions of elms are in the same list iff their elements are equivalent; every list keeps the order of elms, lists are ordered by first element, and together they contain every occurrence in elms exactly once.", "quantifier": "every reachable partition and every input slice (with repetitions)", "why_tests_cant": "quantifies over all histories and all slices", "anchors": ["src/partitions.rs: Partition::classes"]}
{"id": "C04", "title": "gcdx returns Bezout coefficients and a unimodular transformation", "statement": "gcdx(a,b) = (g,r,s,t,u) satisfies g = a*r + b*s, 0 = a*t + b*u, |g| = gcd(|a|,|b|) and |r*u - s*t| = 1; it terminates; and for a non-zero second argument every intermediate value is bounded by max(|a|,|b|) in absolute value, so it never overflows for inputs above the type's minimum.", "quantifier": "all integers a, b (with overflow bound: all machine integers other than MIN)", "why_tests_cant": "infinitely many inputs; the loop invariant and the size bound are universally quantified", "anchors": ["src/arithmetic/linear_algebra.rs: gcdx"]}
{"id": "C05", "title": "extend_basis keeps an echelon basis of the same module", "statement": "Starting from an empty basis and feeding vectors one at a time, extend_basis never panics (equal lengths given), the basis rows always have strictly increasing pivot columns, and they generate exactly the module generated by the vectors fed: the integer lattice for i32/i64, the rational subspace for BigRational.", "quantifier": "every dimension, every finite sequence of integer (resp. rational) vectors of one length", "why_tests_cant": "unbounded sequences and values; exactness of span in both directions", "anchors": ["src/arithmetic/linear_algebra.rs: extend_basis", "src/arithmetic/linear_algebra.rs: Scalar::clear_column"]}
{"id": "C06", "title": "rank is the dimension of the row space", "statement": "Matrix::rank equals the mathematical rank (maximal number of linearly independent rows over the rationals), for rational and for integer matrices.", "quantifier": "all matrices of all shapes with at least one entry", "why_tests_cant": "all sizes and entries", "anchors": ["src/arithmetic/linear_algebra.rs: LinearAlgebra::rank"]}
{"id": "C07", "title": "determinant is the determinant", "statement": "Matrix::determinant equals the Leibniz determinant for every square matrix of every size (closed formulas for n <= 3, elimination for n >= 4), over the integers and the rationals, including the sign.", "quantifier": "all n, all square matrices with integer or rational entries", "why_tests_cant": "the sign bookkeeping in extend_basis must be right for every elimination order", "anchors": ["src/arithmetic/linear_algebra.rs: LinearAlgebra::determinant", "src/arithmetic/linear_algebra.rs: extend_basis"]}
{"id": "C08", "title": "reduced_basis over the rationals is the canonical reduced row echelon form", "statement": "For BigRational matrices reduced_basis returns the reduced row echelon form of the row space: same row space, pivots 1, zero above and below pivots; two matrices with the same row space give the identical result.", "quantifier": "all rational matrices with a positive number of columns", "why_tests_cant": "uniqueness quantifies over all pairs of matrices with equal row space", "anchors": ["src/arithmetic/linear_algebra.rs: LinearAlgebra::reduced_basis", "src/arithmetic/linear_algebra.rs: Scalar::normalize_column", "src/arithmetic/linear_algebra.rs: Scalar::reduce_column"]}
{"id": "C09", "title": "reduced_basis over the integers is a Hermite-type basis of the row lattice (canonicity fails)", "statement": "For integer matrices reduced_basis returns a basis of the same row lattice in echelon form with positive pivots p and entries above a pivot in 0..p. Claimed canonicity (same lattice => same result) fails: an entry that is a negative multiple of the pivot is left equal to the pivot instead of 0.", "quantifier": "all integer matrices", "why_tests_cant": "lattice equality and canonicity quantify over all matrices; the counterexample is only visible when an entry is an exact negative multiple", "anchors": ["src/arithmetic/linear_algebra.rs: reduce_column_primitive_int", "src/arithmetic/linear_algebra.rs: LinearAlgebra::reduced_basis"]}
{"id": "C10", "title": "solve over the rationals is sound and complete", "statement": "a.solve(b) on BigRational matrices returns Some(x) with a*x == b whenever the system has a rational solution, and None exactly when it has none.", "quantifier": "all rational a (m x n) and b (m x k) with m,n,k > 0", "why_tests_cant": "existence/non-existence over all candidate solutions", "anchors": ["src/arithmetic/linear_algebra.rs: LinearAlgebra::solve"]}
{"id": "C11", "title": "solve over the integers is sound and complete", "statement": "a.solve(b) on integer matrices returns Some(x) with integer entries and a*x == b whenever an integer solution exists, and None exactly when no integer solution exists (even if a rational one does).", "quantifier": "all integer a (m x n) and b (m x k) with m,n,k > 0", "why_tests_cant": "non-existence of integer solutions cannot be tested", "anchors": ["src/arithmetic/linear_algebra.rs: LinearAlgebra::solve", "src/arithmetic/linear_algebra.rs: solve_row_primitive_int"]}
{"id": "C12", "title": "inverse is the two-sided inverse and None means singular", "statement": "inverse() returns Some(b) with a*b == b*a == identity exactly when the matrix is invertible over its scalar ring (non-zero determinant for rationals, determinant +-1 for integers), and None otherwise.", "quantifier": "all square matrices of size >= 1, rational and integer", "why_tests_cant": "all sizes and entries", "anchors": ["src/arithmetic/linear_algebra.rs: LinearAlgebra::inverse"]}
{"id": "C13", "title": "null_space is a basis of the kernel", "statement": "null_space() returns Some(n) where a*n == 0, the columns of n are linearly independent and every vector x with a*x == 0 is a combination of them (integer combination for integer matrices), and None exactly when the kernel is trivial.", "quantifier": "all matrices with at least one row and one column", "why_tests_cant": "completeness ranges over all kernel vectors", "anchors": ["src/arithmetic/linear_algebra.rs: LinearAlgebra::null_space"]}
{"id": "C14", "title": "Matrix container laws", "statement": "For well-formed matrices: indexing returns the row-major entry; transpose swaps indices and is an involution; hstack/vstack/submatrix/get_row/get_col address the expected entries; multiplication is the row-by-column sum, is associative, has identity as unit and (AB)^T = B^T A^T; operations on mismatched shapes panic and never return a malformed matrix.", "quantifier": "all shapes and all entries over any commutative ring", "why_tests_cant": "universally quantified algebra over all shapes, including the panic conditions", "anchors": ["src/arithmetic/matrices.rs: Matrix::new", "src/arithmetic/matrices.rs: Matrix::transpose", "src/arithmetic/matrices.rs: Matrix::hstack", "src/arithmetic/matrices.rs: Matrix::vstack", "src/arithmetic/matrices.rs: Matrix::submatrix", "src/arithmetic/matrices.rs: Mul for Matrix"]}
{"id": "C15", "title": "AffineMap composition and inversion agree with application", "statement": "(a*b)*p == a*(b*p) for points and vectors, identity acts trivially, composition is associative, differences of points map by the linear part, and a.inverse() (when Some) composes to the identity on both sides; it is None exactly when the linear part is singular.", "quantifier": "all dimensions, maps, points and vectors over the rationals", "why_tests_cant": "laws over all maps", "anchors": ["src/arithmetic/geometry.rs: AffineMap::mul", "src/arithmetic/geometry.rs: AffineMap::inverse", "src/arithmetic/geometry.rs: AffineMap::identity"]}
{"id": "C16", "title": "CoordinateMap is a faithful change of coordinates", "statement": "For every CoordinateMap built with new/from_basis/to_basis/composition/inverse, forward and backward are mutually inverse; mapping an AffineMap commutes with application ((c*m)*(c*p) == c*(m*p)); composition acts like successive application; to_basis sends the k-th basis vector to the k-th unit vector.", "quantifier": "all dimensions, coordinate maps, affine maps, points, vectors", "why_tests_cant": "invariant over all construction histories", "anchors": ["src/arithmetic/geometry.rs: CoordinateMap::new", "src/arithmetic/geometry.rs: CoordinateMap::mul", "src/arithmetic/geometry.rs: CoordinateMap::inverse", "src/arithmetic/geometry.rs: CoordinateMap::to_basis"]}
{"id": "C17", "title": "ScalarProduct::from accepts exactly the symmetric positive definite matrices", "statement": "ScalarProduct::from(m) returns (does not panic) iff m is square, symmetric and u^T m u > 0 for every non-zero rational vector u.", "quantifier": "all rational matrices and all vectors", "why_tests_cant": "Sylvester's criterion: positivity for all vectors from finitely many minors", "anchors": ["src/arithmetic/geometry.rs: ScalarProduct::from"]}
{"id": "C18", "title": "ScalarProduct is transported isometrically by coordinate maps", "statement": "For a coordinate map c and an accepted scalar product d, c*d does not panic and (c*d).apply(c*u, c*v) == d.apply(u,v).", "quantifier": "all coordinate maps, scalar products, vectors", "why_tests_cant": "all inputs; includes absence of panics in the re-validation", "anchors": ["src/arithmetic/geometry.rs: CoordinateMap::mul (ScalarProduct)", "src/arithmetic/geometry.rs: ScalarProduct::apply"]}
{"id": "C19", "title": "modular_inverse is the inverse modulo m", "statement": "For modulus m >= 2 and argument a >= 0, modular_inverse(a,m) is Some(t) with 0 <= t < m and a*t = 1 (mod m) iff gcd(a,m) = 1, otherwise None; it terminates. For negative arguments the claim fails (invertible arguments can yield None).", "quantifier": "all a >= 0, m >= 2; witnesses for negative a and for m = 1", "why_tests_cant": "all pairs of integers", "anchors": ["src/arithmetic/modular_solver.rs: modular_inverse"]}
{"id": "C20", "title": "modular_matrix_inverse inverts modulo the prime", "statement": "For a prime p and a square integer matrix a without negative multiples of p among its entries, modular_matrix_inverse(a,p) returns Some(c) with c*a = identity (mod p) and all entries of c in 0..p iff det(a) is not 0 mod p, and None otherwise; entries that are negative multiples of p can make it panic.", "quantifier": "all primes, all sizes, all integer matrices", "why_tests_cant": "all sizes/entries; the None case quantifies over all candidate inverses", "anchors": ["src/arithmetic/modular_solver.rs: modular_matrix_inverse", "src/arithmetic/modular_solver.rs: modular_row_echelon_form"]}
{"id": "C21", "title": "modular_row_echelon_form does not always return an echelon form", "statement": "modular_row_echelon_form(m,p) is claimed to be in row echelon form modulo p; it is when every column gets a pivot, but the row cursor also advances on pivot-free columns, so for some matrices the result is not in echelon form.", "quantifier": "all matrices and primes (refuted by a witness)", "why_tests_cant": "a universally quantified shape claim", "anchors": ["src/arithmetic/modular_solver.rs: modular_row_echelon_form"]}
{"id": "C22", "title": "rational reconstruction recovers every sufficiently small fraction", "statement": "If n/d satisfies s*d = n (mod h), gcd(d,h)=1, and |n|,d <= sqrt(h)/phi (phi the golden ratio), rational_reconstruction(s,h) returns exactly n/d, also when the residue s is negative; the loop terminates for all s with |s| < h.", "quantifier": "all h >= 1, all residues |s| < h, all fractions within the bound", "why_tests_cant": "Dixon's theorem: infinitely many moduli and fractions", "anchors": ["src/arithmetic/modular_solver.rs: rational_reconstruction"]}
{"id": "C23", "title": "modular_solver::solve returns the exact rational solution", "statement": "If a is a square integer matrix with det(a) not divisible by 9999991, solve(a,b) returns Some(x) where x is exactly the rational matrix with a*x = b; if det(a) is divisible by 9999991 it returns None.", "quantifier": "all sizes n >= 1, all integer matrices a (n x n), b (n x k), machine integers idealised", "why_tests_cant": "p-adic lifting precision (Hadamard bound, reconstruction bound) must suffice for every matrix", "anchors": ["src/arithmetic/modular_solver.rs: solve", "src/arithmetic/modular_solver.rs: number_of_p_adic_steps_needed", "src/arithmetic/modular_solver.rs: rational_reconstruction"]}
{"id": "C24", "title": "the p-adic solver does not overflow i64 on graph-sized input", "statement": "If |a_ij| <= A, |b_ij| <= B for an n x n system with n*A <= 10^11 and B <= 10^11, then no intermediate machine integer computed by modular_matrix_product, integer_matrix_product and the residual update leaves the i64 range.", "quantifier": "all such systems and all lifting steps", "why_tests_cant": "a bound on every intermediate value of an unbounded loop", "anchors": ["src/arithmetic/modular_solver.rs: solve", "src/arithmetic/modular_solver.rs: modular_matrix_product", "src/arithmetic/modular_solver.rs: integer_matrix_product"]}
{"id": "C25", "title": "Graph::new is insensitive to order, orientation and repetition of the input edges", "statement": "Two edge lists that contain the same edges up to reversal (e vs -e), order and multiplicity give identical graphs; edges are stored once each, sorted, each in canonical orientation; canonical is idempotent and canonical(-e) == canonical(e).", "quantifier": "all finite edge lists in all dimensions", "why_tests_cant": "all permutations, orientations and duplications", "anchors": ["src/pgraphs.rs: Graph::new", "src/pgraphs.rs: Edge::canonical"]}
{"id": "C26", "title": "incidences and directed_edges list every edge once per direction", "statement": "For a vertex v, incidences(v) contains, for each stored edge e, e once per (head e == v) plus -e once per (tail e == v) and nothing else; directed_edges lists each stored edge exactly once in each direction; vertices() is the sorted list of end points without repetition; incidences panics exactly on non-vertices.", "quantifier": "all graphs, all vertices", "why_tests_cant": "all graphs", "anchors": ["src/pgraphs.rs: Graph::vertices", "src/pgraphs.rs: Graph::incidences", "src/pgraphs.rs: Graph::directed_edges"]}
{"id": "C27", "title": "lazy caches of Graph are transparent", "statement": "Any sequence of calls of vertices/incidences/position/edge_by_unique_delta on one Graph returns for every call the value a freshly built equal graph would return; interior mutation is unobservable.", "quantifier": "all graphs, all finite call histories", "why_tests_cant": "all histories over UnsafeCell-based caches", "anchors": ["src/pgraphs.rs: Graph::vertices", "src/pgraphs.rs: Graph::incidences", "src/pgraphs.rs: Graph::position", "src/pgraphs.rs: Graph::edge_by_unique_delta"]}
{"id": "C28", "title": "coordination_sequence counts the nodes at each graph distance", "statement": "The k-th item (k >= 1) produced by coordination_sequence(v) is the number of nodes (w,t) of the infinite periodic net whose graph distance from (v,0) is exactly k.", "quantifier": "all graphs, all start vertices, all k", "why_tests_cant": "the net is infinite and k is unbounded", "anchors": ["src/pgraphs.rs: CoordinationSequence::next", "src/pgraphs.rs: Graph::coordination_sequence"]}
{"id": "C29", "title": "shift_normalized is a gauge-equivalent graph", "statement": "shift_normalized() relabels every edge (h,t,s) as (h,t,s+c(h)-c(t)) for one vertex-indexed family of shifts c; it has the same vertices and the same number of edges, its periodic net is isomorphic to the original one, and every component has a spanning tree of zero-shift edges.", "quantifier": "all graphs", "why_tests_cant": "all graphs, connected or not", "anchors": ["src/pgraphs.rs: Graph::shift_normalized", "src/pgraphs.rs: traverse_with_shift_adjustments"]}
{"id": "C30", "title": "graph_component_measures describes the component of the net", "statement": "graph_component_measures(g,v0) returns the number of vertices in the component of v0, the rank of the lattice of closed walks at v0, and, if that rank equals the dimension, the number of connected components of the infinite net above that component (the index of the lattice).", "quantifier": "all graphs, all start vertices, dimension >= 1", "why_tests_cant": "infinite nets, all graphs", "anchors": ["src/pgraphs.rs: graph_component_measures"]}
{"id": "C31", "title": "is_connected decides connectivity of the infinite net", "statement": "is_connected() is true iff any two nodes (v,s), (w,t) of the infinite periodic net are joined by a finite walk.", "quantifier": "all graphs", "why_tests_cant": "connectivity of an infinite object for all graphs", "anchors": ["src/pgraphs.rs: Graph::is_connected"]}
{"id": "C32", "title": "position is the exact barycentric placement", "statement": "When position does not panic, the first vertex is at the origin and every vertex sits exactly (rational arithmetic) at the barycentre of its neighbours: the edge vectors at every vertex sum to zero; a placement with these properties is unique for a graph with connected quotient.", "quantifier": "all graphs for which the solver succeeds, all vertices", "why_tests_cant": "exactness for all graphs", "anchors": ["src/pgraphs.rs: Graph::position", "src/pgraphs.rs: barycentric_placement"]}
{"id": "C33", "title": "position may panic on a connected graph", "statement": "The claim 'position(v) succeeds for every connected graph' is false: if the number of spanning trees of the quotient graph is divisible by 9999991 the solver returns None and the unwrap panics; otherwise, for a connected quotient, it succeeds.", "quantifier": "all graphs with connected quotient; explicit witness graph", "why_tests_cant": "the failing graphs are a thin set no random test would hit", "anchors": ["src/pgraphs.rs: barycentric_placement", "src/arithmetic/modular_solver.rs: solve"]}
{"id": "C34", "title": "stability predicates mean what they say", "statement": "is_stable() iff no two different vertices have positions differing by an integer vector; is_locally_stable() iff no vertex has two incidence entries with equal edge vectors; has_second_order_collisions() iff two different vertices agree in position modulo 1 and in the multiset of their edge vectors.", "quantifier": "all graphs for which positions exist", "why_tests_cant": "all graphs", "anchors": ["src/pgraphs.rs: Graph::is_stable", "src/pgraphs.rs: Graph::is_locally_stable", "src/pgraphs.rs: Graph::has_second_order_collisions"]}
{"id": "C35", "title": "edge_by_unique_delta returns the unique edge with that vector", "statement": "edge_by_unique_delta(v,d) is Some(e) iff e is the only entry of incidences(v) with edge vector d, and None if no entry or several entries have that vector.", "quantifier": "all graphs, vertices and vectors", "why_tests_cant": "all multiplicities of collisions", "anchors": ["src/pgraphs.rs: Graph::edge_by_unique_delta", "src/pgraphs.rs: edges_by_unique_deltas"]}
{"id": "C36", "title": "an automorphism that is returned is one", "statement": "If automorphism search succeeds for seeds (v,w) and an injective linear part M on a connected locally stable graph, the vertex map is a permutation of the vertices with v |-> w, the edge map is a permutation of the directed edges compatible with heads, tails and reversal, and every edge vector is multiplied by M.", "quantifier": "all connected locally stable graphs, seeds and linear maps", "why_tests_cant": "bijectivity is not checked by the code; it follows from a counting argument over all walk lengths", "anchors": ["src/symmetries.rs: automorphism", "src/symmetries.rs: symmetries"]}
{"id": "C37", "title": "automorphism search is complete", "statement": "If a permutation of the directed edges exists that is compatible with incidence and multiplies every edge vector by M and maps v to w, the search returns Some with exactly these maps; otherwise None.", "quantifier": "all connected locally stable graphs, seeds, linear maps", "why_tests_cant": "non-existence over all candidate maps", "anchors": ["src/symmetries.rs: automorphism"]}
{"id": "C38", "title": "symmetries() returns a group of automorphisms", "statement": "symmetries() returns, without repetition, a finite set of automorphisms of the net that contains the identity and is closed under composition and inversion.", "quantifier": "all connected locally stable graphs where the call returns", "why_tests_cant": "closure over all pairs of elements of all graphs", "anchors": ["src/symmetries.rs: symmetries", "src/symmetries.rs: multiplicative_group", "src/pgraphs.rs: Graph::symmetries"]}
{"id": "C39", "title": "symmetries() misses automorphisms in skewed coordinates", "statement": "The claim 'symmetries() contains every automorphism' (equivalently: the group order does not depend on the choice of lattice basis) is false: candidate linear maps are formed as B_i*B_0^-1 from edge vectors stored as rows but applied to columns.", "quantifier": "all graphs (refuted by an explicit 1-vertex graph of the square lattice with 2 instead of 8 symmetries)", "why_tests_cant": "tests only use bases in which the conjugated matrix happens to be a symmetry too", "anchors": ["src/symmetries.rs: symmetries", "src/symmetries.rs: matrix_from_edge_list"]}
{"id": "C40", "title": "orbits are the orbits of the returned group", "statement": "vertex_orbits() partitions vertices() so that two vertices share a class iff some element of symmetries() maps one to the other; edge_orbits() does the same for undirected edges.", "quantifier": "all graphs where symmetries() returns", "why_tests_cant": "all graphs", "anchors": ["src/pgraphs.rs: Graph::vertex_orbits", "src/pgraphs.rs: Graph::edge_orbits"]}
{"id": "C41", "title": "translational orbits are classes under translations of the net", "statement": "For a connected locally stable graph that is not a ladder, translational_orbits() groups two vertices iff a translation automorphism of the net (linear part identity) maps one to the other; is_minimal() iff no non-trivial one exists.", "quantifier": "all connected locally stable non-ladder graphs", "why_tests_cant": "all graphs; non-existence of translations", "anchors": ["src/symmetries.rs: translational_orbits", "src/symmetries.rs: is_minimal", "src/symmetries.rs: raw_translational_equivalences"]}
{"id": "C42", "title": "minimal_image panics for centred cells", "statement": "The claim 'minimal_image returns the net over its full translation lattice' fails: the basis matrix is inverted without transposition, so for the square lattice given with a centred cell the computed shift is not integral and the call panics.", "quantifier": "all graphs (refuted by witness)", "why_tests_cant": "tests only use diagonal translation bases", "anchors": ["src/symmetries.rs: minimal_image", "src/symmetries.rs: extended_translation_basis"]}
{"id": "C43", "title": "rational_lattice_basis generates Z^d plus the given vectors", "statement": "rational_lattice_basis(vs) returns d rational vectors whose integer combinations are exactly the integer combinations of the unit vectors and vs; it panics only if vs is empty or scaled values exceed i32.", "quantifier": "all dimensions, all non-empty lists of rational vectors", "why_tests_cant": "lattice equality for all inputs", "anchors": ["src/spacegroups/lattices.rs: rational_lattice_basis"]}
{"id": "C44", "title": "lattice reduction keeps the lattice and yields an obtuse superbase", "statement": "For a positive definite rational scalar product, the reductions behind dirichlet_vectors terminate and return vectors generating the same lattice, such that they and the negative of their sum have pairwise non-positive products (dimension 2 and 3).", "quantifier": "all rational bases and rational scalar products in dimensions 2 and 3", "why_tests_cant": "termination and reducedness for all inputs", "anchors": ["src/spacegroups/lattices.rs: lagrange_reduced", "src/spacegroups/lattices.rs: selling_reduced"]}
{"id": "C45", "title": "dirichlet_vectors describe the Dirichlet (Voronoi) cell", "statement": "A point x is at least as close to the origin as to every lattice point iff |2 x.w| <= w.w for each w among dirichlet_vectors(basis).", "quantifier": "all bases in dimensions 1..3, all points, all lattice vectors", "why_tests_cant": "quantifies over the infinite lattice", "anchors": ["src/spacegroups/lattices.rs: dirichlet_vectors"]}
{"id": "C46", "title": "shift_for_dirichlet_domain terminates inside the domain", "statement": "For rational data with epsilon 0 shift_for_dirichlet_domain(p,vs) terminates; the shift is an integer combination of vs and p+shift satisfies |2 (p+shift).v| <= v.v for every v in vs.", "quantifier": "all rational points, non-zero vectors and positive definite rational products", "why_tests_cant": "termination for all inputs", "anchors": ["src/spacegroups/lattices.rs: shift_for_dirichlet_domain"]}
{"id": "C47", "title": "reduced_lattice_basis is a reduced basis of the same lattice", "statement": "For a basis in dimension 2 or 3 and a positive definite product, reduced_lattice_basis returns Some(b) with b generating the same lattice, norms non-decreasing, the first vector a shortest non-zero lattice vector, and products of the first with the others non-positive.", "quantifier": "all bases in dimension 2 and 3", "why_tests_cant": "minimality over the infinite lattice; independence alone does not give a basis", "anchors": ["src/spacegroups/lattices.rs: reduced_lattice_basis"]}
{"id": "C48", "title": "generate produces the group generated modulo integer translations", "statement": "generate(gens) (when it terminates) contains the identity, and is closed, modulo integer translations, under multiplication by generators; every element is congruent to a product of generators.", "quantifier": "all generator lists of integral linear part", "why_tests_cant": "all words in the generators", "anchors": ["src/spacegroups/basics.rs: generate", "src/arithmetic/geometry.rs: ModZ for AffineMap"]}
{"id": "C49", "title": "generate does not return one representative per coset", "statement": "The claim 'elements of generate(gens) are pairwise different modulo integer translations' fails because mod_z keeps the sign of the shift (-1/2 and 1/2 are kept apart). What is true: an operator has at most 2^d copies, up to integer translations, in the result (d is the dimension).", "quantifier": "all generator lists (refuted by witness)", "why_tests_cant": "needs a product that produces a negative fraction", "anchors": ["src/spacegroups/basics.rs: generate", "src/arithmetic/geometry.rs: ModZ for Vector"]}
{"id": "C50", "title": "gram_matrix_configuration_space solves S G S^T = G", "statement": "The columns of the result (entries of the upper triangle) form a basis of the space of symmetric matrices G with S G S^T = G for the linear part S of every operator. The claim that these are the Gram matrices invariant under the operators (S^T G S = G) fails for a hexagonal rotation.", "quantifier": "all dimensions, all operator lists; witness for the invariance claim", "why_tests_cant": "completeness over all symmetric matrices", "anchors": ["src/spacegroups/basics.rs: gram_matrix_configuration_space"]}
{"id": "C51", "title": "shift_space is the space of vectors fixed by all operators, except for identity-only input", "statement": "shift_space(ops) returns a basis of the vectors fixed by the linear parts of all operators, None if only 0 is fixed; but for operators with identity linear part only it returns None although all vectors are fixed.", "quantifier": "all operator lists; witness for P1", "why_tests_cant": "completeness over all vectors", "anchors": ["src/spacegroups/basics.rs: shift_space"]}
{"id": "C52", "title": "parsing inverts printing of operators, except for unit shifts", "statement": "For operators of dimension 1..3 whose numerators/denominators have at most 9 digits, printing as in the space group table and parsing with parse_operator returns the same operator, provided no shift component is +1 or -1; for every such operator with a shift component of +-1 the printed text lacks the digit, and reading it gives another operator or none.", "quantifier": "all such operators", "why_tests_cant": "round trip for infinitely many operators", "anchors": ["src/spacegroups/parse_table.rs: write_op", "src/spacegroups/parse_table.rs: write_op_row", "src/spacegroups/parse_operator.rs: parse_operator"]}
{"id": "C53", "title": "parse_operator is total except for zero denominators", "statement": "On any input text parse_operator returns Ok or Err and panics only if the text contains a fraction with denominator zero; on Ok with n coordinates it returns n rows of length min(n,3) and n shifts, and the unparsed rest is a suffix of the input.", "quantifier": "all input strings", "why_tests_cant": "all strings", "anchors": ["src/spacegroups/parse_operator.rs: parse_operator", "src/spacegroups/parse_operator.rs: unsigned_fraction"]}
{"id": "C54", "title": "cgd line entries correspond to lines", "statement": "parse_lines returns one entry per input line, numbered consecutively from 0, with the original text; an entry whose line was not fully consumed carries an error note.", "quantifier": "all inputs", "why_tests_cant": "all inputs of any length", "anchors": ["src/io/parse_cgd_blocks.rs: parse_lines"]}
{"id": "C55", "title": "parse_blocks keeps all content of completed blocks in order but drops trailing data", "statement": "Concatenating the entries of all returned blocks gives the non-empty (or annotated) entries of the input in order up to the last block end; every block starts with its line_start and ends at an 'end' entry except possibly the last, which carries an error. Lines after the last 'end' that start no new block are dropped without any note.", "quantifier": "all sequences of line entries", "why_tests_cant": "all inputs", "anchors": ["src/io/parse_cgd_blocks.rs: parse_blocks"]}
{"id": "C56", "title": "warnings about ignored text miss a single ignored field", "statement": "The claim 'text after end or after a block type yields a warning' fails when exactly one field follows, since the keyword has already been removed from the field list.", "quantifier": "all entries (refuted by witness)", "why_tests_cant": "off-by-one only visible for exactly one extra field", "anchors": ["src/io/parse_cgd_blocks.rs: parse_blocks"]}
{"id": "C57", "title": "primitive settings", "statement": "PrimitiveSetting::new returns a basis of the lattice generated by the integer vectors and the pure translations among the given operators, the coordinate change that sends this basis to the unit vectors, and the images of the operators in the new coordinates, none twice, up to integer translations; the only operator of the result with identity linear part is the identity, and for a group with integral linear parts (such as the result of generate for unimodular generators) the new linear parts are integral. It panics exactly if there is no translation other than zero or a scaled entry leaves the range of i32.", "quantifier": "all non-empty lists of operators of any dimension", "why_tests_cant": "infinitely many operators, lattices and dimensions", "anchors": ["src/spacegroups/basics.rs: PrimitiveSetting::new", "src/spacegroups/lattices.rs: rational_lattice_basis"]}
{"id": "C58", "title": "reading operators from text", "statement": "AffineMap::from_string returns the operator denoted by the longest operator text (at most three coordinates) at the start of the string and ignores what follows it; axes beyond the number of coordinates are dropped; with four or more coordinates it panics, and it returns None exactly if parse_operator returns Err. CoordinateMap::from_string returns the coordinate change with that map and panics if it is not invertible.", "quantifier": "all strings", "why_tests_cant": "all strings", "anchors": ["src/spacegroups/parse_table.rs: from_string", "src/spacegroups/parse_operator.rs: parse_operator"]}
{"id": "C59", "title": "grammar of cgd lines", "statement": "parse_cgd_line returns the fields (fraction, integer, float, quoted or plain name, with an optional key first) denoted by a text at the start of the line, and the part of the line that follows it; lines of an optional key, unambiguous fields, blanks and a comment are read completely; it returns Err only for lines with a number followed by e or E without exponent, and panics only for lines with a fraction with denominator zero. The claim that any word after a key is read as a name is false (info, Nancy, 2Edge, characters whose number is 32 or 9 modulo 256).", "quantifier": "all strings, all rounding functions to f64", "why_tests_cant": "all strings", "anchors": ["src/io/parse_cgd_line.rs: parse_cgd_line"]}
{"id": "C60", "title": "reading the space group table", "statement": "parse_space_group_table returns, for a file whose lines are all readable, the table the lines describe: for each name the last header line with that name, with its coordinate change, the operators on the lines before the next header (alias and lookup lines in between do not matter), and as canonical name the last header up to it with the identity change; the last alias for each name; and the lookup lines in order. Otherwise it returns None at the first line that is not UTF-8, has an unreadable operator or coordinate change or an unknown crystal system or centering, or is an operator before any header; it panics at the first alias line with fewer than three words, lookup line with fewer than four words, or operator text that panics.", "quantifier": "all byte sequences, all lower-casing functions", "why_tests_cant": "all files; order of lines, duplicated names, interleaved alias and lookup lines", "anchors": ["src/spacegroups/parse_table.rs: parse_space_group_table", "src/spacegroups/parse_table.rs: make_lookup_entry"]}
{"id": "C61", "title": "names of crystal systems and centerings, lookup, identity test", "statement": "CrystalSystem::from_string(s) is the system whose printed name is the lower case form of s, Centering::from_string(s) the centering printed as s; no two have the same name; lookup_settings returns exactly the matching lookup entries in file order; is_identity of a coordinate map is true exactly if its matrix is the identity and its shift zero.", "quantifier": "all strings, all tables, all coordinate maps of any dimension", "why_tests_cant": "all strings, tables and maps", "anchors": ["src/spacegroups/parse_table.rs: from_string, lookup_settings", "src/spacegroups/types.rs: Display", "src/arithmetic/geometry.rs: is_identity"]}
{"id": "C62", "title": "ladders and their symmetries", "statement": "For a connected, locally stable graph within the arithmetic bounds, is_ladder() returns true iff the net has a translation symmetry (linear part the identity) that moves some vertex to another vertex with the same barycentric position modulo the lattice; such a translation then moves every vertex and leaves every vertex in place modulo the lattice. ladder_symmetries() returns every such translation exactly once and nothing else. Both calls panic if the graph is not locally stable.", "quantifier": "all connected locally stable graphs of any dimension", "why_tests_cant": "quantifies over all graphs and over all symmetries of the net, including the non-existence of others", "anchors": ["src/symmetries.rs: is_ladder", "src/symmetries.rs: ladder_symmetries", "src/symmetries.rs: raw_translational_orbits"]}
{"id": "C63", "title": "order and orientation of a matrix", "statement": "OperatorDetails::from accepts every square matrix of one to three rows and no other. A power of the matrix is the identity exactly if the exponent is a multiple of the order reported; 0 is reported exactly for matrices of infinite order, and otherwise one of 1, 2, 3, 4, 6. The orientation flag is that given by the sign of the determinant.", "quantifier": "all square rational matrices of one to three rows, all exponents", "why_tests_cant": "that trying six powers is enough is the crystallographic restriction, a statement about all rational matrices and all exponents", "anchors": ["src/spacegroups/finder.rs: OperatorDetails::from", "src/spacegroups/finder.rs: matrix_order", "src/spacegroups/finder.rs: is_left_handed"]}
{"id": "C64", "title": "axis of a matrix", "statement": "The axis reported for a matrix is present exactly if the eigenvectors for the eigenvalue 1 (-1 for orientation reversing matrices of odd dimension) are the multiples of one vector; it is then such a vector, with its first nonzero coordinate positive. A matrix of finite order has no axis exactly if it is a rotation of the plane or plus or minus the identity of space.", "quantifier": "all square rational matrices of one to three rows, all eigenvectors", "why_tests_cant": "quantifies over all matrices and all eigenvectors", "anchors": ["src/spacegroups/finder.rs: operator_axis", "src/spacegroups/finder.rs: positive_direction"]}
{"id": "C65", "title": "sense of rotation", "statement": "For rotations of order 3, 4 or 6 the clockwise flag tells the sign of the oriented area of v and its image (plane), or of the oriented volume of axis, v and its image (space), and this sign is the same for every vector v outside of the axis. A matrix and its inverse have the same order and orientation and opposite senses of rotation. For orders 1 and 2 the flag is true, except for reflections of the plane. Collinearity as tested is linear dependence.", "quantifier": "all square rational matrices of two or three rows, all vectors", "why_tests_cant": "the code tries one vector; the claim is about all of them", "anchors": ["src/spacegroups/finder.rs: OperatorDetails::from", "src/spacegroups/finder.rs: are_collinear", "src/spacegroups/finder.rs: dot"]}
{"id": "C66", "title": "crystal system and basis of a plane group", "statement": "For every finite group of 2x2 rational matrices, given as a list, crystal_system_and_basis_2d returns Hexagonal exactly if an element has order 3, Square exactly if an element has order 4 (never both), otherwise Rectangular if there is a reflection and Oblique if not. If the list is free of repetitions, the basis is right handed, its first vector lies on a mirror line if there is one, and for every scalar product invariant under the group the vectors are orthogonal (Rectangular, Square), of equal length (Square, Hexagonal) and at 60 degrees (Hexagonal); such a scalar product exists. With repetitions the two vectors can coincide (refuted).", "quantifier": "all finite groups of rational 2x2 matrices, all listings of their elements, all invariant scalar products", "why_tests_cant": "quantifies over all groups in all coordinate systems and all invariant metrics", "anchors": ["src/spacegroups/finder.rs: crystal_system_and_basis_2d"]}
{"id": "C67", "title": "normalized bases of plane lattices", "statement": "normalized_basis_2d terminates for every basis of a lattice of the plane. Oblique: it returns a reduced basis. Rectangular lattices closed under reflection in the coordinate axes: vectors along the axes which generate the lattice (primitive), or generate it together with the center of their cell (centered). Square lattices closed under quarter turns: a shortest vector and its image, generating the lattice. Hexagonal lattices closed under (x,y) -> (-y,x-y), the turn by 120 degrees in coordinates of two vectors at 120 degrees: a shortest vector and its image, generating the lattice. For hexagonal lattices in coordinates of two vectors at 60 degrees, as crystal_system_and_basis_2d returns them, the vectors returned need not be in the lattice (refuted).", "quantifier": "all bases of lattices of the rational plane with the symmetry named", "why_tests_cant": "depends on reduction theory: that the shortest vectors found generate the lattice holds for all lattices or not at all", "anchors": ["src/spacegroups/finder.rs: normalized_basis_2d", "src/spacegroups/finder.rs: apply_operator"]}
{"id": "C68", "title": "primitive cell and plane group identification", "statement": "primitive_cell returns the unit vectors for every list of operations, also if there are translations by fractions (so that the claim that the cell generates all translations is refuted); identitify_spacegroup_2d never returns.", "quantifier": "all lists of operations over the rational numbers, all dimensions", "why_tests_cant": "a claim about all inputs", "anchors": ["src/spacegroups/finder.rs: primitive_cell", "src/spacegroups/finder.rs: identitify_spacegroup_2d"]}
{"id": "C69", "title": "symmetries are the periodic automorphisms of the infinite net", "statement": "For a connected, locally stable graph: every symmetry of the quotient graph (what the automorphism search and symmetries() return) is induced by an automorphism of the infinite periodic net that commutes with translations up to its matrix, the matrix is integral, and the image of one node can be prescribed. Conversely every automorphism of the infinite net that respects translations is an affine map in the barycentric placement and induces such a symmetry; the search finds it from any vertex and its image.", "quantifier": "all connected locally stable graphs of any dimension and size, all symmetries, all automorphisms of the infinite net that respect its translations", "why_tests_cant": "The net is infinite and the claim is about all of its automorphisms; a test can only look at finitely many nodes of a few nets.", "anchors": ["src/symmetries.rs: automorphism, symmetries", "src/pgraphs.rs: Automorphism, position, edge_vector"]}
{"id": "C70", "title": "minimal image describes the same net with the smallest cell", "statement": "Whenever minimal_image returns a graph for a connected, locally stable graph that is not a ladder, the returned graph has the same dimension and its infinite net is isomorphic to the input's net by a map that takes translations to translations; every translation symmetry of the input's net becomes a lattice translation of the result; the result has no translation symmetry other than its lattice translations, and (if it is in the domain of the checks) is_minimal reports true and minimal_image reports that nothing is left to do.", "quantifier": "all connected locally stable non-ladder graphs of any dimension and size for which a graph is returned, all translation symmetries", "why_tests_cant": "isomorphism of infinite nets and a claim about all translation symmetries of every net", "anchors": ["src/symmetries.rs: minimal_image, is_minimal, translational_equivalences"]}
{"id": "C71", "title": "applying an operator given as text", "statement": "Applying a symmetry operator given as text to a point evaluates each of its coordinate expressions at that point, constant terms included; and it returns a value for no other texts, no operators with more than three coordinates and no points with fewer coordinates than the operator.", "quantifier": "all texts, all points", "why_tests_cant": "The set of operator texts is infinite; a test sees a few of them.", "anchors": ["src/spacegroups/finder.rs: apply_operator", "src/spacegroups/parse_operator.rs: parse_operator"]}
{"id": "C72", "title": "frames used by the symmetry search", "statement": "The edge lists that the symmetry search compares are exactly the frames (as many directed edges as dimensions, with linearly independent barycentric vectors) whose edges start at one vertex; if there is no such frame, exactly those that form a path; if there is none of these either, exactly all frames. There is always at least one, and every symmetry of the net maps the set of lists into itself.", "quantifier": "all connected locally stable graphs of any dimension and size, all edge lists, all symmetries", "why_tests_cant": "completeness of an enumeration over all nets and invariance under all symmetries", "anchors": ["src/symmetries.rs: characteristic_edge_lists, good_combinations, good_edge_chains"]}
{"id": "C73", "title": "which symmetries are found", "statement": "Although the symmetry search misses symmetries of some nets, it finds every translation symmetry of every net, and every symmetry whose matrix m satisfies m b = b m^T, where the rows of b are the edge vectors of the first frame. If each symmetry has a partner with matrix b m^T b^-1 and the same image of the frame's first vertex, the search finds all symmetries of the net.", "quantifier": "all connected locally stable graphs of any dimension and size, all symmetries", "why_tests_cant": "a completeness claim over all symmetries of all nets", "anchors": ["src/symmetries.rs: symmetries, characteristic_edge_lists, automorphism, multiplicative_group"]}
{"id": "C74", "title": "label vectors", "statement": "The 2d and 3d label vectors are integer vectors: addition, subtraction and negation are componentwise and panic exactly if a component leaves the i32 range; conversion from a list succeeds exactly for the right length and inverts conversion to a list; as long as nothing overflows they form a commutative group; the order is lexicographic, total and compatible with addition; each vector has exactly one of the signs negative, zero, positive, and negation swaps the signs.", "quantifier": "all label vectors of both types", "why_tests_cant": "all pairs and triples of vectors over the i32 range", "anchors": ["src/pgraphs.rs: LabelVector, LabelVector2d, LabelVector3d"]}
{"id": "C75", "title": "Automorphism values", "statement": "Two Automorphism values compare equal exactly if their affine maps agree and they give the same image, or none, to every vertex and every edge; equal values hash the same input; the product of two values is defined exactly if the affine maps can be composed and all images needed exist, and it gives each vertex and edge the image under the right factor followed by the left factor.", "quantifier": "all Automorphism values, including ones that do not come from a graph", "why_tests_cant": "all values; the Eq/Hash contract is about all pairs", "anchors": ["src/pgraphs.rs: Automorphism, Mul for Automorphism, Hash for Automorphism"]}
{"id": "C76", "title": "Printed values can be read back", "statement": "Display prints an integer in decimal notation and a rational number as its numerator, followed by / and the denominator unless that is 1. Two label vectors, two edges, two graphs of the same dimension, two matrices with at least one row, or two affine maps that print the same text are equal; a graph is printed as one line for each stored edge. Printing a matrix or an affine map never panics. (Empty matrices of different widths print the same, empty, text.)", "quantifier": "all integers, rationals, shifts, edges, graphs, well-formed matrices and affine maps, for every entry type whose texts are non-empty, without blanks and line ends, and different for different values", "why_tests_cant": "ranges over all values and all pairs of values", "anchors": ["src/pgraphs.rs: Display for LabelVector2d, LabelVector3d, Edge, Graph", "src/arithmetic/matrices.rs: Display for Matrix", "src/arithmetic/geometry.rs: Display for Vector, Point, ScalarProduct, AffineMap, CoordinateMap"]}
{"id": "C77", "title": "The program's report", "statement": "For a net of positive dimension whose numbers fit, the report (test_graph) is written completely, without a panic, unless the net is connected and its tree number is a multiple of 9999991, in which case it panics. The text does not depend on the iteration order of hash sets. It contains the net, a relabelling of it, for each vertex a line with the exact numbers of nodes at distances 1 to 20, whether the net is connected, and if so the position of every vertex, the three stability answers and a line for every incidence. Nets of the same dimension with the same report are equal. The program itself (main) reports on all its nine nets without a panic.", "quantifier": "all constructed graphs that fit, all vertices and incidences, all iteration orders", "why_tests_cant": "ranges over all graphs and all hash orders", "anchors": ["src/main.rs: main, test_graph_examples, test_graph, graph2d, graph3d, point_to_string", "examples/graph_properties.rs"]}
{"id": "C78", "title": "Printed table and lookup entries can be read back", "statement": "Printing a table entry or a lookup entry whose operators have dimension 1 to 3, numbers of at most nine digits and no shift component 1 or -1 never panics, and two entries that print the same text are equal, if their names contain no line end.", "quantifier": "all table entries and lookup entries with such operators", "why_tests_cant": "ranges over all pairs of entries", "anchors": ["src/spacegroups/parse_table.rs: Display for TableEntry, Display for Lookup, write_op, write_op_row", "src/spacegroups/types.rs: Display for CrystalSystem, Display for Centering"]}
{"id": "C79", "title": "Points and vectors form an affine space", "statement": "Adding, subtracting, negating, scaling and dividing points and vectors works component by component; vectors translate points (q = p + (q - p), p + u - u = p, (p + u) + v = p + (u + v)), scaling is linear and associative; reducing modulo 1 removes a whole number from each component, keeps its sign, leaves less than one, and is idempotent. Operands of different dimensions, division by zero, and component or unit-vector indices out of range panic.", "quantifier": "all dimensions, all points and vectors with rational components, all rational factors", "why_tests_cant": "ranges over all dimensions and all rational numbers", "anchors": ["src/arithmetic/geometry.rs: Vector, Point, operators Add, Sub, Neg, Mul, Div, Index, IndexMut, zero, unit", "src/arithmetic/geometry.rs: mod_z"]}
{"id": "C80", "title": "Assigning, reshaping and scaling matrices", "statement": "Assigning one entry changes that entry and no other; reshaping keeps the entries in order and panics when the number of entries does not fit; adding, subtracting, multiplying and dividing by a number act on each entry (integer division rounds towards zero); unit vectors and identity matrices have a single one per column; is_identity recognises exactly the identity; and the in-place loops of the code for identity, unit vectors and products compute the mathematical values. Entries out of range and division by zero panic.", "quantifier": "all matrices of all shapes, over integers and rationals, all indices and numbers", "why_tests_cant": "ranges over all shapes and entries", "anchors": ["src/arithmetic/matrices.rs: IndexMut, reshape, unit_vector, identity, is_identity, Add<T>, Sub<T>, Mul<T>, Div<T>, Mul"]}
{"id": "C81", "title": "Identity maps, determinants of coordinate changes and the default scalar product", "statement": "An affine map reports being the identity exactly if it fixes every point; the identity change of coordinates has determinant 1, is its own inverse and leaves points, vectors and maps alone; every change of coordinates has a non-zero determinant, the change back has its reciprocal, and composition multiplies determinants; the default scalar product is valid and is the sum of the products of the components.", "quantifier": "all dimensions, all affine maps and all coordinate changes built with the API", "why_tests_cant": "ranges over all maps and all ways of building coordinate changes", "anchors": ["src/arithmetic/geometry.rs: AffineMap::is_identity, CoordinateMap::identity, is_identity, determinant, inverse, Mul, ScalarProduct::default"]}
{"id": "C82", "title": "Machine integers in periodic graphs", "statement": "With overflow checks, building a graph, incidences, directed edges, coordination sequences, normalisation of shifts, component measures and the connectedness test either panic or give exactly what unbounded integers give. If no shift component exceeds b in size, building, incidences and directed edges never overflow, k terms of a coordination sequence do not as long as k*b < 2^31, and shift normalisation does not as long as (2n-1)*b < 2^31 for n vertices. A shift component -2^31 panics as soon as the edge is reversed. The connectedness test has no such simple bound: it panics for a connected net with shifts below 10^5, and in a build without checks it calls a disconnected net connected.", "quantifier": "all graphs, dimensions, shift sizes, vertices, numbers of terms and iteration orders of hash sets", "why_tests_cant": "overflow depends on the size of labels and the number of vertices or terms; tests use small labels", "anchors": ["src/pgraphs.rs: Graph::new, incidences, directed_edges, coordination_sequence, shift_normalized, graph_component_measures, is_connected", "src/arithmetic/linear_algebra.rs: extend_basis"]}
{"id": "C83", "title": "Machine integers in linear algebra", "statement": "With overflow checks, rank, determinant, basis extension, reduced basis, solve, null space, inverse and product of i32 or i64 matrices either panic or give the exact result. gcdx never overflows if neither argument is the smallest number. Determinants of 2x2 matrices with entries up to b do not overflow as long as 2b^2 < 2^(bits-1), of 3x3 matrices as long as 6b^3 < 2^(bits-1), and products with inner dimension n as long as n*b*b' < 2^(bits-1). Larger determinants use elimination: the i32 determinant of a 4x4 matrix with determinant 1 and entries below 2*10^5 panics.", "quantifier": "all word sizes, all matrices, all pairs of integers", "why_tests_cant": "ranges over all integers up to 2^63 and all matrix sizes", "anchors": ["src/arithmetic/linear_algebra.rs: gcdx, extend_basis, Matrix::rank, determinant, reduced_basis, solve, null_space, inverse", "src/arithmetic/matrices.rs: Mul"]}
{"id": "C84", "title": "Shape of results of f64 linear algebra", "statement": "For f64 matrices with any entries, infinities and NaN included, rank, determinant (of square matrices), reduced_basis, solve, inverse and null_space never panic. The rank is at most the numbers of rows and columns. reduced_basis has as many rows as the rank and is in reduced row echelon form with pivots exactly 1.0, entries left of a pivot comparing equal to 0.0 and entries above a pivot exactly 0.0. solve returns None exactly if the reduced basis of the augmented matrix has a pivot beyond the columns of the left side, otherwise a matrix of the right shape. null_space returns at least ncols-nrows columns, or None only if there are no more columns than rows. The results need not be those of exact arithmetic: [[49,49],[1,1]] has rank 2 and an inverse although its determinant is computed as 0, and 49x=49, x=1 is reported unsolvable.", "quantifier": "all f64 matrices of all shapes", "why_tests_cant": "2^64 values for each entry; rounding, signed zeros, infinities and NaN combine in elimination", "anchors": ["src/arithmetic/linear_algebra.rs: impl Scalar for f64, extend_basis, impl LinearAlgebra for Matrix"]}
{"id": "C85", "title": "Exactness of f64 linear algebra", "statement": "f64 sums, differences, products and quotients are exact whenever the exact result is an f64, and == compares values. So sums, differences and products of matrices of integers (times powers of two) are exact as long as the entries, and the number of terms times the largest entries, stay below 2^53; determinants of size up to 3 of matrices with entries up to B are those of the integer matrix as long as 6 B^3 < 2^53; determinants of larger triangular matrices are the product of the diagonal as long as the partial products are f64 numbers; in particular the determinant of 2I of size d is 2^d for d up to 1023.", "quantifier": "all finite f64 numbers, all matrices and sizes within the bounds", "why_tests_cant": "ranges over all pairs of f64 numbers and all sizes; the repository tests d <= 5 only", "anchors": ["src/arithmetic/linear_algebra.rs: impl Scalar for f64, determinant", "src/arithmetic/matrices.rs: Add, Sub, Mul"]}
{"id": "C86", "title": "Numbers in cgd files are read as the nearest f64", "statement": "A decimal number is converted to an f64 that is at least as near as any other f64, to the one with even mantissa if two are equally near, and to an infinity exactly from 2^1024 - 2^970 on. A number alone on a line is read as an integer field if this f64 is an integer in the range of i32, and as this f64 otherwise; integers in the range of i32 are read exactly in whatever way they are written, and so are all numbers that are values of an f64.", "quantifier": "all decimal numerals with any number of digits, decimals and any exponent", "why_tests_cant": "infinitely many numerals; the decisive cases are ties, underflow and overflow", "anchors": ["src/io/parse_cgd_line.rs: field, double_to_field"]}
{"id": "C87", "title": "f64 linear algebra is exact as long as no intermediate result needs rounding", "statement": "For matrices of f64 numbers, whenever carrying out rank, reduced_basis, determinant, solve, null_space or inverse in exact rational arithmetic meets only entries that are themselves values of f64 numbers, the f64 computation returns exactly the values of the rational result: the same rank, the same reduced basis, the exact determinant, a solution of the exact system (or None exactly when the exact system has no solution), the exact null space and the exact inverse.", "quantifier": "all shapes and all finite f64 matrices whose exact elimination stays within f64 numbers", "why_tests_cant": "the condition is on every intermediate quotient, product and difference of an elimination of any size; tests sample a few small matrices", "anchors": ["src/arithmetic/linear_algebra.rs: impl Scalar for f64", "src/arithmetic/linear_algebra.rs: impl LinearAlgebra for Matrix"]}
{"id": "C88", "title": "modular_solver::solve is exact for every sufficient number of lifting steps", "statement": "The number of p-adic lifting steps is estimated with floating point logarithms. Whatever number the estimate returns, as long as it is at least 2 (log |d| + log phi) / log p for the determinant of a and for the determinants of Cramer's rule, solve returns exactly the unique solution of a x = b; in particular any overestimate of the Hadamard bound gives the same result, and no rounding error upwards matters.", "quantifier": "all sizes, all integer matrices with determinant not divisible by 9999991, all numbers of steps above the bound, with ideal integers or with i64 overflow checks", "why_tests_cant": "the estimate depends on the rounding of ln, sqrt and powf on the platform; a test sees one platform and a few matrices", "anchors": ["src/arithmetic/modular_solver.rs: solve", "src/arithmetic/modular_solver.rs: number_of_p_adic_steps_needed"]}
{"id": "C89", "title": "Small nets always get a placement", "statement": "For a connected net whose vertices, all but the first, have numbers of edge ends (loops not counted) with a product below 9999991, position returns a placement for every vertex and the program's report is printed; in particular this holds for every net with at most n+1 vertices of degree at most k whenever k^n < 9999991 (4-coordinated nets with up to 12 vertices).", "quantifier": "all constructed graphs of any dimension with shifts in the stated range, all vertices, all iteration orders", "why_tests_cant": "the modular solver fails for multiples of one prime; that no small net produces such a determinant needs a bound on the determinant of every Laplacian", "anchors": ["src/pgraphs.rs: Graph::position, Graph::barycentric placement", "src/arithmetic/modular_solver.rs: solve", "src/main.rs"]}
{"id": "C90", "title": "A net has no placement exactly if its number of spanning trees is a multiple of one prime", "statement": "Let n be the number of spanning trees of the quotient graph (trees directed towards the first vertex; 0 if the quotient is not connected). position returns a placement for every vertex if n is not a multiple of 9999991, and panics for every vertex otherwise.", "quantifier": "all constructed graphs of any dimension with shifts in the stated range, all vertices", "why_tests_cant": "the modular solver's failure depends on a determinant modulo a prime; relating it to a count of trees for every graph is the matrix-tree theorem", "anchors": ["src/pgraphs.rs: Graph::position", "src/pgraphs.rs: barycentric_placement", "src/arithmetic/modular_solver.rs: solve"]}
{"id": "C91", "title": "What is computed for a net does not depend on the graph that describes it", "statement": "Let two graphs describe the same net: there is an isomorphism of the infinite nets, and for the placements it respects the translations (as when vertices are renumbered, other representatives or another basis of the translations are chosen, or the cell is made larger). Then is_connected agrees, coordination sequences of corresponding vertices agree, the barycentric placements differ by an affine map with the matrix of the isomorphism, and is_stable, is_locally_stable and has_second_order_collisions agree. Renumbering vertices, moving representatives and changing the basis by an integer matrix with integer inverse gives such a pair; minimal_image gives another.", "quantifier": "all pairs of constructed graphs of the same dimension with an isomorphism between their nets, all vertices, all iteration orders; for placements: connected graphs that have one", "why_tests_cant": "ranges over all nets, all descriptions of a net and all prefixes of coordination sequences", "anchors": ["src/pgraphs.rs: Graph::position, Graph::is_stable, Graph::is_locally_stable, Graph::has_second_order_collisions, Graph::is_connected, Graph::coordination_sequence", "src/symmetries.rs: minimal_image"]}
{"id": "C92", "title": "Ladders, minimality and translational orbits are properties of the infinite net", "statement": "is_ladder returns true exactly if some translation symmetry of the infinite net (an automorphism that commutes with the lattice translations) moves a node but leaves it at the same place. For nets that are not ladders, is_minimal returns true exactly if every translation symmetry of the net is a lattice translation, and two vertices share a class of translational_orbits exactly if a translation symmetry takes one to the other. Hence all three give corresponding results for any two graphs whose nets are isomorphic by a map that acts on translations by an integer matrix with integer inverse.", "quantifier": "all sound graphs (constructed, connected, locally stable, shifts in range) of any dimension, all pairs of such graphs with such an isomorphism", "why_tests_cant": "quantifies over all automorphisms of an infinite graph and all descriptions of a net", "anchors": ["src/symmetries.rs: is_ladder, is_minimal, translational_orbits, translational_equivalences"]}
{"id": "C93", "title": "Whether a net gets a placement does not depend on vertex numbers, representatives or basis", "statement": "position returns a placement for every vertex exactly if the number of spanning trees of the quotient graph (selections of edges that link all vertices, one less than there are vertices) is not a multiple of 9999991. Two graphs whose nets are isomorphic by a map that acts on translations by an integer matrix with integer inverse have equally many spanning trees; so one has a placement exactly if the other has one, whichever vertex comes first in the numbering.", "quantifier": "all constructed graphs of any dimension with shifts in the stated range, all pairs of such graphs with such an isomorphism", "why_tests_cant": "the code removes the row of the first vertex from the Laplacian, so the determinant it depends on could change with the numbering; that it does not needs the matrix-tree theorem", "anchors": ["src/pgraphs.rs: barycentric_placement, Graph::position", "src/arithmetic/modular_solver.rs: solve"]}
{"id": "C94", "title": "The orbits and symmetries that are reported depend on how the vertices are numbered", "statement": "One would expect that other numbers for the vertices of a graph change nothing but the names in the result. This is false: there is a connected stable plane net with three vertices and five edges for which symmetries(), vertex_orbits() and edge_orbits() report 2 symmetries, 2 kinds of vertices and 3 kinds of edges; after exchanging the numbers 1 and 2 they report 1 symmetry, 3 kinds of vertices and 5 kinds of edges.", "quantifier": "all sound graphs and all renumberings (refuted by one of them)", "why_tests_cant": "the search looks for symmetries with a matrix that depends on the first frame, and so on the vertex with the smallest number; tests with one numbering per net cannot see it", "anchors": ["src/symmetries.rs: symmetries, characteristic_edge_lists", "src/pgraphs.rs: Graph::vertex_orbits, Graph::edge_orbits, Graph::symmetries"]}
{"id": "C95", "title": "Affine maps, coordinate maps and scalar products with integer entries obey the same laws, and stay integral", "statement": "For AffineMap and CoordinateMap over integers: applying a product is applying one map after the other, products are associative, the identity changes nothing, differences of points go to images of differences. inverse() returns an integer map exactly if the determinant is 1 or -1, and that map undoes the other on all points and vectors; None means no integer map does. A coordinate map, however constructed (new, from a matrix or a basis, identity, inverse, product), carries a backward map that undoes the forward one, and commutes with the affine maps it transforms; from_basis and to_basis panic exactly if the vectors are no basis of the integer lattice. ScalarProduct::from accepts an integer matrix exactly if it is square, symmetric and positive on all non-zero integer vectors, apply computes the bilinear form, and coordinate maps preserve its values.", "quantifier": "all dimensions, all integer affine maps, points, vectors and matrices, all construction histories of coordinate maps", "why_tests_cant": "algebraic laws over all dimensions and entries; the integer elimination behind inverse and determinant is a different code path from the rational one", "anchors": ["src/arithmetic/geometry.rs: AffineMap, CoordinateMap, ScalarProduct", "src/arithmetic/linear_algebra.rs: inverse, determinant (integer instances)"]}
{"id": "C96", "title": "Lattice reduction with a non-zero comparison tolerance: what still holds, and what does not", "statement": "For every tolerance epsilon >= 0 in shift_for_dirichlet_domain, lagrange_reduced, selling_reduced, dirichlet_vectors and reduced_lattice_basis: the functions end; the shift is a lattice vector and moves the point into all slabs widened by the tolerance; the reduced vectors generate the same lattice; the products of the four Selling vectors do not exceed the tolerance; the Lagrange pair has a non-acute angle and |v|^2(1-epsilon) <= |u|^2; the Dirichlet vectors generate the lattice and bound a region that contains the Voronoi cell; reduced_lattice_basis returns a basis of the lattice sorted by length, greedily shortest among the Dirichlet vectors, provided the tolerance is at most the grid spacing of the coordinates. Not true with a tolerance: that the first basis vector is a shortest lattice vector, that the Dirichlet vectors bound exactly the Voronoi cell, and (tolerance above the grid spacing) that the returned vectors are in the lattice or that a basis is returned at all. With a negative tolerance the loops need not end.", "quantifier": "all tolerances, all scalar products, all bases of dimension at most 3, all points", "why_tests_cant": "termination and lattice equality for all bases, products and tolerances; the refuted parts need constructed witnesses", "anchors": ["src/spacegroups/lattices.rs: shift_for_dirichlet_domain, lagrange_reduced, selling_reduced, dirichlet_vectors, reduced_lattice_basis"]}
{"id": "C97", "title": "The shipped table of space groups is a table of space groups", "statement": "The file src/data/sgtable.data is accepted by parse_space_group_table, with 549 settings, 52 aliases and 247 lookup entries. In every setting the operators together with the integer translations form a group, with integral linear parts and no operator listed twice. The canonical setting of every setting exists, has the identity as its transformation, and the transformation of the setting carries the operators of the setting exactly to those of the canonical setting. No alias is the name of a setting; all but six aliases name a setting. Every lookup entry names a canonical setting, each canonical setting of dimension 2 or 3 has exactly one lookup entry; its map leads to coordinates in which the translations of the group are exactly those of the entry's centering, and its crystal system is that of the group (in the plane: the one crystal_system_and_basis_2d finds). Applied to the operators of the plane groups of the table, the steps of identitify_spacegroup_2d find the crystal system and centering of the lookup entry for all groups but cm (panic) and c2mm (no centering found). Not true: that all aliases name a setting (six do not), and that the transformation leads from group to setting coordinates, as its type CoordinateMap<Group, Setting> says (it leads the other way, e.g. for P112).", "quantifier": "all settings, aliases and lookup entries of the file, all group elements and all translations, every ASCII-correct to_lowercase", "why_tests_cant": "closure of infinite groups and equality of infinite groups under coordinate changes, for the whole table; tests look at a few entries", "anchors": ["src/data/sgtable.data", "src/spacegroups/parse_table.rs: parse_space_group_table, lookup_settings", "src/spacegroups/finder.rs: crystal_system_and_basis_2d", "examples/read_spacegroup_tables.rs"]}
{"id": "C98", "title": "f64 operations are correctly rounded; error bounds for matrices of f64", "statement": "Addition, subtraction, multiplication and division of finite f64 numbers return the f64 number nearest to the exact result, and the infinity of its sign exactly if the exact result is at least half a unit above the largest f64; the relative error is at most 2^-53 unless the exact result is below 2^-1022 (then the error is at most 2^-1075), and for sums and differences without exception. Entries of the sum, difference and multiple of matrices of f64 are the exact ones correctly rounded. A finite entry of a product of matrices with n terms differs from the exact one by at most ((1+2^-53)^n - 1) times the sum of the absolute values of the terms, plus n(1+2^-53)^n 2^-1075; a finite determinant of a 2x2 matrix by at most ((1+2^-53)^2 - 1)(|ad| + |bc|) plus 2(1+2^-53) 2^-1075.", "quantifier": "all finite f64 operands, matrices of f64 of all shapes", "why_tests_cant": "a bound over all 2^128 pairs of operands and all matrices", "anchors": ["src/arithmetic/matrices.rs: Add, Sub, Mul for Matrix", "src/arithmetic/linear_algebra.rs: determinant"]}
{"id": "C99", "title": "The number of lifting steps computed in f64 suffices", "statement": "modular_solver::solve chooses its number of p-adic steps with f64 arithmetic: the norms of the columns by powf, sum and sqrt, their logarithms by ln, all but the smallest summed, then 2 (sum + ln golden) / ln p rounded up. If the platform's powf(., 2), sqrt and ln have a relative error of at most 10^-12, the f64 value is at most 10^-7 below 2 (ln |d| + ln phi) / ln p for the determinant d of the matrix and every nonzero numerator d of Cramer's rule. So solve returns the unique exact solution, also with i64 overflow checks, unless phi^2 d^2 for one of these d lies above a power of p = 9999991 by at most one part in 100000; in particular whenever all of them are at most six million in absolute value. A zero column (logarithm -inf) does no harm.", "quantifier": "all regular integer systems of at most 1000 rows with entries of i64, all right-hand sides, all implementations of powf, sqrt and ln of that accuracy", "why_tests_cant": "rounding errors of a data-dependent chain of thousands of f64 operations on every input, and unknown library functions", "anchors": ["src/arithmetic/modular_solver.rs: number_of_p_adic_steps_needed, column_norm, solve"]}
{"id": "C100", "title": "Sizes of orbits and of the reported group of symmetries", "statement": "For a connected, locally stable graph the number of symmetries returned by symmetries() is the size of any reported orbit of vertices times the number of symmetries that keep a vertex of it, likewise for orbits of edges, and it is the number of different matrices among them times the number of translations (matrix identity) among them. If the graph is not a ladder, every class of translational_orbits() has as many vertices as there are translations among the symmetries, so the number of vertices is that times the number of classes. Vertices in one reported orbit are linked by an automorphism of the infinite net that respects its translations; vertices linked by a translation symmetry of the net are always in one reported orbit.", "quantifier": "all dimensions and all connected locally stable graphs within the arithmetic bounds of the p-adic solver; all orbits and all elements of them", "why_tests_cant": "The identities relate the results of five separately computed functions (symmetries, vertex_orbits, edge_orbits, translational_orbits, vertices) on every net; a missing or doubled symmetry in some rare net breaks them.", "anchors": ["src/pgraphs.rs: Graph::symmetries, Graph::vertex_orbits, Graph::edge_orbits", "src/symmetries.rs: symmetries, translational_orbits"]}
{"id": "C101", "title": "The symmetries found have crystallographic orders", "statement": "Applying an automorphism of a net repeatedly gives the identity after finitely many steps. For nets of dimension 1, 2 and 3 the matrix of every element returned by symmetries() has order 1, 2, 3, 4 or 6: after that many applications what remains is a lattice translation composed with a permutation of vertices, and it is the identity when the net is minimal and not a ladder. The restriction on the orders does not hold in dimension four.", "quantifier": "all constructed, connected, locally stable periodic graphs (dimension at most 3 for the orders) and all their automorphisms", "why_tests_cant": "It bounds the order of every symmetry of every net; the net families are infinite and the orders could grow with the size of the net.", "anchors": ["src/symmetries.rs: symmetries, automorphism", "src/pgraphs.rs: Automorphism", "src/arithmetic/geometry.rs: AffineMap"]}
{"id": "C102", "title": "The reported point group has crystallographic order", "statement": "For a connected, locally stable net of dimension at most 3 the number of different matrices among the elements returned by symmetries() is the order of a crystallographic point group: 1, 2, 3, 4, 6, 8, 12, 16, 24 or 48 in dimension 3, 1, 2, 3, 4, 6, 8 or 12 in dimension 2, 1 or 2 in dimension 1. Hence there are at most 48 times as many symmetries as translations among them and, unless the net is a ladder, at most 48 times as many as vertices. For a minimal net that is not a ladder the number of symmetries and the size of every orbit of vertices or edges divide 48.", "quantifier": "all constructed, connected, locally stable periodic graphs of dimension at most 3", "why_tests_cant": "It bounds and restricts the size of a computed group for an infinite family of nets, however many vertices they have.", "anchors": ["src/symmetries.rs: symmetries", "src/pgraphs.rs: Automorphism", "src/pgraphs.rs: vertex_orbits, edge_orbits"]}
{"id": "C103", "title": "generate returns operators with a crystallographic point group, or never returns", "statement": "If generate returns for unimodular generators with rational translations, the number of different linear parts among the operators is the order of a crystallographic point group (1, 2, 3, 4, 6, 8, 12, 16, 24 or 48 in dimension 3; 1, 2, 3, 4, 6, 8 or 12 in dimension 2; 1 or 2 in dimension 1), and the order that OperatorDetails::from reports for each linear part is 1, 2, 3, 4 or 6. Hence generate never returns if a product of the generators has a linear part of infinite order. In every dimension generate terminates if and only if only finitely many matrices are linear parts of products of the generators.", "quantifier": "all nonempty lists of unimodular affine operators with rational translations, all amounts of fuel", "why_tests_cant": "It concerns infinitely many generated groups and the termination of an unbounded loop.", "anchors": ["src/spacegroups/basics.rs: generate", "src/spacegroups/finder.rs: OperatorDetails::from, matrix_order"]}
{"id": "C104", "title": "The crystal system of a plane group fits its order", "statement": "For every finite group of 2x2 rational matrices (listed with or without repetitions) the number n of different matrices fits the crystal system that crystal_system_and_basis_2d reports. Without reflections: Oblique and n = 1 or 2, Square and n = 4, Hexagonal and n = 3 or 6. With reflections: Rectangular and n = 2 or 4, Square and n = 8, Hexagonal and n = 6 or 12. These are the ten plane point groups, and each occurs. The linear parts of the operators returned by generate for unimodular plane generators form such a group, so the crystal system is always determined for them.", "quantifier": "all finite groups of 2x2 rational matrices; all nonempty lists of unimodular plane operators", "why_tests_cant": "There are infinitely many groups and settings; the table of orders is a classification theorem.", "anchors": ["src/spacegroups/finder.rs: crystal_system_and_basis_2d", "src/spacegroups/basics.rs: generate"]}
{"id": "C105", "title": "The symmetries of a plane net have a crystal system", "statement": "For every connected, locally stable net of dimension 2 the matrices of the elements returned by symmetries() are a finite group of rational matrices, so that crystal_system_and_basis_2d returns a crystal system and a basis for them, and the number of symmetries is the number of translations among them times the order of a plane point group of that crystal system (Oblique 1, 2; Rectangular 2, 4; Square 4, 8; Hexagonal 3, 6, 12, as in C104).", "quantifier": "all constructed, connected, locally stable periodic graphs of dimension 2", "why_tests_cant": "It relates the results of two parts of the library for infinitely many nets.", "anchors": ["src/symmetries.rs: symmetries", "src/spacegroups/finder.rs: crystal_system_and_basis_2d"]}
{"id": "C106", "title": "The cell that the identification of plane groups normalizes", "statement": "For every list of operations whose linear parts are a finite group of 2x2 rational matrices without repetitions, the cell that identitify_spacegroup_2d computes and hands to normalized_basis_2d consists of the two vectors dual (for the dot product) to the basis returned by crystal_system_and_basis_2d. The intended reading, that these vectors list the coordinates of the cell with respect to the basis, holds exactly if the matrix of the basis is symmetric, and is refuted for a hexagonal group. The identification does not hang: for every such list it ends, with a panic. That the normalized vectors generate the cell is refuted for the group p3m1 with the operations of the shipped table. That the centering does not depend on the choice of coordinates (another basis of the same lattice) is refuted for a centered rectangular group.", "quantifier": "all lists of plane operations with finite, repetition-free linear parts", "why_tests_cant": "It holds for every basis over the rational numbers; a test on orthogonal axes cannot tell a matrix from its transpose.", "anchors": ["src/spacegroups/finder.rs: identitify_spacegroup_2d", "src/spacegroups/finder.rs: crystal_system_and_basis_2d", "src/spacegroups/finder.rs: primitive_cell"]}
{"id": "C107", "title": "Handedness of normalized bases of plane lattices", "statement": "For the square and the hexagonal system normalized_basis_2d returns a right-handed basis, whatever the lattice and the handedness of the vectors given. For the oblique and the rectangular system (primitive and centered) this is refuted: there are right-handed vectors, generating a lattice closed under the mirror in the rectangular case, for which the result is left-handed.", "quantifier": "all bases of lattices of the plane over the rational numbers", "why_tests_cant": "a claim about all lattices; a test on unit vectors gives right-handed results", "anchors": ["src/spacegroups/finder.rs: normalized_basis_2d", "src/spacegroups/lattices.rs: reduced_lattice_basis"]}
