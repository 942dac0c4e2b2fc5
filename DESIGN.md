# Formal model of odf/rust-systre in Rocq (Coq 8.16.1)

## Trusted base

* Coq's kernel (and `coqchk`, which the gate runs).
* The axioms printed by `Print Assumptions` after each property theorem (the
  files in `theories/Props_*.v` print them during the build).  Files about
  partitions, integers, graphs and parsers are axiom free.  See the section
  "Assumptions per theorem" below.
* The translation from Rust to Gallina, done by hand, function by function.
  Each model definition cites the Rust file and lines it models.

### Conventions of the model

* A Rust function that may panic or loop is modelled by a function into
  `outcome A := Ret a | Panic | Timeout`.  `Timeout` means that the fuel given
  to a `while`/`loop` was used up; termination theorems say that it does not
  occur for all large enough fuel (or for a concrete fuel bound).
* `i32`, `i64`, `isize`, `BigInt` are modelled by unbounded `Z`.  Overflow is
  not modelled except where a property is about it (C04, C24, C43, C74) and in
  `Machine.v`, which repeats the integer linear algebra and the graph functions
  with `i32`/`i64` (C82, C83) and compares them with the unbounded ones.  Rust's
  `/` and `%` on integers are `Z.quot` and `Z.rem`.
* `BigRational` is modelled by the standard library's `Qc` (canonical
  fractions with Leibniz equality).  `floor` is the true floor, `round` rounds
  half away from zero and `%` truncates, as in `num-rational`.
* `f64` is the `spec_float` of the standard library (binary64, one NaN) in
  `F64.v`, for matrices and linear algebra (C84, C85), and a rational number,
  infinity or NaN in `Cgd.v` (C86).  The only float computation whose result matters for
  an exact result, `number_of_p_adic_steps_needed`, is modelled twice: with exact
  arithmetic (least k with p^k >= phi^2 delta^2) in `ModSolve.v`, and in f64 in `FloatSteps.v` (C99), where the platform's
  `ln`, `sqrt` and `powf` are parameters with a relative error of at most 10^-12.  Everything generic over
  `Coord` is modelled for the rational (and integer) instances only.
* `HashMap`/`HashSet`/`BTreeSet` are modelled by association lists / lists
  without duplicates.  Where Rust iterates over a hash container, theorems are
  stated so that they do not depend on the order.
* Phantom types of coordinate systems are erased.
* Not modelled: `examples/display_matrix.rs`, `examples/read_spacegroup_tables.rs`
  (they only print values whose `Display` is modelled), I/O errors other than invalid UTF-8.
  The shipped `sgtable.data` is in `SgData.v`, byte by byte (generated from the file).

### Modelling notes per module

* **modular_solver.rs** – the prime is a parameter where the theorem allows it
  and 9999991 in `solve`.  The number of p-adic steps is computed with exact
  reals' integer form instead of `f64` logarithms; C23_number_of_steps relates
  the two.  `BigInt` products are exact; C24 bounds every `i64` intermediate.
* **pgraphs.rs** – generic parameter (2d/3d/nd label vectors) is one dimension
  `d`.  `sound`/`fits` in the statements are the bounds under which C24 rules
  out overflow (number of edges, size of shifts).  `tree_number` in C33 is the
  determinant of the reduced Laplacian.  The `UnsafeCell` caches are modelled
  as a state machine in PGraphCache.v (C27); every other file uses the pure
  functions, which C27 justifies.
* **symmetries.rs** – the traversal queue, the partition of characteristic edge
  lists and the generator loop are modelled as written.
* **lattices.rs** – the functions take `epsilon` as a parameter: C43-C47 are at `epsilon = 0`, as for `BigRational`; C96 is for every tolerance; unbounded loops take
  fuel and theorems hold for all large enough fuel; division by zero panics.
* **basics.rs** – `HashSet` membership is list membership.
* **parse_operator.rs, parse_cgd_line.rs** – the combinators of nom 7.1.3 are
  modelled by hand from its documentation and source semantics (`alt`, `many0`,
  `separated_list1`, `map_opt`, recoverable `Err::Error`); `Ratio<i32>`
  `checked_add` follows num-rational 0.4.1.  In Cgd.v rounding to `f64` and
  `str::to_lowercase` are parameters of the model (universally quantified in
  the theorems; C86 fixes the first to rounding to nearest even), `BufRead::lines` and UTF-8 decoding are specified on byte
  lists, and Unicode White_Space is the explicit list of code points.
* **finder.rs** – all functions, for T = BigRational (epsilon 0); `todo!()` is a panic, the arguments evaluated before it are modelled (C63-C68). Findings: repeated linear parts (centered settings) give a degenerate basis; the hexagonal branch of normalized_basis_2d uses an operation that is not a symmetry in its coordinates; primitive_cell loses all centering translations; identitify_spacegroup_2d uses the inverse of the transposed basis matrix where the inverse is meant, so that the centering it finds depends on the coordinates and p3m1 is normalized to vectors outside its cell lattice (C106).
* **parse_table.rs, types.rs** – `HashMap` as association list (C60, C61).

## Plan per property

| id | what is modelled | how it is proved |
|----|------------------|------------------|
| C01-C03 | `partitions.rs` completely: hash index, element list, rank and parent arrays, path compression | forest invariant (rank increases towards the root); the root function is unchanged by compression; relation to the inductive equivalence closure |
| C04 | `gcdx` loop | loop invariant, unimodularity, size bounds from the Euclidean continuant identity |
| C05 | `extend_basis` generic over a dictionary of scalar operations, instances Z and Qc | span invariant; each step is a unimodular 2x2 row operation |
| C06 | `rank` | echelon rows are independent; Steinitz lemma over a domain |
| C07 | `determinant` | multilinear/alternating argument against mathcomp's `\det` |
| C08, C09 | `reduced_basis` | span invariance, shape, uniqueness of the reduced form over a field; counterexample for Z |
| C10, C11 | `solve` | the kept rows of the two reductions |
| C12, C13 | `inverse`, `null_space` | from solve / kernel rows of the elimination |
| C14 | `matrices.rs` | entrywise extensionality |
| C15, C16, C18 | `geometry.rs` maps | matrix identities + C10/C12 |
| C17 | `ScalarProduct::from` | Sylvester's criterion |
| C19 | `modular_inverse` | loop invariant |
| C20, C21 | `modular_row_echelon_form`, `modular_matrix_inverse` | row operation invariant modulo p; counterexamples |
| C22 | `rational_reconstruction` | continued fraction invariants, Dixon's lemma with the golden ratio bound in integer form |
| C23 | `solve` in modular_solver | p-adic invariant, Cramer's rule, Hadamard's inequality |
| C24 | the same with explicit intermediate values | bounds |
| C25, C26 | `Edge`, `Graph::new`, `vertices`, `incidences`, `directed_edges` | sorting/deduplication lemmas |
| C27 | state machine with the caches | simulation: cache contents equal the pure function |
| C28 | `CoordinationSequence` | breadth first search invariant |
| C29-C31 | `shift_normalized`, `graph_component_measures`, `is_connected` | gauge invariance; lattice of closed walks; index of a triangular lattice |
| C32, C33 | `barycentric_placement`, `position` | C23, maximum principle for uniqueness; concrete counterexample |
| C34, C35 | stability predicates | list/grouping lemmas |
| C36, C37 | `automorphism` | invariants of the breadth first traversal; counting walks for bijectivity; completeness by following a given symmetry along the traversal |
| C38, C39 | `symmetries` | the generator loop keeps a closure under composition; counterexample for completeness in skewed coordinates |
| C40-C42 | orbits, translational equivalences, `minimal_image` | C01, group property; counterexample |
| C43 | `rational_lattice_basis` | C05 |
| C44-C47 | `lattices.rs` | well-founded termination by discreteness; Voronoi/Selling arguments |
| C48, C49 | `generate` | worklist invariant; counterexample |
| C50, C51 | `gram_matrix_configuration_space`, `shift_space` | C13; counterexamples |
| C52, C53 | operator parser and printer | parser lemmas on character lists |
| C54-C56, C59 | cgd line and block parsers | an inductive grammar (CgdGrammar.v), parsers proved sound and complete for it; induction on lines |
| C57 | `PrimitiveSetting` | C43, C16 and the lattice of translations |
| C58 | `AffineMap::from_str`, `CoordinateMap::from_str` | C53 and shape lemmas |
| C60, C61 | table parser, names, lookup | specification of well-formed tables (TableSpec.v), simulation of the line loop |
| C62 | `is_ladder`, `ladder_symmetries` | placement is injective modulo translations; the symmetries found are those fixing the placement |
| C63-C65 | `OperatorDetails::from` of finder.rs | matrices of size 1-3 embedded into 3 x 3 matrices of determinant 1; invariant form of a finite cyclic group, Cayley-Hamilton, integral zeros of the resulting recurrence |
| C66-C68 | `crystal_system_and_basis_2d`, `normalized_basis_2d`, `primitive_cell`, `identitify_spacegroup_2d` | finite groups of 2 x 2 matrices have an invariant form; rotations commute; reduction theory in the plane on top of C47: a vector as long as a shortest one completes it to a basis, and so does the image of a shortest one under an integral turn of order 3; three refuted claims |
| C69 | symmetries as automorphisms of the infinite net | lift along walks; descent by the maximum principle: a periodic automorphism and its matrix differ by a harmonic, hence constant, function |
| C70 | minimal image keeps the net and minimises the cell | integrality of the new basis, the translation classes are the fibres of the projection, unimodularity of the basis change; quotient map of nodes |
| C71 | applying an operator text to a point | the grammar and meaning of C53, linearity of the evaluation in the terms |
| C72 | which frames the symmetry search looks at | frames, stars and paths are defined on edge vectors; the list functions are proved complete, and closed under every symmetry |
| C73 | which symmetries are found | loop invariant: each frame is linked to the first by found generators, or was tried; a symmetry with m b = b m^T is always found (all translations, in particular); if every symmetry has a conjugate partner, a counting argument on the finite matrix group shows that all are found |
| C74 | label vectors are an ordered group, with overflow | the i32 records of LabelVector2d/3d; one specification record for both, laws derived from it; agreement with the list model used elsewhere |
| C75 | Automorphism values: equality, hash, product | maps as association lists; equality, hash input and product characterised by lookups |
| C76 | `Display` of numbers, labels, edges, graphs, matrices, affine maps | words ended by a separator are recognised (Readable.v), injectivity of decimal notation |
| C77 | `test_graph` and `main` | C28, C29, C31, C33–C35 for the parts; `occurs` for the contents; the nine nets by computing the conditions |
| C78 | `Display` of `TableEntry` and `Lookup` | C52 and splitting into lines |
| C79 | `Vector`, `Point` operators, `mod_z` | columns as functions, ring laws over Qc |
| C80 | `IndexMut`, `reshape`, entrywise operators, the loops of `identity`, `unit_vector`, `*` (VecOps.v) | a fold that fills a matrix entry by entry |
| C81 | `is_identity`, `CoordinateMap::identity`, `determinant`, `ScalarProduct::default` | C07_multiplicative, C15–C17 |
| C82 | `Machine.v`: the graph functions with every `i32` operation passed through a check (`checked 32` = debug build, `wrapping 32` = release build) | simulation (`MachineRef.v`: equal or Panic), between the two builds (`MachineMono.v`), and with enough bits (`MachineEv.v`); magnitude invariants along the traversals (`MachineFits.v`), concrete witnesses |
| C83 | `Machine.v`: `linear_algebra.rs` and matrix products over `i32`/`i64` | the same simulation; C04's bound on the intermediate values of gcdx; term-by-term bounds |
| C84 | `F64.v`: `Scalar for f64` on the standard library's SpecFloat (binary64), the generic linear algebra of `LinAlg.v` | invariants of elimination that hold for all floats: lengths, echelon form, and "zero or NaN" columns that never become pivots (so `[A^T \| I]` keeps full rank) |
| C85 | the same | exactness lemmas for SpecFloat's rounding of aligned mantissas; bounds on partial sums; a triangular matrix is its own echelon basis |
| C86 | `F64Round.v`: rounding to nearest even of a rational, plugged into `Cgd.v` | integer inequalities on the scaled mantissa; C59 |
| C87 | `F64Elim.v`: the same generic elimination over rationals that must be values of f64 numbers; `F64.v`, `Scalars.v` | simulation (`Simulate.v`): related scalar operations give related results of all functions of `LinAlg.v`; `F64Exact.v` for f64, identity for rationals; C10 |
| C88 | `ModSolve.v`: `solve` with the step estimate as a parameter | the proof of C23 with the bounds on determinants as hypotheses |
| C89 | `TreeBound.v`: determinant of a matrix with non-positive off-diagonal entries and non-negative row sums | Gaussian elimination of the first row keeps the hypotheses and shrinks the diagonal; applied to the reduced Laplacian of C33 |
| C90 | `MatrixTree.v`, `Props_Trees.v`: spanning trees as choices of one directed edge out of every vertex but the first | the determinant is expanded along all rows; a choice contributes 1 if it leads to the first vertex (null vectors, C89) and 0 otherwise |
| C91 | `Invariance.v`, `Props_Invariance.v`: two graphs, an isomorphism of their nets, a matrix for the translations; `rewrite_edge` renumbers, moves and shears a graph | walks and shells are carried over by the isomorphism; the image of the barycentric placement is barycentric, hence it is the placement of the other graph up to a shift (C33); predicates on placements are restated for nodes |
| C92 | `Props_NetSymmetry.v`: translation symmetries of the infinite net (`translation_symmetry`, `lattice_translation` of C70) | C41/C62 plus the correspondence of C69; an isomorphism with invertible matrix conjugates translation symmetries; places by C91 |
| C93 | `Spanning.v`, `Props_Spanning.v`: spanning trees as selections of edges (`Net.spanning_tree`) | every spanning tree has exactly one orientation towards the first vertex (levels, breadth-first search), so C90 counts them; an isomorphism injects the trees of one graph into those of the other, in both directions |
| C94 | `Props_Numbering.v`: `renumbered`, the graph with other vertex numbers | a counterexample, evaluated in the model once per numbering |
| C95 | `Geometry.v` at the integers, `Props_IntMaps.v`: ScalarProduct for integers | generic views of maps as functions; two-sided inverses from mathcomp; Sylvester's criterion over the rationals (`IntForm.v`: same leading minors) and clearing of denominators |
| C96 | `Lattices.v` with any rational epsilon; `Props_Tolerance.v` | `Reduce.v`, `Voronoi.v`, `ReducedBasis.v` with a tolerance: the same decreasing measures; `Tolerance.v`: the greedy choice among the Dirichlet vectors finds a basis by finite combinatorics of 0/1 coefficient vectors; witnesses for what fails |
| C97 | `Table.v` run on `SgData.v`; specification in `SgSpec.v`, theorems in `Props_Sg.v` | reflection: `SgCheck.v`, `SgCenter.v` contain a checker on integer matrices (generators, closure, coordinate changes, translations) with soundness proofs; `SgTable.v` evaluates parser and checker on the whole file in the kernel (`vm_compute`) once, and reduces the parser to an equivalent one without searching; the parser's dependence on `to_lowercase` is removed for ASCII texts; refuted: six dangling aliases, the direction of the transformations |
| C98 | `F64.v` (the standard library's SpecFloat with 53 bits); theorems in `Props_Error.v` | `F64Correct.v`: shifting with round and sticky bits keeps the location of the exact value, so every operation equals the rounding `rnd64` of C86; `F64Error.v`: half a unit of error in units of the result's exponent, exactness of small sums (multiples of 2^-1074), induction over the number of terms; infinities and NaN are absorbing, so a finite result has only finite intermediate results |
| C99 | `FloatSteps.v` (number_of_p_adic_steps_needed and column_norm over SpecFloat; powf, sqrt, ln as parameters, total_cmp, sort and max_by, saturating conversion to u64) ; theorems in `Props_FloatSteps.v` | `FloatReal.v`: the operations of f64 as real numbers with relative errors (from C98); induction over sums; perturbation of logarithms; the sorted list by its real keys, -inf only for the right-hand side; Hadamard's inequality in logarithms; then C88. Functions of the assumed accuracy are constructed (real functions, rounded) |
| C100 | `Symmetries.v`, `PGraph.v`, `Partition.v` as for C38-C41 ; theorems in `Props_Orders.v` | `GroupOrder.v`: orbit and stabiliser for a list of permutations closed under products and inverses (two injections by multiplication); applied to vertices, to undirected edges and to the matrices; a translation that fixes a vertex is trivial (C41); C69 and C73 for the bounds by the infinite net |
| C101 | `Symmetries.v`, `PGraph.v` as for C36, C38 ; theorems in `Props_Restriction.v` | every permutation of the finitely many directed edges has a common period (`order_facts`), so the matrix has finite order; its entries are integers (C95); `Cube.v` (integer 3x3 matrices, Cayley-Hamilton) and `CubeMC.v` (an invariant quadratic form gives trace of inverse = trace, and bounds the trace) give the orders 1, 2, 3, 4, 6; a witness in dimension 4 with an automorphism of order 5 |
| C102 | `Symmetries.v`, `PGraph.v` as for C38-C41 ; theorems in `Props_PointGroup.v` | `PointMC.v`: the average of a representation of a finite group is idempotent, so its trace, the sum of the k-th powers of the traces over the order, is an integer; `PointGroup.v`: the sum of (t+1)t(t-1)(t-2) over det(a) a is 24 times the size of the kernel, which has at most 2 elements (C101 bounds the traces); `Flat.v`: in dimension 2 an invariant form leaves at most two rotations for each trace; C100 for the counting |
| C103 | `Basics.v` (generate), `Finder.v` (details_from) ; theorems in `Props_OperatorGroups.v` | C48 gives closure and inverses, so the linear parts are a finite group of integral matrices, to which the results behind C102 apply; for termination the translations of all products have a common denominator, so finitely many linear parts mean finitely many classes |
| C104 | `Finder.v` (crystal_system_and_basis_2d), `Basics.v` (generate) ; theorems in `Props_PlaneOrders.v` | `PlaneOrders.v`: rotations that keep a positive form and have the same trace are equal or inverse to each other, so the rotations are listed explicitly in each case of C66; reflections double their number |
| C105 | `Symmetries.v`, `Finder.v` ; theorems in `Props_NetSystem.v` | the closure of symmetries (C38) carries over to their matrices, which are determined by their action on edges; C104 and C100 |
| C106 | `SgTable.v` (`plane_cell`), `Finder.v` ; theorems in `Props_PlaneCell.v` | C66 gives the basis and its orientation, C68 the unit cell, and `inverse` is the solution of the linear system; the refutation evaluates the group 6mm |
| C107 | `Finder.v` (normalized_basis_2d) ; theorems in `Props_Handed.v` | the second vector is a rotated copy of the first, so their area is a positive quadratic form; the refutations evaluate the model and use monotony in the fuel |

## Assumptions per theorem

Every property theorem is followed by `Print Assumptions` in its `Props_*.v`
file.  The output is "Closed under the global context" for all of them except

* `C22_rational_reconstruction`, `C23_number_of_steps`,
  `C88_sufficient_steps` and the theorems of C99, which speak about real numbers and use the axioms of the standard library's `Reals`:
  `ClassicalDedekindReals.sig_not_dec`, `ClassicalDedekindReals.sig_forall_dec`,
  `FunctionalExtensionality.functional_extensionality_dep` and, where listed,
  `Classical_Prop.classic`.

The checker's list of library axioms also names fields of module types of the
standard library and of ssreflect (through mathcomp); no theorem depends on
them.
