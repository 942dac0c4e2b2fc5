{
 "claims": [
  {
   "property": "C01",
   "status": "proved",
   "theorems": [
    "C01_find_decides_equivalence_closure"
   ],
   "note": "whole of partitions.rs, histories of public calls"
  },
  {
   "property": "C02",
   "status": "proved",
   "theorems": [
    "C02_reads_do_not_change_answers"
   ],
   "note": ""
  },
  {
   "property": "C03",
   "status": "proved",
   "theorems": [
    "C03_classes_are_the_equivalence_classes_in_order"
   ],
   "note": ""
  },
  {
   "property": "C04",
   "status": "proved",
   "theorems": [
    "C04_gcdx",
    "C04_gcdx_values_bounded"
   ],
   "note": ""
  },
  {
   "property": "C05",
   "status": "proved",
   "theorems": [
    "C05_extend_basis_integer",
    "C05_extend_basis_rational",
    "C05_sequence"
   ],
   "note": ""
  },
  {
   "property": "C06",
   "status": "proved",
   "theorems": [
    "C06_rank_rational",
    "C06_rank_integer"
   ],
   "note": ""
  },
  {
   "property": "C07",
   "status": "proved",
   "theorems": [
    "C07_determinant_integer",
    "C07_determinant_rational",
    "C07_multiplicative",
    "C07_not_square_panics"
   ],
   "note": ""
  },
  {
   "property": "C08",
   "status": "proved",
   "theorems": [
    "C08_reduced_basis_rational",
    "C08_canonical"
   ],
   "note": ""
  },
  {
   "property": "C09",
   "status": "proved",
   "theorems": [
    "C09_reduced_basis_integer",
    "C09_canonical_when_strict",
    "C09_canonicity_refuted"
   ],
   "note": "canonicity fails in the code; refuted by witness, proved when no entry above a pivot equals it"
  },
  {
   "property": "C10",
   "status": "proved",
   "theorems": [
    "C10_solve_rational"
   ],
   "note": ""
  },
  {
   "property": "C100",
   "status": "proved",
   "theorems": [
    "C100_vertex_orbit",
    "C100_edge_orbit",
    "C100_point_group",
    "C100_translations",
    "C100_vertices",
    "C100_between"
   ],
   "note": "orbit and stabiliser for the lists that the code returns"
  },
  {
   "property": "C101",
   "status": "proved",
   "theorems": [
    "C101_finite",
    "C101_order",
    "C101_symmetries",
    "C101_minimal",
    "C101_four_dimensions_refuted"
   ],
   "note": "every symmetry of a sound net has finite order; for nets of dimension 1, 2 and 3 the order of its matrix is 1, 2, 3, 4 or 6 (crystallographic restriction), with a witness that this fails in dimension 4"
  },
  {
   "property": "C102",
   "status": "proved",
   "theorems": [
    "C102_point_group",
    "C102_bound",
    "C102_minimal"
   ],
   "note": "for nets of dimension at most 3: the number of different matrices among the symmetries is 1, 2, 3, 4, 6, 8, 12, 16, 24 or 48 (dimension 3), 1, 2, 3, 4, 6, 8 or 12 (dimension 2), 1 or 2 (dimension 1); 48 is attained by the primitive cubic net"
  },
  {
   "property": "C103",
   "status": "proved",
   "theorems": [
    "C103_linear_parts",
    "C103_orders",
    "C103_infinite",
    "C103_terminates"
   ],
   "note": "all unimodular generators with rational translations; dimension at most 3 for the orders, any dimension for termination"
  },
  {
   "property": "C104",
   "status": "proved",
   "theorems": [
    "C104_orders",
    "C104_generated"
   ],
   "note": "every finite group of rational 2x2 matrices; and the results of generate in dimension 2"
  },
  {
   "property": "C105",
   "status": "proved",
   "theorems": [
    "C105_plane_nets"
   ],
   "note": "all connected, locally stable nets in the plane"
  },
  {
   "property": "C106",
   "status": "proved",
   "theorems": [
    "C106_dual_cell",
    "C106_coordinates",
    "C106_coordinates_refuted",
    "C106_panics",
    "C106_p3m1_refuted",
    "C106_coordinates_matter"
   ],
   "note": "The cell handed to the normalization is dual to the basis; it is the list of coordinates of the unit vectors only if the basis matrix is symmetric (finding). The function ends for every such list, always with a panic. For p3m1, as in the shipped table, the normalized vectors do not generate the cell, and the centering found for a group depends on the basis of its lattice that is used as coordinates (findings)."
  },
  {
   "property": "C107",
   "status": "proved",
   "theorems": [
    "C107_right_handed",
    "C107_left_handed_refuted"
   ],
   "note": "Square and hexagonal: right-handed for every lattice. Oblique and rectangular (primitive and centered): refuted, by right-handed inputs."
  },
  {
   "property": "C11",
   "status": "proved",
   "theorems": [
    "C11_solve_integer"
   ],
   "note": ""
  },
  {
   "property": "C12",
   "status": "proved",
   "theorems": [
    "C12_inverse_rational",
    "C12_inverse_integer",
    "C12_not_square_panics"
   ],
   "note": ""
  },
  {
   "property": "C13",
   "status": "proved",
   "theorems": [
    "C13_null_space_rational",
    "C13_null_space_integer"
   ],
   "note": ""
  },
  {
   "property": "C14",
   "status": "proved",
   "theorems": [
    "C14_new",
    "C14_index",
    "C14_entries",
    "C14_transpose",
    "C14_get_row_col",
    "C14_submatrix",
    "C14_hstack",
    "C14_vstack",
    "C14_multiplication",
    "C14_multiplication_associative",
    "C14_identity_is_unit",
    "C14_transpose_of_product",
    "C14_entrywise",
    "C14_mismatch_panics",
    "C14_results_well_formed"
   ],
   "note": ""
  },
  {
   "property": "C15",
   "status": "proved",
   "theorems": [
    "C15_application",
    "C15_composition",
    "C15_associative",
    "C15_identity",
    "C15_differences",
    "C15_inverse",
    "C15_inverse_singular"
   ],
   "note": "dimension n > 0 (the code cannot build a 0 x 0 identity with a column)"
  },
  {
   "property": "C16",
   "status": "proved",
   "theorems": [
    "C16_invertible",
    "C16_commutes",
    "C16_composition",
    "C16_basis"
   ],
   "note": "over all construction histories (inductive predicate built)"
  },
  {
   "property": "C17",
   "status": "proved",
   "theorems": [
    "C17_scalar_product_accepts",
    "C17_apply"
   ],
   "note": "Sylvester's criterion"
  },
  {
   "property": "C18",
   "status": "proved",
   "theorems": [
    "C18_isometry"
   ],
   "note": ""
  },
  {
   "property": "C19",
   "status": "proved",
   "theorems": [
    "C19_modular_inverse",
    "C19_negative_refuted",
    "C19_modulus_1_refuted"
   ],
   "note": "for ideal and for i64 arithmetic; negative arguments and modulus 1 refuted by witnesses"
  },
  {
   "property": "C20",
   "status": "proved",
   "theorems": [
    "C20_modular_matrix_inverse",
    "C20_negative_multiple_refuted"
   ],
   "note": "mathcomp determinant; the panic on negative multiples of p is a witness theorem"
  },
  {
   "property": "C21",
   "status": "proved",
   "theorems": [
    "C21_row_echelon",
    "C21_row_echelon_refuted"
   ],
   "note": "the echelon claim is refuted; what holds (null space, range, echelon form with an identity block for independent leading columns) is C21_row_echelon"
  },
  {
   "property": "C22",
   "status": "proved",
   "theorems": [
    "C22_rational_reconstruction",
    "C22_rational_reconstruction_int",
    "C22_terminates"
   ],
   "note": "Dixon's bound, negative residues included; no gcd hypothesis needed"
  },
  {
   "property": "C23",
   "status": "proved",
   "theorems": [
    "C23_solve",
    "C23_number_of_steps"
   ],
   "note": "number of steps idealised to exact reals (f64 logarithms not modelled); C23_number_of_steps relates the integer test to the logarithms of the code; entries of a must not be negative multiples of the prime (see C20)"
  },
  {
   "property": "C24",
   "status": "proved",
   "theorems": [
    "C24_no_overflow"
   ],
   "note": "bound 9*10^11, larger than stated"
  },
  {
   "property": "C25",
   "status": "proved",
   "theorems": [
    "C25_new_insensitive",
    "C25_stored_edges",
    "C25_canonical",
    "C25_sign_2d_3d"
   ],
   "note": "all dimensions"
  },
  {
   "property": "C26",
   "status": "proved",
   "theorems": [
    "C26_incidences",
    "C26_vertices",
    "C26_directed_edges"
   ],
   "note": ""
  },
  {
   "property": "C27",
   "status": "proved",
   "theorems": [
    "C27_caches_transparent",
    "C27_as_fresh",
    "C27_methods"
   ],
   "note": "clients are arbitrary programs over the methods; histories include clients that panicked; symmetries() is any client of the other methods"
  },
  {
   "property": "C28",
   "status": "proved",
   "theorems": [
    "C28_coordination_sequence"
   ],
   "note": "for every iteration order of the hash sets"
  },
  {
   "property": "C29",
   "status": "proved",
   "theorems": [
    "C29_shift_normalized"
   ],
   "note": ""
  },
  {
   "property": "C30",
   "status": "proved",
   "theorems": [
    "C30_component_measures",
    "C30_infinitely_many"
   ],
   "note": "i32 overflow of the product not modelled"
  },
  {
   "property": "C31",
   "status": "proved",
   "theorems": [
    "C31_is_connected"
   ],
   "note": ""
  },
  {
   "property": "C32",
   "status": "proved",
   "theorems": [
    "C32_barycentric",
    "C32_edge_vectors",
    "C32_unique"
   ],
   "note": "whenever position returns: positions of all vertices exist, barycentric, first vertex at 0; unique for connected quotient; sizes as in fits (i64 range)"
  },
  {
   "property": "C33",
   "status": "proved",
   "theorems": [
    "C33_succeeds",
    "C33_tree_number",
    "C33_panics",
    "C33_position_total_refuted"
   ],
   "note": "tree_number is the determinant of the reduced Laplacian; witness with 18 vertices, 36 edges"
  },
  {
   "property": "C34",
   "status": "proved",
   "theorems": [
    "C34_is_stable",
    "C34_is_locally_stable",
    "C34_has_second_order_collisions"
   ],
   "note": "for graphs whose placement succeeds"
  },
  {
   "property": "C35",
   "status": "proved",
   "theorems": [
    "C35_edge_by_unique_delta"
   ],
   "note": "for graphs whose placement succeeds"
  },
  {
   "property": "C36",
   "status": "proved",
   "theorems": [
    "C36_automorphism"
   ],
   "note": "automorphism() returning Some on a sound graph is a symmetry; bijectivity proved, not assumed"
  },
  {
   "property": "C37",
   "status": "proved",
   "theorems": [
    "C37_automorphism_complete"
   ],
   "note": "search returns exactly the given symmetry if one exists, None otherwise"
  },
  {
   "property": "C38",
   "status": "proved",
   "theorems": [
    "C38_symmetries",
    "C38_refused"
   ],
   "note": "for every sound graph the call returns; the result is a group without repetitions"
  },
  {
   "property": "C39",
   "status": "proved",
   "theorems": [
    "C39_symmetries_incomplete_refuted"
   ],
   "note": "the completeness claim is refuted by the skewed square lattice"
  },
  {
   "property": "C40",
   "status": "proved",
   "theorems": [
    "C40_vertex_orbits",
    "C40_edge_orbits"
   ],
   "note": "classes are the orbits of the returned group"
  },
  {
   "property": "C41",
   "status": "proved",
   "theorems": [
    "C41_translational_orbits",
    "C41_is_minimal",
    "C41_refused"
   ],
   "note": "for graphs that are not ladders"
  },
  {
   "property": "C42",
   "status": "proved",
   "theorems": [
    "C42_minimal_image_refuted",
    "C42_none"
   ],
   "note": "the totality claim is refuted by the centred square lattice"
  },
  {
   "property": "C43",
   "status": "proved",
   "theorems": [
    "C43_rational_lattice_basis",
    "C43_when_it_returns"
   ],
   "note": "basis of Z^d + lattice of vs; returns exactly if non-empty and all scaled numbers fit into i32 (extend_basis arithmetic itself unbounded in the model)"
  },
  {
   "property": "C44",
   "status": "proved",
   "theorems": [
    "C44_lagrange_reduced",
    "C44_selling_reduced",
    "C44_zero_vector"
   ],
   "note": "over BigRational with epsilon 0; termination as: for all large enough fuel. Reducing a pair with a zero vector panics (division by zero)."
  },
  {
   "property": "C45",
   "status": "proved",
   "theorems": [
    "C45_dirichlet_vectors",
    "C45_other_dimensions"
   ],
   "note": "dimension 0..3; d>=4 panics"
  },
  {
   "property": "C46",
   "status": "proved",
   "theorems": [
    "C46_shift_for_dirichlet_domain",
    "C46_nearest",
    "C46_zero_vector"
   ],
   "note": "also: with dirichlet_vectors the shifted point is nearest to the origin in its class. With a zero vector in the list it panics (division by zero)."
  },
  {
   "property": "C47",
   "status": "proved",
   "theorems": [
    "C47_reduced_lattice_basis"
   ],
   "note": "dimension 1..3; stronger: successive minima"
  },
  {
   "property": "C48",
   "status": "proved",
   "theorems": [
    "C48_generate",
    "C48_terminates",
    "C48_group",
    "C48_panics_without_generators"
   ],
   "note": "generate over BigRational operators of any dimension >= 1; termination iff finitely many classes; group for unimodular generators"
  },
  {
   "property": "C49",
   "status": "proved",
   "theorems": [
    "C49_one_per_class_refuted",
    "C49_copies"
   ],
   "note": "refuted by a 1-dimensional witness; the repository's own test group also gives 6 elements for 4 classes (C48_case); the positive result is a bound on the number of copies"
  },
  {
   "property": "C50",
   "status": "proved",
   "theorems": [
    "C50_gram_space",
    "C50_invariant_products_refuted",
    "C50_panics_without_operators"
   ],
   "note": "positive part for all dimensions; the invariance claim is refuted by a hexagonal rotation"
  },
  {
   "property": "C51",
   "status": "proved",
   "theorems": [
    "C51_shift_space",
    "C51_identity_only",
    "C51_always_fixed_space_refuted",
    "C51_panics_without_operators"
   ],
   "note": "identity-only operator lists give None: theorem plus refutation"
  },
  {
   "property": "C52",
   "status": "proved",
   "theorems": [
    "C52_round_trip",
    "C52_unit_shift",
    "C52_survives",
    "C52_unit_shift_refuted"
   ],
   "note": "for dimensions 1..3 and numbers of at most nine digits the operator is read back exactly if no component of the shift is 1 or -1 (both directions proved for every such operator)"
  },
  {
   "property": "C53",
   "status": "proved",
   "theorems": [
    "C53_sound",
    "C53_complete",
    "C53_unambiguous",
    "C53_shape",
    "C53_total",
    "C53_zero_denominator"
   ],
   "note": "against the grammar in OpGrammar.v"
  },
  {
   "property": "C54",
   "status": "proved",
   "theorems": [
    "C54_lines",
    "C54_panics",
    "C54_entries"
   ],
   "note": "parse_lines on bytes in memory; UTF-8 and line splitting specified in CgdGrammar.v; I/O errors other than invalid UTF-8 are not modelled"
  },
  {
   "property": "C55",
   "status": "proved",
   "theorems": [
    "C55_blocks",
    "C55_panics",
    "C55_kept",
    "C55_nothing_lost_refuted",
    "C55_stray_data_unkeyed_refuted"
   ],
   "note": "block structure specified in CgdBlocks.v; trailing lines are dropped (refuted claim), stale keys leak to data before the next block (refuted claim)"
  },
  {
   "property": "C56",
   "status": "proved",
   "theorems": [
    "C56_warnings",
    "C56_one_field_refuted"
   ],
   "note": "the warning appears iff at least two fields follow; with one field it is missing (defect)"
  },
  {
   "property": "C57",
   "status": "proved",
   "theorems": [
    "C57_cell",
    "C57_coordinates",
    "C57_operators",
    "C57_no_translations_left",
    "C57_integral",
    "C57_generated",
    "C57_when_it_returns",
    "C57_panics_without_translations"
   ],
   "note": "translations, cell, coordinate change, transformed operators, integrality; exact panic condition"
  },
  {
   "property": "C58",
   "status": "proved",
   "theorems": [
    "C58_from_string",
    "C58_reads",
    "C58_coordinate_map"
   ],
   "note": "against the grammar in OpGrammar.v"
  },
  {
   "property": "C59",
   "status": "proved",
   "theorems": [
    "C59_sound",
    "C59_complete",
    "C59_integers",
    "C59_words_refuted"
   ],
   "note": "nom combinators modelled from their documentation; rounding to f64 is a parameter"
  },
  {
   "property": "C60",
   "status": "proved",
   "theorems": [
    "C60_table",
    "C60_complete",
    "C60_none",
    "C60_panics"
   ],
   "note": "specification in TableSpec.v; I/O errors other than invalid UTF-8 are not modelled; HashMap as association list"
  },
  {
   "property": "C61",
   "status": "proved",
   "theorems": [
    "C61_system_names",
    "C61_centering_names",
    "C61_names_differ",
    "C61_centerings_differ",
    "C61_lookup",
    "C61_is_identity"
   ],
   "note": "str::to_lowercase is a parameter"
  },
  {
   "property": "C62",
   "status": "proved",
   "theorems": [
    "C62_is_ladder",
    "C62_everywhere",
    "C62_ladder_symmetries",
    "C62_refused"
   ],
   "note": "for graphs with gdim >= 1, connected, within the bounds of C24 (predicate sound)"
  },
  {
   "property": "C63",
   "status": "proved",
   "theorems": [
    "C63_order",
    "C63_refused"
   ],
   "note": "finite orders over Q are 1,2,3,4,6; closed under the global context"
  },
  {
   "property": "C64",
   "status": "proved",
   "theorems": [
    "C64_axis",
    "C64_axis_finite"
   ],
   "note": "axis = eigenspace of dimension one"
  },
  {
   "property": "C65",
   "status": "proved",
   "theorems": [
    "C65_sense_plane",
    "C65_sense_space",
    "C65_sense_other",
    "C65_inverse"
   ],
   "note": "sense independent of the vector tried"
  },
  {
   "property": "C66",
   "status": "proved",
   "theorems": [
    "C66_crystal_system",
    "C66_exclusive",
    "C66_basis",
    "C66_product",
    "C66_repetitions_refuted"
   ],
   "note": "the last theorem refutes the claim about the basis for lists with repetitions"
  },
  {
   "property": "C67",
   "status": "proved",
   "theorems": [
    "C67_oblique",
    "C67_rectangular",
    "C67_square",
    "C67_hexagonal",
    "C67_hexagonal_refuted"
   ],
   "note": "hexagonal: proved for lattices closed under the turn the code applies (120 degree coordinates), refuted for the 60 degree coordinates the code is given"
  },
  {
   "property": "C68",
   "status": "proved",
   "theorems": [
    "C68_primitive_cell",
    "C68_centering_refuted",
    "C68_identify"
   ],
   "note": "the claim that the cell generates all translations is refuted"
  },
  {
   "property": "C69",
   "status": "proved",
   "theorems": [
    "C69_lift",
    "C69_descend",
    "C69_unique",
    "C69_affine",
    "C69_automorphism",
    "C69_symmetries"
   ],
   "note": "symmetry of the quotient graph with its edge vectors <-> automorphism of the infinite net that respects translations; sound = connected, locally stable, within the arithmetic bounds"
  },
  {
   "property": "C70",
   "status": "proved",
   "theorems": [
    "C70_minimal_image",
    "C70_image_translations",
    "C70_image_is_minimal"
   ],
   "note": "partial correctness: whenever minimal_image returns a graph; it may panic (C42_minimal_image_refuted)"
  },
  {
   "property": "C71",
   "status": "proved",
   "theorems": [
    "C71_apply_operator",
    "C71_only"
   ],
   "note": "found missing by a seeded bug (shift dropped in apply_operator)"
  },
  {
   "property": "C72",
   "status": "proved",
   "theorems": [
    "C72_characteristic_edge_lists",
    "C72_symmetric"
   ],
   "note": "which frames the symmetry search compares"
  },
  {
   "property": "C73",
   "status": "proved",
   "theorems": [
    "C73_translations",
    "C73_selfconjugate",
    "C73_complete"
   ],
   "note": "what the search finds; C39_symmetries_incomplete_refuted and C73_srs show that the hypothesis of C73_complete is needed"
  },
  {
   "property": "C74",
   "status": "proved",
   "theorems": [
    "C74_2d",
    "C74_3d",
    "C74_group",
    "C74_order",
    "C74_lists"
   ],
   "note": "both label vector types"
  },
  {
   "property": "C75",
   "status": "proved",
   "theorems": [
    "C75_equality",
    "C75_hash",
    "C75_product",
    "C75_affine_equality"
   ],
   "note": "equality, hash contract and product"
  },
  {
   "property": "C76",
   "status": "proved",
   "theorems": [
    "C76_numbers",
    "C76_edges",
    "C76_graph",
    "C76_graph_lines",
    "C76_matrix",
    "C76_affine",
    "C76_coordinate_map",
    "C76_readable",
    "C76_empty_refuted"
   ],
   "note": "the text of a graph does not give its dimension when it has no edges; the type does"
  },
  {
   "property": "C77",
   "status": "proved",
   "theorems": [
    "C77_succeeds",
    "C77_panics",
    "C77_deterministic",
    "C77_contents",
    "C77_identifies",
    "C77_main"
   ],
   "note": "fits: as in C32"
  },
  {
   "property": "C78",
   "status": "proved",
   "theorems": [
    "C78_entry",
    "C78_lookup"
   ],
   "note": "conditions on operators as in C52"
  },
  {
   "property": "C79",
   "status": "proved",
   "theorems": [
    "C79_components",
    "C79_affine_space",
    "C79_vector_space",
    "C79_panics",
    "C79_mod_z"
   ],
   "note": ""
  },
  {
   "property": "C80",
   "status": "proved",
   "theorems": [
    "C80_assign",
    "C80_reshape",
    "C80_numbers",
    "C80_unit_vectors",
    "C80_is_identity",
    "C80_loops",
    "C80_division"
   ],
   "note": ""
  },
  {
   "property": "C81",
   "status": "proved",
   "theorems": [
    "C81_is_identity",
    "C81_identity_map",
    "C81_determinant",
    "C81_default_product"
   ],
   "note": ""
  },
  {
   "property": "C82",
   "status": "proved",
   "theorems": [
    "C82_never_wrong",
    "C82_release",
    "C82_enough_bits",
    "C82_no_overflow",
    "C82_labels",
    "C82_smallest_panics",
    "C82_connected_refuted"
   ],
   "note": "Graph functions with i32 labels: with overflow checks each either panics or gives the unbounded result; the unchecked build differs only where the checked one panics; wide enough integers are exact; explicit bounds under which nothing overflows; i32::MIN panics; is_connected panics on a connected net with shifts below 10^5, and without checks gives a wrong answer"
  },
  {
   "property": "C83",
   "status": "proved",
   "theorems": [
    "C83_never_wrong",
    "C83_release",
    "C83_enough_bits",
    "C83_gcdx",
    "C83_small",
    "C83_determinant_refuted"
   ],
   "note": "integer linear algebra over i32/i64: with overflow checks never wrong; unchecked build differs only where the checked one panics; gcdx never overflows; small determinants and products do not; a 4x4 unimodular i32 matrix panics"
  },
  {
   "property": "C84",
   "status": "proved",
   "theorems": [
    "C84_rank",
    "C84_reduced_basis",
    "C84_determinant",
    "C84_solve",
    "C84_inverse",
    "C84_null_space",
    "C84_rank_refuted",
    "C84_solve_refuted"
   ],
   "note": "structure only: values are rounded; refuted theorems show that rank and solvability can be wrong"
  },
  {
   "property": "C85",
   "status": "proved",
   "theorems": [
    "C85_operations",
    "C85_fits",
    "C85_sum",
    "C85_difference",
    "C85_product",
    "C85_small_determinant",
    "C85_triangular_determinant",
    "C85_twice_identity"
   ],
   "note": "exact under explicit bounds"
  },
  {
   "property": "C86",
   "status": "proved",
   "theorems": [
    "C86_nearest",
    "C86_ties",
    "C86_overflow",
    "C86_exact",
    "C86_unique",
    "C86_numbers",
    "C86_integers",
    "C86_doubles"
   ],
   "note": "str::parse::<f64> is modelled by its specification, rounding to nearest even"
  },
  {
   "property": "C87",
   "status": "proved",
   "theorems": [
    "C87_rank",
    "C87_reduced_basis",
    "C87_determinant",
    "C87_solve",
    "C87_solve_none",
    "C87_null_space",
    "C87_inverse"
   ],
   "note": "exact runs are identified by running the same generic elimination over checked rationals; says nothing about runs where some intermediate result has to be rounded"
  },
  {
   "property": "C88",
   "status": "proved",
   "theorems": [
    "C88_sufficient_steps",
    "C88_more_steps"
   ],
   "note": "the f64 estimate of the number of steps is a parameter; whether a concrete libm makes it large enough is not modelled"
  },
  {
   "property": "C89",
   "status": "proved",
   "theorems": [
    "C89_tree_number_bound",
    "C89_small_net_placed",
    "C89_few_vertices",
    "C89_small_net_reported"
   ],
   "note": "Complements C33: the tree number is non-negative and at most the product of the open ends of all vertices but the first, so small connected nets never meet the failing prime."
  },
  {
   "property": "C90",
   "status": "proved",
   "theorems": [
    "C90_tree_number",
    "C90_connected",
    "C90_position"
   ],
   "note": "Spanning trees are counted with their edges directed towards the first vertex (one outgoing edge per other vertex, all leading to the first)."
  },
  {
   "property": "C91",
   "status": "proved",
   "theorems": [
    "C91_is_connected",
    "C91_coordination_sequence",
    "C91_position",
    "C91_stability",
    "C91_rewritten",
    "C91_minimal_image"
   ],
   "note": "same_net is shown to hold for the honeycomb net and a renumbered, moved and sheared copy (C91_case); C91_rewritten gives the isomorphism for every such rewriting"
  },
  {
   "property": "C92",
   "status": "proved",
   "theorems": [
    "C92_is_ladder",
    "C92_is_minimal",
    "C92_translational_orbits",
    "C92_invariance"
   ],
   "note": "hypotheses met by the honeycomb net and a renumbered, moved and sheared copy (C92_case)"
  },
  {
   "property": "C93",
   "status": "proved",
   "theorems": [
    "C93_spanning_trees",
    "C93_position",
    "C93_same_number",
    "C93_same_placement"
   ],
   "note": "C93_case: the honeycomb net and a renumbered, moved and sheared copy"
  },
  {
   "property": "C94",
   "status": "proved",
   "theorems": [
    "C94_vertex_orbits_refuted",
    "C94_edge_orbits_refuted",
    "C94_symmetries_refuted"
   ],
   "note": "refuted: a three-vertex plane net whose reported orbits change when two vertex numbers are exchanged"
  },
  {
   "property": "C95",
   "status": "proved",
   "theorems": [
    "C95_application",
    "C95_composition",
    "C95_associative",
    "C95_identity",
    "C95_differences",
    "C95_inverse",
    "C95_inverse_unimodular",
    "C95_map_invertible",
    "C95_map_commutes",
    "C95_map_composition",
    "C95_map_basis",
    "C95_scalar_product_accepts",
    "C95_apply",
    "C95_isometry"
   ],
   "note": "integers are unbounded in the model (i32/i64 overflow is the subject of C82, C83)"
  },
  {
   "property": "C96",
   "status": "proved",
   "theorems": [
    "C96_shift",
    "C96_lagrange_reduced",
    "C96_selling_reduced",
    "C96_selling_returned",
    "C96_dirichlet_vectors",
    "C96_reduced_lattice_basis",
    "C96_shortest_refuted",
    "C96_cell_refuted",
    "C96_rounding_refuted",
    "C96_basis_refuted",
    "C96_shift_negative_refuted",
    "C96_lagrange_negative_refuted",
    "C96_selling_negative_refuted"
   ],
   "note": "exact arithmetic with a tolerance; the *_refuted theorems are witnesses of what a tolerance breaks"
  },
  {
   "property": "C97",
   "status": "proved",
   "theorems": [
    "C97_accepted",
    "C97_groups",
    "C97_settings_agree",
    "C97_transform_refuted",
    "C97_aliases",
    "C97_alias_refuted",
    "C97_lookup",
    "C97_lookup_complete",
    "C97_plane_groups",
    "C97_plane_refuted"
   ],
   "note": "The shipped file, byte by byte, evaluated in the kernel with a checker that is proved sound. Claims one would make that are refuted: six aliases name no setting; the transformations lead from setting to group coordinates, contrary to their type; the classification of plane groups panics for cm and finds no centering for c2mm."
  },
  {
   "property": "C98",
   "status": "proved",
   "theorems": [
    "C98_operations",
    "C98_nearest",
    "C98_infinite",
    "C98_relative_error",
    "C98_sums",
    "C98_matrix_sum",
    "C98_matrix_difference",
    "C98_matrix_multiple",
    "C98_matrix_product",
    "C98_matrix_product_simple",
    "C98_determinant_2"
   ],
   "note": "f64 operations correctly rounded; error bounds for matrix operations"
  },
  {
   "property": "C99",
   "status": "proved",
   "theorems": [
    "C99_estimate",
    "C99_solve",
    "C99_small_determinants",
    "C99_accurate_functions_exist"
   ],
   "note": "powf(.,2), sqrt and ln of the platform are parameters, assumed to have relative error at most 10^-12; functions of that accuracy are constructed. The library's axioms of Reals are used."
  }
 ]
}