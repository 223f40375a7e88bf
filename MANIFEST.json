{
 "claims": [
  {
   "property": "C01",
   "status": "proved",
   "theorems": [
    "C01_permutation_sign_is_parity",
    "C01_parity_well_defined"
   ],
   "note": ""
  },
  {
   "property": "C02",
   "status": "proved",
   "theorems": [
    "C02_sign_identity",
    "C02_sign_multiplicative",
    "C02_sign_symmetric",
    "C02_sign_antisymmetric"
   ],
   "note": ""
  },
  {
   "property": "C03",
   "status": "proved",
   "theorems": [
    "C03_same_elements",
    "C03_swap_sort_defined"
   ],
   "note": ""
  },
  {
   "property": "C04",
   "status": "partial",
   "theorems": [
    "C04_count_is_number_of_pointers",
    "C04_count_never_too_small",
    "C04_no_dangling_pointer",
    "C04_defined_iff_no_misuse",
    "C04_count_exact_refuted",
    "C04_self_move_refuted"
   ],
   "note": "The counter is exact for histories without aliased move assignment. The unrestricted statement is false of the code: C04_count_exact_refuted and C04_self_move_refuted are counterexamples."
  },
  {
   "property": "C05",
   "status": "proved",
   "theorems": [
    "C05_iteration_in_slot_order",
    "C05_iteration_exactly_live"
   ],
   "note": ""
  },
  {
   "property": "C06",
   "status": "proved",
   "theorems": [
    "C06_size_is_number_of_live",
    "C06_capacity",
    "C06_capacity_never_shrinks",
    "C06_capacity_grows_when_full",
    "C06_size_after_copying_erased_refuted"
   ],
   "note": "For elements built from arguments. The last theorem is a counterexample when an element is built by copying an erased one."
  },
  {
   "property": "C07",
   "status": "proved",
   "theorems": [
    "C07_handle_stable",
    "C07_no_alias_and_fifo_reuse"
   ],
   "note": ""
  },
  {
   "property": "C08",
   "status": "proved",
   "theorems": [
    "C08_index_is_order_of_first_use",
    "C08_index_past_capacity_fails"
   ],
   "note": ""
  },
  {
   "property": "C09",
   "status": "proved",
   "theorems": [
    "C09_erase_repeatable",
    "C09_defined",
    "C09_allocator_check"
   ],
   "note": ""
  },
  {
   "property": "C10",
   "status": "proved",
   "theorems": [
    "C10_destroyed_exactly_once"
   ],
   "note": ""
  },
  {
   "property": "C11",
   "status": "partial",
   "theorems": [
    "C11_once_iff_every_erased_location_reused_partial",
    "C11_destroyed_twice_refuted",
    "C11_erase_touches_destroyed_resource_refuted"
   ],
   "note": "False of the code: a resource erased and whose slot was not reused is destroyed again by the repository's destructor. The partial theorem says exactly when each resource is destroyed once."
  },
  {
   "property": "C12",
   "status": "partial",
   "theorems": [
    "C12_postfix_agrees_partial",
    "C12_postfix_refuted"
   ],
   "note": "False of the code in general (C12_postfix_refuted); proved when no slot is waiting for reuse."
  },
  {
   "property": "C13",
   "status": "proved",
   "theorems": [
    "C13_move"
   ],
   "note": ""
  },
  {
   "property": "C14",
   "status": "proved",
   "theorems": [
    "C14_one_footprint",
    "C14_one_oriented_simplex",
    "C14_asking_twice",
    "C14_number",
    "C14_number_list",
    "C14_number_request"
   ],
   "note": ""
  },
  {
   "property": "C15",
   "status": "proved",
   "theorems": [
    "C15_reordered_composition",
    "C15_reordering_is_accepted"
   ],
   "note": ""
  },
  {
   "property": "C16",
   "status": "proved",
   "theorems": [
    "C16_flip"
   ],
   "note": ""
  },
  {
   "property": "C17",
   "status": "partial",
   "theorems": [
    "C17_vertices_partial",
    "C17_repeated_vertices_refused",
    "C17_vertices_refuted",
    "C17_vertices_debug_refuted"
   ],
   "note": "'Listed' histories (reach_listed) are those in which compositions given by the client are listed as the vertex-based constructors list them; all vertex-based histories are listed. Proved for listed histories; false of the code for other histories (the two _refuted theorems)."
  },
  {
   "property": "C18",
   "status": "partial",
   "theorems": [
    "C18_vertices_determine_simplex_partial",
    "C18_rebuild_partial",
    "C18_rebuild_refuted"
   ],
   "note": "'Listed' histories (reach_listed) are those in which compositions given by the client are listed as the vertex-based constructors list them; all vertex-based histories are listed. Proved for listed histories; false of the code for other histories (C18_rebuild_refuted)."
  },
  {
   "property": "C19",
   "status": "proved",
   "theorems": [
    "C19_exists_composition",
    "C19_exists_iff_request_creates_nothing",
    "C19_exists_segment"
   ],
   "note": ""
  },
  {
   "property": "C20",
   "status": "partial",
   "theorems": [
    "C20_operations_defined",
    "C20_no_dangling",
    "C20_objects_stay",
    "C20_reading_defined_partial",
    "C20_vertices_defined_listed",
    "C20_vertices_release_refuted"
   ],
   "note": "'Listed' histories (reach_listed) are those in which compositions given by the client are listed as the vertex-based constructors list them; all vertex-based histories are listed. Everything but vertices() is defined in every build; vertices() is defined in debug builds and, in release builds, for listed histories. C20_vertices_release_refuted is a counterexample for the rest."
  },
  {
   "property": "C21",
   "status": "partial",
   "theorems": [
    "C21_erase_exact",
    "C21_number",
    "C21_erase_exact_release_partial",
    "C21_erase_release_refuted"
   ],
   "note": "Proved for debug builds, and for release builds when no composition lists a member twice; C21_erase_release_refuted is a counterexample for the rest."
  },
  {
   "property": "C22",
   "status": "proved",
   "theorems": [
    "C22_order_independent",
    "C22_registered_accepted",
    "C22_flipped_member_rejected",
    "C22_flipped_member_rejected_distinct_faces",
    "C24_simplex_from_vertices_partial"
   ],
   "note": "For N = 1, 2, 3 and all odd orders; for other orders when the faces of the flipped member are distinct."
  },
  {
   "property": "C23",
   "status": "partial",
   "theorems": [
    "C23_segment_tail_head",
    "C23_triangle_head_tail_partial",
    "C23_triangle_head_tail_refuted",
    "C23_composed_segment_refuted"
   ],
   "note": "'Listed' histories (reach_listed) are those in which compositions given by the client are listed as the vertex-based constructors list them; all vertex-based histories are listed. Segments: proved. Triangles: connected in cyclic order when the triangle has the orientation of its footprint, in the reverse order otherwise; the refuted theorem shows the unrestricted claim is false."
  },
  {
   "property": "C24",
   "status": "partial",
   "theorems": [
    "C24_simplex_from_vertices_partial",
    "C24_number_of_edges_refuted"
   ],
   "note": "'Listed' histories (reach_listed) are those in which compositions given by the client are listed as the vertex-based constructors list them; all vertex-based histories are listed. Proved for listed histories, edges as pairs of vertices; edges() lists the six edges of a tetrahedron twice (C24_number_of_edges_refuted)."
  },
  {
   "property": "C25",
   "status": "proved",
   "theorems": [
    "C25_counts_exact",
    "C25_insert_erase"
   ],
   "note": ""
  },
  {
   "property": "C26",
   "status": "proved",
   "theorems": [
    "C26_on_boundary",
    "C26_on_boundary_owners",
    "C26_foreign",
    "C26_reversed_cell_refuted"
   ],
   "note": "Facets are the members composition() lists. C26_reversed_cell_refuted: for a cell whose footprint was created with the other orientation, composition() does not list the facets with the orientations the cell induces, and an interior facet is reported on the boundary."
  },
  {
   "property": "C27",
   "status": "partial",
   "theorems": [
    "C27_boundary_facets",
    "C27_boundary_once",
    "C27_closed",
    "C27_boundary_mesh_partial",
    "C27_boundary_nodes_partial",
    "C27_boundary_of_boundary_refuted"
   ],
   "note": "'Listed' histories (reach_listed) are those in which compositions given by the client are listed as the vertex-based constructors list them; all vertex-based histories are listed. What boundary() visits and boundary_size: all histories. The mesh built from it: listed histories. The boundary is closed when facets count with the orientation they induce; boundary_size(boundary(mesh)) itself need not be 0 (the refuted theorem)."
  },
  {
   "property": "C28",
   "status": "proved",
   "theorems": [
    "C28_cells",
    "C28_insert",
    "C28_erase",
    "C28_reinsert_refuted"
   ],
   "note": "For cells built by the client. Inserting a reference to an erased cell of the same mesh is undefined or makes an invisible cell (C28_reinsert_refuted)."
  },
  {
   "property": "C29",
   "status": "proved",
   "theorems": [
    "C29_filtered_cells",
    "C29_filter_mesh_partial"
   ],
   "note": "The visits: all histories and orders. The mesh built from them: listed histories, I > 0, N <= 3."
  },
  {
   "property": "C30",
   "status": "proved",
   "theorems": [
    "C30_cells",
    "C30_copy",
    "C30_distinct"
   ],
   "note": "The result can be refined again and given to the other mesh functions (it satisfies mreach)."
  },
  {
   "property": "C31",
   "status": "proved",
   "theorems": [
    "C31_tiling",
    "C31_volume"
   ],
   "note": "Over the real numbers (no rounding). In polar and spherical coordinates for cells that do not meet the origin or the axis."
  },
  {
   "property": "C32",
   "status": "partial",
   "theorems": [
    "C32_shared_nodes",
    "C32_conforming_refuted"
   ],
   "note": "False of the code: every cell makes its own midpoint nodes. C32_conforming_refuted: for every mesh with two cells sharing an edge the midpoint of that edge becomes two nodes at the same position."
  },
  {
   "property": "C33",
   "status": "proved",
   "theorems": [
    "C33_connectivity",
    "C33_parts",
    "C33_cover",
    "C33_across_processes_refuted"
   ],
   "note": "METIS is a parameter: any function with outputs in range. Proved for partitions computed from one numbering of the vertices (one process). The numbering follows the addresses of the vertices: processes that hold the same mesh at other addresses may give METIS other numberings, and then a cell may be in no partition (C33_across_processes_refuted)."
  },
  {
   "property": "C34",
   "status": "proved",
   "theorems": [
    "C34_file",
    "C34_reader",
    "C34_roundtrip",
    "C34_element_type_refuted"
   ],
   "note": "Coordinates are written with the stream's decimal rounding, a parameter of the theorems; the round trip is up to it. For meshes written without element type (the default). With one, the file cannot be read back (C34_element_type_refuted)."
  },
  {
   "property": "C35",
   "status": "proved",
   "theorems": [
    "C35_mesh",
    "C35_mesh_field",
    "C35_function_space",
    "C35_function_space_field",
    "C35_cloud"
   ],
   "note": "The vtk library is the arrays handed to it; the order in which unordered containers are visited is a parameter."
  },
  {
   "property": "C36",
   "status": "proved",
   "theorems": [
    "C36_history",
    "C36_place",
    "C36_change_of_coordinates",
    "C36_midpoint",
    "C36_midpoint_symmetric",
    "C36_change_keeps_distances"
   ],
   "note": "Over the real numbers (no rounding). "
  },
  {
   "property": "C37",
   "status": "proved",
   "theorems": [
    "C37_cartesian_affine",
    "C37_difference",
    "C37_translation",
    "C37_there_and_back",
    "C37_distance",
    "C37_point_distance",
    "C37_midpoint_equidistant",
    "C37_barycenter"
   ],
   "note": "Over the real numbers (no rounding). "
  },
  {
   "property": "C38",
   "status": "proved",
   "theorems": [
    "C38_to_cartesian",
    "C38_cartesian_roundtrip",
    "C38_polar_roundtrip",
    "C38_spherical_roundtrip",
    "C38_principal",
    "C38_transform_pairs",
    "C38_transform",
    "C38_transform_back",
    "C38_polar_there_and_back",
    "C38_spherical_there_and_back",
    "C38_polar_angle_refuted"
   ],
   "note": "Over the real numbers (no rounding). A + (B - A) names the same position as B; its angle may differ from B's by a full turn when B's angle is not the principal one (C38_polar_angle_refuted)."
  },
  {
   "property": "C39",
   "status": "partial",
   "theorems": [
    "C39_coordinate_functions_partial",
    "C39_x_2_refuted"
   ],
   "note": "Over the real numbers (no rounding). Proved for every coordinate function but x_2, which returns the second coordinate (C39_x_2_refuted)."
  },
  {
   "property": "C40",
   "status": "proved",
   "theorems": [
    "C40_metric_inverse",
    "C40_metric_gram",
    "C40_dual_basis",
    "C40_volume_form",
    "C40_density"
   ],
   "note": "Over the real numbers (no rounding). "
  },
  {
   "property": "C41",
   "status": "proved",
   "theorems": [
    "C41_wedge_two",
    "C41_wedge_three",
    "C41_alternating",
    "C41_repeated",
    "C41_exchange_forms",
    "C41_multilinear",
    "C41_one_forms_linear"
   ],
   "note": "Over the real numbers (no rounding). "
  },
  {
   "property": "C42",
   "status": "partial",
   "theorems": [
    "C42_value_partial",
    "C42_wedge_one_two_refuted"
   ],
   "note": "Over the real numbers (no rounding). The wedge of a one-form and a two-form lacks one of the three terms; C42_value_partial says what is computed, C42_wedge_one_two_refuted that it is not the wedge product."
  },
  {
   "property": "C43",
   "status": "proved",
   "theorems": [
    "C43_sum",
    "C43_difference",
    "C43_scalar",
    "C43_tensor_two",
    "C43_tensor_three",
    "C43_contraction",
    "C43_contraction_wedge"
   ],
   "note": "Over the real numbers (no rounding). "
  },
  {
   "property": "C44",
   "status": "proved",
   "theorems": [
    "C44_cell_volume",
    "C44_orientation",
    "C44_translation",
    "C44_mesh_volume",
    "C44_mesh_order",
    "C44_submanifold",
    "C44_line_length_2d",
    "C44_line_length_3d",
    "C44_surface_area"
   ],
   "note": "Over the real numbers (no rounding). "
  },
  {
   "property": "C45",
   "status": "proved",
   "theorems": [
    "C45_derivative",
    "C45_compiles",
    "C45_curves",
    "C45_any_order",
    "C45_matrix",
    "C45_matrix_compiles"
   ],
   "note": "Over the real numbers (no rounding). For the expressions the library has rules for (no functors, determinants, inverses or dyadic products), which are the ones whose derivative compiles."
  },
  {
   "property": "C46",
   "status": "proved",
   "theorems": [
    "C46_arithmetic",
    "C46_products",
    "C46_constants",
    "C46_sums",
    "C46_tensors",
    "C46_library",
    "C46_arguments"
   ],
   "note": "Over the real numbers (no rounding). "
  },
  {
   "property": "C47",
   "status": "proved",
   "theorems": [
    "C47_gradient_scalar",
    "C47_gradient_vector",
    "C47_divergence_vector",
    "C47_divergence_tensor",
    "C47_compiles",
    "C47_trace",
    "C47_linear",
    "C47_leibniz"
   ],
   "note": "Over the real numbers (no rounding). With respect to the coordinates of the chart, as the code computes them (no metric terms)."
  },
  {
   "property": "C48",
   "status": "proved",
   "theorems": [
    "C48_partition_of_unity",
    "C48_nodal",
    "C48_polynomials",
    "C48_reproduces",
    "C48_unique",
    "C48_derivatives",
    "C48_nodes",
    "C48_isoparametric"
   ],
   "note": "Over the real numbers (no rounding). "
  },
  {
   "property": "C49",
   "status": "proved",
   "theorems": [
    "C49_made",
    "C49_jacobian",
    "C49_determinant",
    "C49_gradients_sum",
    "C49_inverse",
    "C49_gradient",
    "C49_interpolant",
    "C49_interpolant_gradient"
   ],
   "note": "Over the real numbers (no rounding). Also for quadratic fields on quadratic triangles."
  },
  {
   "property": "C50",
   "status": "proved",
   "theorems": [
    "C50_integrals",
    "C50_tables",
    "C50_exact",
    "C50_segment_degree_3",
    "C50_not_more",
    "C50_points",
    "C50_meshes",
    "C50_meshes_decimal"
   ],
   "note": "Over the real numbers (no rounding). The literals of the tables are the decimal numbers written in the source."
  },
  {
   "property": "C51",
   "status": "proved",
   "theorems": [
    "C51_symmetric",
    "C51_energies",
    "C51_semidefinite",
    "C51_constants",
    "C51_kernel",
    "C51_kernel_tables",
    "C51_mass_definite",
    "C51_mass_total",
    "C51_mass_exact",
    "C51_mass_integrals",
    "C51_mass_tables",
    "C51_grad_grad_exact",
    "C51_exact_tables",
    "C51_source_exact",
    "C51_source_total",
    "C51_source_mass",
    "C51_l2_block"
   ],
   "note": "Over the real numbers (no rounding). "
  },
  {
   "property": "C52",
   "status": "proved",
   "theorems": [
    "C52_numbering"
   ],
   "note": ""
  },
  {
   "property": "C53",
   "status": "proved",
   "theorems": [
    "C53_assembly",
    "C53_order",
    "C53_symmetric",
    "C53_weakform"
   ],
   "note": "Over the real numbers (no rounding). PETSc is the table of the entries it is asked to store. Assembling again adds to what is there."
  },
  {
   "property": "C54",
   "status": "partial",
   "theorems": [
    "C54_initial",
    "C54_read_solution_partial",
    "C54_prescribed_value_refuted"
   ],
   "note": "Over the real numbers (no rounding). The unconstrained nodes get the values of their equations. The prescribed values are dropped: a constrained node is zero whatever the Dirichlet condition says (C54_prescribed_value_refuted)."
  },
  {
   "property": "C55",
   "status": "proved",
   "theorems": [
    "C55_segments",
    "C55_segments_foreign",
    "C55_triangles",
    "C55_triangles_foreign",
    "C55_second_order",
    "C55_second_order_foreign"
   ],
   "note": "A constraint on a node that is not in the mesh is undefined behaviour; on a segment that is not an edge of the mesh, an exception (the foreign theorems)."
  },
  {
   "property": "C56",
   "status": "proved",
   "theorems": [
    "C56_linear_stress",
    "C56_linear_tangents",
    "C56_gent_stress",
    "C56_gent_tangents",
    "C56_partial_derivatives",
    "C56_major_symmetry",
    "C56_linear_symmetric",
    "C56_linear_moduli",
    "C56_linear_shear",
    "C56_linear_energy",
    "C56_linear_strain_only",
    "C56_gent_frame",
    "C56_gent_isotropic",
    "C56_gent_angular",
    "C56_gent_energy",
    "C56_gent_natural",
    "C56_gent_small"
   ],
   "note": "Over the real numbers (no rounding). The Gent law where it is defined: det F > 0 and the argument of the logarithm positive."
  },
  {
   "property": "C57",
   "status": "partial",
   "theorems": [
    "C57_flip_partial",
    "C57_twice_partial",
    "C57_flip_both_reversed",
    "C57_flip_one_reversed"
   ],
   "note": "The property holds when both triangles have the orientation of their footprints; with both opposite, the result has the opposite orientation; with one opposite, a debug build fails an assertion and a release build uses a null pointer. Flipping twice gives the pair back when the triangles of the first flip are new. Histories: clients that list their compositions as the vertex-based constructors do."
  },
  {
   "property": "C58",
   "status": "proved",
   "theorems": [
    "C58_history",
    "C58_defined",
    "C58_size",
    "C58_mesh_field",
    "C58_mesh_field_of"
   ],
   "note": ""
  },
  {
   "property": "C59",
   "status": "proved",
   "theorems": [
    "C59_words",
    "C59_total",
    "C59_same_number",
    "C59_set_options"
   ],
   "note": "An option value that starts with a dash is prefixed like an option name (C59_negative_value)."
  },
  {
   "property": "C60",
   "status": "proved",
   "theorems": [
    "C60_value",
    "C60_linear",
    "C60_defined",
    "C60_additive",
    "C60_order",
    "C60_constant",
    "C60_cellwise",
    "C60_monotone",
    "C60_orientation",
    "C60_missing",
    "C60_debug"
   ],
   "note": "Over the real numbers (no rounding). The tables for triangles with r = 3 and 4 have weights that sum to one only within 1e-34 and 1e-21; C60_constant is for rules whose weights sum to one, C60_cellwise has the sum of the weights as a factor. Volume-related clauses: Cartesian coordinates (see C69)."
  },
  {
   "property": "C61",
   "status": "proved",
   "theorems": [
    "C61_iteration_visits_resources_in_use",
    "C61_size",
    "C61_handle_stable"
   ],
   "note": "Memory semantics: reading a destroyed resource finds what is left in memory; in the semantics of the standard every erase is undefined (C11_erase_touches_destroyed_resource_refuted)."
  },
  {
   "property": "C62",
   "status": "partial",
   "theorems": [
    "C62_in_use_partial",
    "C62_erase_while_shared_refuted"
   ],
   "note": "False of the code: erase erases whether or not another pointer is in use (C62_erase_while_shared_refuted). What holds: if clients erase only through last pointers, pointers in use keep their resources."
  },
  {
   "property": "C63",
   "status": "proved",
   "theorems": [
    "C63_only_erased_locations_are_reused",
    "C63_unused_reused_refuted"
   ],
   "note": "The promise of the class comment about unused resources is false (C63_unused_reused_refuted)."
  },
  {
   "property": "C64",
   "status": "partial",
   "theorems": [
    "C64_segment_accepted_iff",
    "C64_accepted_triangle",
    "C64_accepted_tetrahedron_partial",
    "C64_accepted_tetrahedron_refuted"
   ],
   "note": "Segments and triangles: proved. Tetrahedra: proved for triangles on four different footprints; two triangles and their flips are accepted as well (the refuted theorem)."
  },
  {
   "property": "C65",
   "status": "partial",
   "theorems": [
    "C65_members_partial",
    "C65_members_refuted"
   ],
   "note": "False of the code (C65_members_refuted). What holds: the members of the simplex have, up to an even reordering, the footprints of the composition, and are the composition when no simplex rode on these footprints before."
  },
  {
   "property": "C66",
   "status": "proved",
   "theorems": [
    "C66_topological_duplicates",
    "C66_geometrical_duplicates"
   ],
   "note": ""
  },
  {
   "property": "C67",
   "status": "partial",
   "theorems": [
    "C67_form_to_vector",
    "C67_vector_to_form_partial",
    "C67_vector_to_form_refuted"
   ],
   "note": "Over the real numbers (no rounding). Form to vector: all charts. Vector to form: proved in Cartesian charts, false in polar ones (it uses the inverse metric)."
  },
  {
   "property": "C68",
   "status": "proved",
   "theorems": [
    "C68_galerkin"
   ],
   "note": "Over the real numbers (no rounding). The solver is external: the theorem takes any vector that solves the system."
  },
  {
   "property": "C69",
   "status": "partial",
   "theorems": [
    "C69_local_partial",
    "C69_other_coordinates_refuted"
   ],
   "note": "Over the real numbers (no rounding). Proved in Cartesian coordinates. In polar and spherical coordinates the parametrization of a cell divides by the radius of the origin, zero: undefined (not-a-number in IEEE arithmetic) for every mesh."
  },
  {
   "property": "C70",
   "status": "partial",
   "theorems": [
    "C70_l2_value",
    "C70_l2_nonnegative",
    "C70_l2_same",
    "C70_l2_symmetric",
    "C70_l2_triangle",
    "C70_l2_zero",
    "C70_l2_order",
    "C70_l2_exact",
    "C70_h1_computed",
    "C70_h1_partial",
    "C70_h1_refuted"
   ],
   "note": "Over the real numbers (no rounding). The L2 norm: proved. The H1 norm adds the gradient with respect to the parametric coordinates instead of the position, so it is right only on elements that are translations of the reference element (C70_h1_partial); C70_h1_refuted: a segment of length two."
  },
  {
   "property": "C71",
   "status": "partial",
   "theorems": [
    "C71_verdict_stress",
    "C71_verdict_tangents",
    "C71_passed",
    "C71_linear",
    "C71_decides",
    "C71_gent",
    "C71_fixed_tolerance_refuted"
   ],
   "note": "Over the real numbers (no rounding). The residual is not divided by the perturbation: with a tolerance that does not depend on the perturbation every stress passes for small perturbations (C71_fixed_tolerance_refuted); with a tolerance proportional to the perturbation the test decides consistency (C71_decides)."
  },
  {
   "property": "C72",
   "status": "proved",
   "theorems": [
    "C72_definite",
    "C72_one_solution",
    "C72_weak",
    "C72_least_energy",
    "C72_energy_unique",
    "C72_floating",
    "C72_projection_definite",
    "C72_projection_closest",
    "C72_projection_reproduces",
    "C72_projection_polynomial",
    "C72_helmholtz_definite"
   ],
   "note": "Over the real numbers (no rounding). The vector returned by the solver is any solution of the assembled system. Integrals are those of the quadrature rule."
  },
  {
   "property": "C73",
   "status": "proved",
   "theorems": [
    "C73_exact_at_nodes",
    "C73_midpoint"
   ],
   "note": "Over the real numbers (no rounding). The vector returned by the solver is any solution of the assembled system."
  },
  {
   "property": "C74",
   "status": "proved",
   "theorems": [
    "C74_solution",
    "C74_unique",
    "elimination_good"
   ],
   "note": "Over the real numbers (no rounding). The linear solver is any function that solves the symmetric positive definite systems it is given (S_Solver.good_solver; elimination_good: there is one). Integrals are those of the quadrature rule."
  },
  {
   "property": "C75",
   "status": "proved",
   "theorems": [
    "C75_same_solution",
    "C75_poisson",
    "C75_accumulates"
   ],
   "note": "Over the real numbers (no rounding). Each call adds the contributions of the elements to the matrix and the vector of the previous one: after k calls both are k times those of the first (C75_accumulates), which leaves the solution the same."
  },
  {
   "property": "C76",
   "status": "partial",
   "theorems": [
    "C76_superposed",
    "C76_first_call_partial",
    "C76_refuted"
   ],
   "note": "Over the real numbers (no rounding). Proved for the first call. False of the code for others: the linear system is not set to zero, so the last call solves the sum of the weak forms of all the calls (C76_superposed); C76_refuted: the force on a bar is doubled between two calls and the second gives 3/2 instead of 2."
  },
  {
   "property": "C77",
   "status": "partial",
   "theorems": [
    "C77_success_partial",
    "C77_refuted"
   ],
   "note": "Over the real numbers (no rounding). Proved if the solution of the last linear system was successful. False of the code otherwise: the reason for which the iterations stopped is not asked, and on an error the function returns; C77_refuted: on equations without a solution solve returns as always."
  },
  {
   "property": "C78",
   "status": "partial",
   "theorems": [
    "C78_fluxes",
    "C78_divergence_theorem_partial",
    "C78_exact_partial",
    "C78_library",
    "C78_reversed_refuted"
   ],
   "note": "Over the real numbers (no rounding). Proved if every triangle was created with the orientation it has in the mesh (S_Stokes.as_created). False of the code without that: the composition of a triangle found in the repository with the other orientation lists the edges of the first one, so that the boundary integral has the wrong sign (C78_reversed_refuted). C78_fluxes is the same statement for the exact integrals, in two and three dimensions."
  },
  {
   "property": "C79",
   "status": "partial",
   "theorems": [
    "C79_up_to_sign_partial",
    "C79_opposite_partial",
    "C78_fluxes",
    "C79_tetrahedra_refuted"
   ],
   "note": "Over the real numbers (no rounding). Proved up to the sign. The faces of a tetrahedron of positive volume are oriented inward, those of a triangle outward, so that with the outward normal the boundary integral is the opposite of the integral of the divergence on every mesh of tetrahedra; C79_tetrahedra_refuted: one tetrahedron, 1/3 and -1/3."
  },
  {
   "property": "C80",
   "status": "proved",
   "theorems": [
    "C80_integrals",
    "C80_polynomials"
   ],
   "note": "Over the real numbers (no rounding). C80_polynomials for the rules written in fractions. At least one level of refinement."
  },
  {
   "property": "C81",
   "status": "partial",
   "theorems": [
    "C81_similar",
    "C81_small",
    "C81_shapes_refuted"
   ],
   "note": "Over the real numbers (no rounding). Segments and triangles: proved (similar to the parent, 2^n times smaller). Tetrahedra become small (C81_small) but their shape degenerates in every mesh: C81_shapes_refuted, the ratio of the cube of an edge to the volume is unbounded."
  },
  {
   "property": "C82",
   "status": "proved",
   "theorems": [
    "C82_converges",
    "C82_weights",
    "C82_rate",
    "C82_rate_any",
    "C82_rate_second",
    "C82_rate_second_any"
   ],
   "note": "Over the real numbers (no rounding). The limit is the integral times the sum of the weights of the rule, which is one except for the last digits of the tables for triangles of degree 3 and 4 (C82_weights)."
  },
  {
   "property": "C83",
   "status": "proved",
   "theorems": [
    "C83_nodes",
    "C83_inside",
    "C83_error",
    "C83_converges"
   ],
   "note": "Over the real numbers (no rounding). Meshes in which every unconstrained node ends one segment and starts another."
  },
  {
   "property": "C84",
   "status": "partial",
   "theorems": [
    "C84_monotone_partial",
    "C84_nonnegative_partial",
    "C84_tables",
    "C84_obtuse_refuted"
   ],
   "note": "Over the real numbers (no rounding). Proved for linear segments and for linear triangles without obtuse angles, and for the rules of the library (C84_tables). Missing because the program does not have it: triangles with obtuse angles, C84_obtuse_refuted (four triangles, a source that is a square, a negative nodal value)."
  },
  {
   "property": "C85",
   "status": "partial",
   "theorems": [
    "C85_cover_partial",
    "C85_integral_partial",
    "C85_addresses_refuted"
   ],
   "note": "Over the real numbers (no rounding). Proved for jobs in which the addresses of the vertices are in the same order in all the processes (whatever METIS, MPI and the allocators do otherwise). Missing because the program does not have it: processes in which the vertices are in another order give METIS another numbering; C85_addresses_refuted, two processes with the unit square, 1/3 in place of 1/2."
  },
  {
   "property": "C86",
   "status": "proved",
   "theorems": [
    "C86_orthogonal",
    "C86_best",
    "C86_rate",
    "C86_converges",
    "C86_quadratic"
   ],
   "note": "Over the real numbers (no rounding). The case (Properties_EnergyCases.v) is the family of all uniform meshes of the unit square: energy of the error at most 256 / n^2 with 2 n^2 triangles. C86_quadratic is the second order bound for quadratic triangles; its cases (Properties_EnergyQuadraticCases.v) are a cubic solution, with a rule of seven points that is not one of the library, and a quadratic solution with the library's rule of degree two, which the program then reproduces exactly. The rules of the library written in fractions are exact (C51_exact_tables)."
  },
  {
   "property": "C87",
   "status": "proved",
   "theorems": [
    "C87_files",
    "C87_mesh_writer",
    "C87_function_space_writer",
    "C87_cloud_writer",
    "C87_job",
    "C87_same_name_refuted"
   ],
   "note": "Over the real numbers (no rounding). The content of a file is the grid and its named arrays, not the XML text; the index .pvtu is not modelled. C87_same_name_refuted: a field recorded under the name of another silently replaces it, so not every recorded field is in the file."
  },
  {
   "property": "C88",
   "status": "partial",
   "theorems": [
    "C88_names_partial",
    "C88_mixed_partial",
    "C88_tasks",
    "C88_collision_refuted"
   ],
   "note": "Proved for two parallel writers or two tasks, and for two serial writers; the one case of a serial and a parallel writer with the same file is characterised (C88_mixed_partial). Missing because the program does not have it: C88_collision_refuted, the serial writer o_1 writes over the file of the task 1 of o."
  }
 ]
}