# A formal model of mitadel/mito in Rocq (Coq 8.16.1)

`/repo` is read as text only; nothing of it is compiled or run. The model is written by hand from
the source, function by function; every definition of the model carries a comment with the file and
the lines it follows and with the simplifications made.

Contents: layout; conventions; plan property by property; what is modelled, file by file; what is not
modelled; findings (properties that are false of the code); trusted base; axioms per theorem.

## Layout

`rocq/theories/` (logical name `Verif`):

| file | content |
|---|---|
| `Base.v` | outcomes of a program step: `Ok`, `Abort` (a failed assertion or an exception), `Ub` |
| `M_*.v` | model definitions only (no proofs beyond what a definition needs) |
| `S_*.v` | small independent specifications used by the statements |
| `P_*.v` | proofs (lemmas, invariants) |
| `Properties_*.v` | the property theorems with `Print Assumptions`, and non-vacuity `Example`s beside them; `Properties_*Cases.v` has the larger examples and counterexamples |

A theorem whose name ends in `_refuted` shows that the English property, or a natural reading of it, is
**false** of the modelled code (a finding): it exhibits a witness. `_partial` marks a theorem that
covers only a part of a property; what is missing is said beside it and in `MANIFEST.json`.

`seeded/LOG.jsonl` records the wrong programs the theorems were tested against: the edit, the claim it
breaks, the theorems aimed at (`failed`) and the first proof that fails (`first_failure`). A theorem in
`failed` did not build, because it or something its file imports stopped at `first_failure`; the list
was not measured theorem by theorem. When `first_failure` is a lemma of a `P_` file, the log shows that
the proof of the theorem breaks, which does not by itself show that its statement is false of the edited
program. In one case (`erase_check`) it was not, and the note of that line says so.

## Modelling conventions

* Undefined behaviour (null or dangling dereference, use of an object whose lifetime is over, out of
  range access, a division that the mathematics does not define where the code would go on), a
  failed `assert`/`firewall` or a thrown exception, and a normal result are different outcomes.
* Debug and release builds differ by their assertions; models of code with assertions take the build as
  a parameter `debug`.
* Memory addresses are `block + offset` pairs or abstract identifiers; two live allocations never
  coincide. Where an allocator has freedom, theorems quantify over every choice it may make. Ids
  (addresses of footprints and oriented simplices) may be handed out again after an erasure.
* Histories are lists of client operations from the initial state; theorems about states are about all
  states reached by such histories, by induction, without a bound.
* `double` is modelled by the real numbers of `Coq.Reals`; rounding, overflow, NaN and signed zeros are
  not modelled. Decimal literals are modelled by the exact decimal value written in the source.
* `int` counters are unbounded integers (no overflow).
* Templates on the dimension or the order N are modelled by a parameter of type `nat`.
* `std::map`/`unordered_map` are finite maps; `std::set` of pointers is the increasing list of the
  addresses where its order is observable; the order in which an unordered container is visited is a
  parameter of the theorems.
* A C++ expression template (functions, forms) is a syntax tree; what does not compile is not a tree or
  has no value (`None`).
* "Listed histories" (`reach_listed`): histories in which the compositions that the client hands to the
  factory are listed in the order in which the vertex based constructors list them. All histories that
  use only vertex based constructors are listed.

## Plan, property by property

| id | modelled | method |
|---|---|---|
| C01-C03 | `swap_sort`, `same_elements`, `permutation_sign` on lists | independent definition of parity (number of transpositions), induction |
| C04 | pointer variables and counters, one transition per special member function | invariant over all operation lists; the unrestricted statement is refuted for move assignment between pointers to the same resource |
| C05-C10, C12, C13 | `SegmentedAllocator`, its iterators, `SegmentedVector`, memory blocks with a link cell | refinement to an abstract list of slots, induction on histories; construction/destruction event log |
| C11, C61-C63 | `Repository` on top of the same machinery, in two memory semantics (`strict`: touching a destroyed object is undefined; otherwise it finds what is left in memory) | invariant over histories; refutations by witness |
| C14-C16, C19-C21 | the factories, for every order N, with client references and allocator oracle | invariant over histories |
| C15, C17, C18, C22-C24, C64, C65 | vertex based constructors, `isValid`, `vertices` | state invariant "every footprint is canonical" plus permutation parity |
| C25-C29, C66 | `Mesh`, `Boundary`, `Filter`, removal of duplicates over the topology model | invariants, double counting |
| C30-C32 | `tetra.h` with the topology, the coordinate system and the point cloud | induction on depth; affine maps of the reference simplex; `ring`/`field` |
| C33 | the partitioner; METIS is any function with outputs in range | induction on cell lists |
| C34, C35, C58 | summit reader/writer, vtk numbering, discrete fields | induction on cell lists, finite map laws |
| C36-C40, C44, C67 | coordinate systems, their algebra, metrics, volumes of manifolds | finite map laws; `field`, trigonometric lemmas of `Coq.Reals` |
| C41-C43 | forms as trees evaluated on lists of vectors or dummies | induction on the number of successive contractions; `ring` |
| C45-C47 | deep embedding of the function language and of `derivative` | structural induction with `derivable_pt_lim` |
| C48-C51, C60, C69, C70 | shape functions (as function expressions), jacobians, tables, blocks, integrator, norms | polynomial identities, monomial basis and linearity; Riemann integrals over simplices by iterated integrals; decimal tables by integer comparison |
| C52-C55, C68 | discretisers, function space, weak form, discrete system | induction on element lists |
| C72, C73 | the driver `poisson.cc` composed of the models above | bilinear forms of nodal fields, elimination, energy; integration by parts |
| C74-C77 | the discrete system as an object, `LinearSolver::solve`, the driver from mesh to field; the linear solver is a function given to the program | the function space as a layout of nodes, C72 carried to polynomials on the cells; induction on the calls |
| C78, C79 | `boundary`, `divergence`, contraction of the volume form and integrator of the models above, composed as `tests/.../divergence_theorem.cc` does | Gauss' theorem for polynomials on one simplex by the integrals of monomials; cancellation over interior facets from the boundary properties (C27); rules exact on polynomials |
| C80-C82 | `tetra.h` and the integrator of the models above, composed | the children are images of those of the reference simplex under one affine map; polynomials by the integrals of monomials; continuous functions by Bernstein polynomials with an explicit bound; existence of the iterated integrals as limits; the sum of the squares of the edges halves with each level; rates for Lipschitz functions from the similarity of the children; second order rates by comparing with the linear expansion at a corner of each child, which the rule integrates exactly (`S_Rate2`: functions near their linear expansions) |
| C83, C84 | the driver `poisson.cc` from mesh to field, as in C74 | C83: the interpolation of the solution is the discrete solution (piecewise integration by parts), then the interpolation error by the mean value theorem; C84: signs of the products of gradients, testing with the negative part |
| C85 | a job of processes with separate memories: `quadrature_load_mesh_2D_mpi.cc` composed of partitioner, integrator and `MPI_Reduce` | the numbering given to METIS is determined by the order of the addresses; a painting is a partition of the cells, sums over it |
| C86 | the driver `poisson.cc` on triangles, as in C74 | Green's identity on each triangle (Gauss on polynomials) summed over the mesh, interior sides cancel; hence Galerkin orthogonality, hence optimality; the linear interpolant bounds the error, the quadratic one on quadratic triangles |
| C87, C88 | field writers with their files on a shared disk, events of all tasks in any order; decimal numbers and file names as character lists | invariant of the disk and of the attached arrays, induction on the schedule; the last underscore of a file name is that before the task |
| C56, C71 | linear elastic and Gent laws, the consistency test | derivatives along arbitrary motions; rotations; Hadamard's inequality |
| C57 | flip of the diagonal on top of the topology model | case analysis on the invariant |
| C59 | option prefixing on character lists | induction on strings |

## What is modelled, file by file (below `lib/mito`)

| source | model | remarks |
|---|---|---|
| `math/combinatorics.h` | `M_Perm` | |
| `utilities/SharedPointer`, `Shareable` | `M_SharedPtr` | |
| `utilities/SegmentedAllocator`, `SegmentedAllocatorIterator`, `SegmentedContainerIterator`, `SegmentedVector`, `Invalidatable` | `M_SegAlloc` | |
| `utilities/Repository` | `M_Repository` | |
| `topology/Simplex`, `OrientedSimplex`, `SimplexFactory`, `OrientedSimplexFactory`, `Topology`, `utilities` | `M_Topology` | all orders N |
| `topology/FlipDiagonal` | `M_Flip` | |
| `mesh/Mesh`, `Boundary`, `Filter`, `utilities`, parts of `geometry/utilities` | `M_Mesh` | nodes on the same vertex and point are identified |
| `mesh/tetra.h`, `geometry/factories.h` (nodes), `geometry/PointCloud.h` | `M_Tetra` | segments, triangles, tetrahedra, every depth |
| `mesh/metis/Partitioner.icc` | `M_Partition` | METIS external |
| `io/summit` | `M_Summit` | a file is the list of its words |
| `io/vtk` | `M_VTK`, `M_VTKFiles` | a grid is its points and cells; a file is the grid with its named arrays, not its text |
| `discrete/DiscreteField`, `factories` | `M_Discrete` | names of fields are in `M_VTKFiles` |
| `coordinates`, `geometry` (coordinate systems, algebra, metric, basis, transformations, volume), `manifolds/Manifold.h` | `M_Geometry` | `atan2` without signed zeros |
| `tensor` (Form, forms_algebra, wedge) | `M_Tensor` | pyre::tensor is external: its operations are the mathematical ones |
| `functions`, `fields/differential.h` | `M_Functions` | the whole expression language with the derivation rules |
| `geometry/ReferenceSimplex.h`, `GeometricSimplex.h` (parametrization), `quadrature` | `M_Quadrature` | all tables |
| `fem/elements`, `fem/blocks`, `fem/norms.h`, `fem/localize.h`, `fem/FemField.h` | `M_Fem` | linear segments, linear and quadratic triangles |
| `fem/elements/*/DiscretizerCG.h`, `FunctionSpace.h`, `Weakform.h`, `DiscreteSystem.h`, `constraints` | `M_System` | PETSc is the table of its entries; a solution is any solution |
| `benchmarks/mito.lib/pdes/poisson.cc` (not below `lib/mito`) | `M_Poisson` | the composition of weak form, assembly and solution |
| `matrix_solvers/backend/petsc/PETScKrylovSolver.cc` (options) | `M_Options` | |
| `solvers/LinearSolver.h`, `DiscreteSystem.h` as an object, `PETScKrylovSolver.cc` (solve), the whole driver `poisson.cc` | `M_Solver` | what `KSPSolve` computes is a function given to the program, with a flag for success |
| `simulation/Context`, `tests/mito.lib/integration/quadrature_load_mesh_2D_mpi.cc` (not below `lib/mito`) | `M_Parallel` | processes with separate memories, one reduction |
| `materials` | `M_Materials` | the journal output is not modelled |

## Not modelled

* Floating point rounding, `int` overflow, thread interleavings (the library is single threaded).
* The C++ compile-time machinery (concepts, overload resolution and type deduction are resolved by hand).
* `std::ostream` formatting beyond the words of a file; the journal; names of objects.
* The external libraries: pyre (journal, tensor, memory), VTK, PETSc, METIS, MPI. Their results are either
  inputs that theorems quantify over or are modelled by their mathematical meaning, as stated where used.
* `simulation/Simulation` (the clock), the rest of `matrix_solvers/` (forwarding to PETSc), `utilities/Singleton`, `NamedClass`,
  `StdSharedPointer` (a `std::shared_ptr` with an id).

## Findings

Properties that the code does not have, each with a theorem about the model; the English property is
kept in `properties.jsonl` and its status is `partial`, or the theorem is beside the property it limits.

| theorem | what happens |
|---|---|
| `C04_count_exact_refuted`, `C04_self_move_refuted` | move assignment between two shared pointers to the same resource loses a count / leaks |
| `C06_size_after_copying_erased_refuted` | an element built by copying an erased one is born invalid: `size` counts it and no loop visits it |
| `C11_destroyed_twice_refuted`, `C11_erase_touches_destroyed_resource_refuted` | a repository destroys an erased resource again at the end; `erase` releases a reference held in the object it has just destroyed |
| `C12_postfix_refuted` | the post-increment of a container iterator does not skip erased elements |
| `C62_erase_while_shared_refuted`, `C63_unused_reused_refuted` | `Repository::erase` erases a resource that other pointers use; resources that nobody uses are not recycled |
| `C17_vertices_refuted`, `C17_vertices_debug_refuted`, `C18_rebuild_refuted` | after a client composed a triangle from its segments in another order, the triangle asked for by its vertices is the flip (release) or the request fails (debug) |
| `C20_vertices_release_refuted`, `C21_erase_release_refuted` | in release builds `vertices()` of an accepted composition writes past the end of an array; erasing a simplex whose composition lists a member twice leaves that member registered for ever |
| `C65_members_refuted` | the segments of a triangle, all flipped, give the same triangle |
| `C23_triangle_head_tail_refuted`, `C23_composed_segment_refuted`, `C24_number_of_edges_refuted`, `C64_accepted_tetrahedron_refuted` | the composition of a triangle opposite to its footprint is not head-tail connected; a segment composed of its head and its tail has them exchanged; `edges()` of a tetrahedron lists each edge twice; four triangles that are not a tetrahedron are accepted as one |
| `C26_reversed_cell_refuted`, `C27_boundary_of_boundary_refuted` | an interior facet of a cell opposite to its footprint is reported on the boundary; the boundary of the boundary of a tetrahedron is not empty when a face existed before with the other orientation |
| `C28_reinsert_refuted` | inserting a reference to an erased cell of the same mesh |
| `C32_conforming_refuted` | subdivision makes one midpoint node per cell and edge: the refined mesh is not conforming |
| `C33_across_processes_refuted` | partitions computed in different processes may leave a cell out |
| `C34_element_type_refuted` | a summit file written with an element type cannot be read back |
| `C38_polar_angle_refuted` | in polar coordinates A + (B - A) may return B with an angle that differs by a full turn |
| `C39_x_2_refuted` | `x_2` returns the second coordinate |
| `C42_wedge_one_two_refuted` | the wedge of a one-form and a two-form misses a term |
| `C54_prescribed_value_refuted` | the values of Dirichlet conditions are dropped |
| `C76_refuted` | the linear system is not set to zero before assembly: a second `solve` solves the sum of the weak forms of both calls |
| `C77_refuted` | the outcome of the linear solver is not asked: `solve` returns as always on equations without a solution |
| `C78_reversed_refuted` | the boundary integral over a triangle found with the other orientation in the repository has the wrong sign |
| `C79_tetrahedra_refuted` | the faces of a tetrahedron of positive volume are oriented inward (edges of a triangle: outward): the boundary integral with the outward normal is the opposite of that of the divergence |
| `C81_shapes_refuted` | refined tetrahedra degenerate: in every mesh, as the depth grows there are cells whose volume is arbitrarily small for the length of an edge (child `{01, 02, 13, 12}` of the recursive branch of `subdivide`, twice: an edge shrinks as k/4^k while the volumes do as 1/64^k) |
| `C84_obtuse_refuted` | on a mesh with obtuse angles a source that is a square gives a negative nodal value |
| `C85_addresses_refuted` | the sum of the local integrals of a parallel job is not the integral if the vertices are in another order of addresses in another process |
| `C87_same_name_refuted` | a field recorded under the name of another replaces it silently |
| `C88_collision_refuted` | the serial writer `o_1` and the task 1 of the parallel writer `o` write the same file |
| `C57_flip_both_reversed`, `C57_flip_one_reversed` | flipping triangles that are opposite to their footprints reverses orientation or is undefined |
| `C59_negative_value` | an option value that starts with a dash is prefixed like a name |
| `C67_vector_to_form_refuted` | `metric_equivalent` of a vector uses the inverse metric |
| `C69_other_coordinates_refuted` | integration in polar and spherical coordinates divides by zero |
| `C70_h1_refuted` | `compute_h1_norm` uses gradients with respect to the parametric coordinates |
| `C71_fixed_tolerance_refuted` | the residual of the consistency test is not divided by the perturbation |

## Trusted base

* Coq's kernel (8.16.1) and the faithfulness of the hand-written model to the cited lines.
* The theorems of the standard library, std++ (discrete models) and Coquelicot (derivatives and Riemann
  integrals); no axioms but those below. No axiom, parameter, functor or module type is declared in
  `rocq/theories`, no proof is admitted, no kernel check is switched off.
* Axioms of the standard library used (`Print Assumptions`):
  * A1 `ClassicalDedekindReals.sig_forall_dec`
  * A2 `ClassicalDedekindReals.sig_not_dec`
  * A3 `FunctionalExtensionality.functional_extensionality_dep`
  * A4 `Classical_Prop.classic`

  A1-A3 come with the real numbers of `Coq.Reals`, A4 with its analysis (limits, derivatives,
  trigonometry) and with Coquelicot.

### Axioms per theorem

Every theorem named in `MANIFEST.json`, as `Print Assumptions` reports it.

| file | axioms | theorems |
|---|---|---|
| `P_Elimination` | A1 A3 | `elimination_good` |
| `Properties_Energy` | A1 A2 A3 A4 | `C86_orthogonal`, `C86_best`, `C86_rate`, `C86_converges` |
| `Properties_EnergyQuadratic` | A1 A2 A3 A4 | `C86_quadratic` |
| `Properties_Fem` | A1 A2 A3 | `C49_made`, `C51_exact_tables` |
| `Properties_Fem` | A1 A2 A3 A4 | `C48_partition_of_unity`, `C48_nodal`, `C48_polynomials`, `C48_reproduces`, `C48_unique`, `C48_derivatives`, `C48_nodes`, `C48_isoparametric`, `C49_jacobian`, `C49_determinant`, `C49_gradients_sum`, `C49_inverse`, `C49_gradient`, `C49_interpolant`, `C49_interpolant_gradient`, `C51_symmetric`, `C51_energies`, `C51_semidefinite`, `C51_constants`, `C51_kernel`, `C51_mass_definite`, `C51_mass_total`, `C51_mass_exact`, `C51_mass_integrals`, `C51_mass_tables`, `C51_grad_grad_exact`, `C51_source_exact`, `C51_source_total`, `C51_source_mass`, `C51_l2_block` |
| `Properties_Fem` | A1 A3 | `C51_kernel_tables` |
| `Properties_FemNorms` | A1 A2 A3 A4 | `C70_l2_value`, `C70_l2_nonnegative`, `C70_l2_same`, `C70_l2_symmetric`, `C70_l2_triangle`, `C70_l2_zero`, `C70_l2_order`, `C70_l2_exact`, `C70_h1_computed`, `C70_h1_partial`, `C70_h1_refuted` |
| `Properties_Flip` | closed | `C57_flip_partial`, `C57_twice_partial`, `C57_flip_both_reversed`, `C57_flip_one_reversed` |
| `Properties_Functions` | A1 A2 A3 A4 | `C45_derivative`, `C45_compiles`, `C45_curves`, `C45_any_order`, `C45_matrix`, `C45_matrix_compiles`, `C46_arithmetic`, `C46_products`, `C46_constants`, `C46_sums`, `C46_tensors`, `C46_library`, `C46_arguments`, `C47_gradient_scalar`, `C47_gradient_vector`, `C47_divergence_vector`, `C47_divergence_tensor`, `C47_compiles`, `C47_trace`, `C47_linear`, `C47_leibniz` |
| `Properties_Geometry` | A1 A2 A3 | `C37_difference`, `C37_distance`, `C38_to_cartesian`, `C40_metric_inverse`, `C40_metric_gram`, `C40_dual_basis`, `C40_volume_form`, `C40_density`, `C44_cell_volume`, `C44_orientation`, `C44_translation`, `C44_mesh_volume`, `C44_mesh_order`, `C44_submanifold`, `C44_line_length_2d`, `C44_line_length_3d`, `C44_surface_area`, `C67_form_to_vector`, `C67_vector_to_form_partial`, `C67_vector_to_form_refuted` |
| `Properties_Geometry` | A1 A2 A3 A4 | `C36_midpoint`, `C36_midpoint_symmetric`, `C37_cartesian_affine`, `C37_translation`, `C37_there_and_back`, `C37_midpoint_equidistant`, `C37_barycenter`, `C38_cartesian_roundtrip`, `C38_polar_roundtrip`, `C38_spherical_roundtrip`, `C38_principal`, `C38_polar_there_and_back`, `C38_spherical_there_and_back`, `C38_polar_angle_refuted` |
| `Properties_Geometry` | A1 A3 | `C39_x_2_refuted` |
| `Properties_Geometry` | closed | `C36_history`, `C36_place`, `C36_change_of_coordinates`, `C39_coordinate_functions_partial` |
| `Properties_GeometryPoints` | A1 A2 A3 | `C37_point_distance` |
| `Properties_GeometryPoints` | A1 A2 A3 A4 | `C36_change_keeps_distances`, `C38_transform_pairs`, `C38_transform`, `C38_transform_back` |
| `Properties_Integrator` | A1 A2 A3 A4 | `C50_meshes`, `C50_meshes_decimal`, `C60_value`, `C60_linear`, `C60_defined`, `C60_additive`, `C60_order`, `C60_constant`, `C60_cellwise`, `C60_monotone`, `C60_orientation`, `C60_missing`, `C60_debug`, `C69_local_partial`, `C69_other_coordinates_refuted` |
| `Properties_Line` | A1 A2 A3 | `C73_midpoint` |
| `Properties_Line` | A1 A2 A3 A4 | `C73_exact_at_nodes` |
| `Properties_LineError` | A1 A2 A3 A4 | `C83_nodes`, `C83_inside`, `C83_error`, `C83_converges` |
| `Properties_Materials` | A1 A2 A3 | `C71_verdict_stress`, `C71_verdict_tangents`, `C71_passed`, `C71_linear`, `C71_decides`, `C71_fixed_tolerance_refuted` |
| `Properties_Materials` | A1 A2 A3 A4 | `C56_linear_stress`, `C56_linear_tangents`, `C56_gent_stress`, `C56_gent_tangents`, `C56_partial_derivatives`, `C56_major_symmetry`, `C56_gent_frame`, `C56_gent_isotropic`, `C56_gent_angular`, `C56_gent_energy`, `C56_gent_natural`, `C56_gent_small`, `C71_gent` |
| `Properties_Materials` | A1 A3 | `C56_linear_symmetric`, `C56_linear_moduli`, `C56_linear_shear`, `C56_linear_energy`, `C56_linear_strain_only` |
| `Properties_Maximum` | A1 A2 A3 A4 | `C84_monotone_partial`, `C84_nonnegative_partial` |
| `Properties_Maximum` | A1 A3 | `C84_tables` |
| `Properties_MaximumCases` | A1 A2 A3 A4 | `C84_obtuse_refuted` |
| `Properties_Mesh` | closed | `C25_counts_exact`, `C25_insert_erase`, `C26_on_boundary`, `C26_on_boundary_owners`, `C26_foreign`, `C27_boundary_facets`, `C27_boundary_once`, `C27_closed`, `C27_boundary_mesh_partial`, `C27_boundary_nodes_partial`, `C28_cells`, `C28_insert`, `C28_erase`, `C29_filtered_cells`, `C29_filter_mesh_partial`, `C66_topological_duplicates`, `C66_geometrical_duplicates` |
| `Properties_MeshCases` | closed | `C26_reversed_cell_refuted`, `C27_boundary_of_boundary_refuted`, `C28_reinsert_refuted` |
| `Properties_Options` | closed | `C59_words`, `C59_total`, `C59_same_number`, `C59_set_options` |
| `Properties_Parallel` | A1 A2 A3 A4 | `C85_cover_partial`, `C85_integral_partial` |
| `Properties_ParallelCases` | A1 A2 A3 A4 | `C85_addresses_refuted` |
| `Properties_Partition` | A1 A2 A3 A4 | `C33_parts`, `C33_cover` |
| `Properties_Partition` | closed | `C33_connectivity` |
| `Properties_PartitionCases` | A1 A2 A3 A4 | `C33_across_processes_refuted` |
| `Properties_Perm` | closed | `C01_permutation_sign_is_parity`, `C01_parity_well_defined`, `C02_sign_identity`, `C02_sign_multiplicative`, `C02_sign_symmetric`, `C02_sign_antisymmetric`, `C03_same_elements`, `C03_swap_sort_defined` |
| `Properties_Poisson` | A1 A2 A3 A4 | `C72_definite`, `C72_one_solution`, `C72_weak`, `C72_least_energy`, `C72_energy_unique`, `C72_floating`, `C72_projection_definite`, `C72_projection_closest`, `C72_projection_reproduces`, `C72_projection_polynomial`, `C72_helmholtz_definite` |
| `Properties_Quadrature` | A1 A2 A3 | `C50_integrals`, `C50_tables`, `C50_exact`, `C50_segment_degree_3`, `C50_not_more` |
| `Properties_Quadrature` | A1 A3 | `C50_points` |
| `Properties_Rate` | A1 A2 A3 A4 | `C82_rate`, `C82_rate_any` |
| `Properties_Rate2` | A1 A2 A3 A4 | `C82_rate_second`, `C82_rate_second_any` |
| `Properties_Refine` | A1 A2 A3 A4 | `C80_integrals`, `C80_polynomials`, `C81_similar`, `C81_small`, `C81_shapes_refuted`, `C82_converges` |
| `Properties_Refine` | A1 A3 | `C82_weights` |
| `Properties_Repository` | closed | `C11_once_iff_every_erased_location_reused_partial`, `C11_destroyed_twice_refuted`, `C11_erase_touches_destroyed_resource_refuted`, `C61_iteration_visits_resources_in_use`, `C61_size`, `C61_handle_stable`, `C62_in_use_partial`, `C62_erase_while_shared_refuted`, `C63_only_erased_locations_are_reused`, `C63_unused_reused_refuted` |
| `Properties_SegAlloc` | closed | `C05_iteration_in_slot_order`, `C05_iteration_exactly_live`, `C06_size_is_number_of_live`, `C06_capacity`, `C06_capacity_never_shrinks`, `C06_capacity_grows_when_full`, `C06_size_after_copying_erased_refuted`, `C07_handle_stable`, `C07_no_alias_and_fifo_reuse`, `C08_index_is_order_of_first_use`, `C08_index_past_capacity_fails`, `C09_erase_repeatable`, `C09_defined`, `C09_allocator_check`, `C10_destroyed_exactly_once`, `C12_postfix_agrees_partial`, `C12_postfix_refuted`, `C13_move` |
| `Properties_SharedPtr` | closed | `C04_count_is_number_of_pointers`, `C04_count_never_too_small`, `C04_no_dangling_pointer`, `C04_defined_iff_no_misuse`, `C04_count_exact_refuted`, `C04_self_move_refuted` |
| `Properties_Solver` | A1 A2 A3 A4 | `C74_solution`, `C74_unique` |
| `Properties_SolverCalls` | A1 A2 A3 A4 | `C75_poisson` |
| `Properties_SolverCalls` | A1 A3 | `C75_same_solution`, `C75_accumulates`, `C76_superposed`, `C76_first_call_partial`, `C76_refuted`, `C77_success_partial`, `C77_refuted` |
| `Properties_Stokes` | A1 A2 A3 A4 | `C78_fluxes`, `C78_divergence_theorem_partial`, `C78_exact_partial`, `C78_library`, `C79_up_to_sign_partial`, `C79_opposite_partial` |
| `Properties_StokesCases` | A1 A2 A3 A4 | `C78_reversed_refuted`, `C79_tetrahedra_refuted` |
| `Properties_Summit` | A1 | `C34_file` |
| `Properties_Summit` | A1 A2 A3 | `C34_reader`, `C34_roundtrip`, `C34_element_type_refuted` |
| `Properties_System` | A1 | `C54_initial`, `C54_prescribed_value_refuted` |
| `Properties_System` | A1 A3 | `C53_assembly`, `C53_order`, `C53_symmetric`, `C53_weakform`, `C68_galerkin` |
| `Properties_System` | closed | `C52_numbering`, `C54_read_solution_partial`, `C55_segments`, `C55_segments_foreign`, `C55_triangles`, `C55_triangles_foreign`, `C55_second_order`, `C55_second_order_foreign` |
| `Properties_Tensor` | A1 | `C43_sum` |
| `Properties_Tensor` | A1 A3 | `C41_wedge_two`, `C41_wedge_three`, `C41_alternating`, `C41_repeated`, `C41_exchange_forms`, `C41_multilinear`, `C41_one_forms_linear`, `C42_value_partial`, `C42_wedge_one_two_refuted`, `C43_difference`, `C43_scalar`, `C43_tensor_two`, `C43_tensor_three`, `C43_contraction_wedge` |
| `Properties_Tensor` | closed | `C43_contraction` |
| `Properties_Tetra` | A1 A2 A3 A4 | `C30_cells`, `C30_copy`, `C30_distinct`, `C31_tiling`, `C31_volume`, `C32_shared_nodes`, `C32_conforming_refuted` |
| `Properties_Tetrahedra` | closed | `C64_accepted_tetrahedron_partial` |
| `Properties_Topology` | closed | `C14_one_footprint`, `C14_one_oriented_simplex`, `C14_asking_twice`, `C15_reordered_composition`, `C15_reordering_is_accepted`, `C16_flip`, `C17_vertices_partial`, `C17_repeated_vertices_refused`, `C18_vertices_determine_simplex_partial`, `C18_rebuild_partial`, `C19_exists_composition`, `C19_exists_iff_request_creates_nothing`, `C19_exists_segment`, `C20_operations_defined`, `C20_no_dangling`, `C20_objects_stay`, `C20_reading_defined_partial`, `C20_vertices_defined_listed`, `C21_erase_exact`, `C21_erase_exact_release_partial`, `C22_order_independent`, `C22_registered_accepted`, `C22_flipped_member_rejected`, `C22_flipped_member_rejected_distinct_faces`, `C24_simplex_from_vertices_partial`, `C23_segment_tail_head`, `C23_triangle_head_tail_partial`, `C65_members_partial` |
| `Properties_TopologyCases` | closed | `C17_vertices_refuted`, `C17_vertices_debug_refuted`, `C18_rebuild_refuted`, `C20_vertices_release_refuted`, `C21_erase_release_refuted`, `C23_triangle_head_tail_refuted`, `C23_composed_segment_refuted`, `C24_number_of_edges_refuted`, `C64_segment_accepted_iff`, `C64_accepted_triangle`, `C64_accepted_tetrahedron_refuted`, `C65_members_refuted` |
| `Properties_TopologyCounts` | closed | `C14_number`, `C14_number_list`, `C14_number_request`, `C21_number` |
| `Properties_VTK` | A1 A2 A3 | `C35_mesh`, `C35_mesh_field`, `C35_function_space`, `C35_function_space_field`, `C35_cloud` |
| `Properties_VTK` | closed | `C58_history`, `C58_defined`, `C58_size`, `C58_mesh_field`, `C58_mesh_field_of` |
| `Properties_VTKFiles` | A1 A2 A3 | `C87_mesh_writer`, `C87_function_space_writer`, `C87_cloud_writer`, `C87_job` |
| `Properties_VTKFiles` | closed | `C87_files`, `C87_same_name_refuted`, `C88_names_partial`, `C88_mixed_partial`, `C88_tasks`, `C88_collision_refuted` |
