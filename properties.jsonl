{"id": "C01", "title": "permutation_sign is the parity of the rearrangement", "statement": "For two arrays holding the same pairwise distinct elements, permutation_sign(data, reference) is +1 exactly when data can be turned into reference by an even number of exchanges of two entries, and -1 exactly when an odd number is needed.", "quantifier": "all element types with decidable equality, all lengths >= 1, all duplicate-free arrays and all rearrangements of them", "why_tests_cant": "There are n! rearrangements for every length n and unboundedly many lengths; a test covers a few of them, parity being well defined is a theorem.", "anchors": ["lib/mito/math/combinatorics.h: permutation_sign, swap_sort"]}
{"id": "C02", "title": "permutation_sign is a homomorphism and antisymmetric", "statement": "permutation_sign(a,a)=+1; permutation_sign(a,c)=permutation_sign(a,b)*permutation_sign(b,c); permutation_sign(a,b)=permutation_sign(b,a); exchanging two distinct positions of either argument negates the result.", "quantifier": "all duplicate-free arrays a of any length >= 1, all rearrangements b, c, all pairs of positions", "why_tests_cant": "Algebraic laws over all pairs and triples of permutations of all sizes.", "anchors": ["lib/mito/math/combinatorics.h: permutation_sign, swap_sort"]}
{"id": "C03", "title": "same_elements decides equality up to order", "statement": "same_elements(a,b) is true exactly when b is a rearrangement of a (with multiplicity), and swap_sort never reads outside its arrays when it is.", "quantifier": "all arrays over a totally ordered type, repeated elements included", "why_tests_cant": "Quantifies over all arrays and all orders.", "anchors": ["lib/mito/math/combinatorics.h: same_elements, swap_sort"]}
{"id": "C04", "title": "Shared pointers count exactly the live pointers to a resource", "statement": "After any sequence of constructions, copies, moves, assignments, resets and destructions of shared pointers, references() of a resource equals the number of live pointers that designate it. In particular the count never under-reports a resource still in use and is zero when nothing designates it.", "quantifier": "all finite sequences of pointer operations on any number of pointer variables and resources", "why_tests_cant": "The count is a history variable: an error appears only after a particular sequence of operations (for instance move-assigning between two pointers that already share a resource).", "anchors": ["lib/mito/utilities/SharedPointer.icc: _acquire, _release, copy/move constructors and assignments, reset, references", "lib/mito/utilities/Shareable.icc"]}
{"id": "C05", "title": "Iterating a segmented vector visits exactly the live elements, once each", "statement": "After any sequence of emplace and erase, a range-for over the container visits each element that was emplaced and not erased exactly once, in slot order, and nothing else.", "quantifier": "all segment sizes >= 1 and all finite sequences of emplace/erase with arbitrary erase targets", "why_tests_cant": "The outcome depends on how erasures, slot reuse and segment boundaries interleave; no finite set of histories covers it.", "anchors": ["lib/mito/utilities/SegmentedVector.h: emplace, erase, begin, end", "lib/mito/utilities/SegmentedAllocator.h", "lib/mito/utilities/SegmentedContainerIterator.h: operator++", "lib/mito/utilities/SegmentedAllocatorIterator.h: operator++"]}
{"id": "C06", "title": "Size and capacity account for the content", "statement": "size() equals the number of live elements; capacity() is a multiple of the segment size, is at least size(), never shrinks, and grows by one segment only when no slot is free.", "quantifier": "all segment sizes >= 1, all finite histories of emplace/erase", "why_tests_cant": "An accounting invariant over all histories.", "anchors": ["lib/mito/utilities/SegmentedAllocator.h: size, capacity, insert, erase, _allocate_new_segment", "lib/mito/utilities/SegmentedVector.h"]}
{"id": "C07", "title": "Handles are stable and never alias", "statement": "A handle returned by emplace designates the same value until that element is erased, whatever else is inserted or erased; two live elements never share a location; erased locations are reused in first-in first-out order before new storage is used.", "quantifier": "all histories of emplace/erase and all pairs of handles", "why_tests_cant": "Stability ranges over every continuation of the history after the handle was obtained.", "anchors": ["lib/mito/utilities/SegmentedAllocator.h: location_for_placement, _next_available_location", "lib/mito/utilities/SegmentedVector.h: emplace"]}
{"id": "C08", "title": "Indexing enumerates the slots in order of first use", "statement": "operator[](i) of a segmented container returns the i-th slot ever handed out, for every i below the number of slots in use, independently of later reallocation of segments, and fails for i beyond the allocated segments.", "quantifier": "all histories, all indices", "why_tests_cant": "Ranges over all indices, segment sizes and histories.", "anchors": ["lib/mito/utilities/SegmentedAllocator.h: operator[]", "lib/mito/utilities/SegmentedVector.h: operator[]", "lib/mito/utilities/Repository.h: resource"]}
{"id": "C09", "title": "Erase is safe to repeat", "statement": "Erasing an element returns true the first time and false afterwards until the location is reused; the failing call changes nothing observable. In a debug build the allocator stops exactly on a location outside its segments.", "quantifier": "all histories and all targets", "why_tests_cant": "History-dependent return values and frame conditions.", "anchors": ["lib/mito/utilities/SegmentedVector.h: erase", "lib/mito/utilities/Invalidatable.h"]}
{"id": "C10", "title": "A segmented vector destroys every element exactly once", "statement": "Over the life of a segmented vector, from construction to destruction, every element that was constructed is destroyed exactly once, and nothing that was not constructed is destroyed.", "quantifier": "all histories of emplace/erase followed by destruction", "why_tests_cant": "A double or a missing destruction depends on which slots were erased and reused before the container died.", "anchors": ["lib/mito/utilities/SegmentedVector.h: ~SegmentedVector, emplace, erase", "lib/mito/utilities/SegmentedAllocator.h: ~SegmentedAllocator"]}
{"id": "C11", "title": "A repository destroys every resource exactly once", "statement": "Over the life of a repository, every resource emplaced in it is destroyed exactly once.", "quantifier": "all histories of emplace/erase followed by destruction of the repository", "why_tests_cant": "Double destruction appears only for histories that leave an erased slot unreused at the end.", "anchors": ["lib/mito/utilities/Repository.h: ~Repository, emplace, erase"]}
{"id": "C12", "title": "Post-increment and pre-increment of container iterators agree", "statement": "For every container state and iterator position, it++ leaves the iterator where ++it would, so a loop written with either visits the same elements.", "quantifier": "all container states and iterator positions", "why_tests_cant": "The difference shows only when the next slot is an erased one.", "anchors": ["lib/mito/utilities/SegmentedContainerIterator.h: operator++(), operator++(int)", "lib/mito/utilities/SegmentedAllocatorIterator.h"]}
{"id": "C13", "title": "Moving a container moves its content", "statement": "After move construction the new container is observationally equal to the old one before the move (content, size, capacity, handles, future reuse order) and the old one is an empty, usable container.", "quantifier": "all histories before the move and all continuations after it", "why_tests_cant": "Observational equality quantifies over all continuations.", "anchors": ["lib/mito/utilities/SegmentedAllocator.h: move constructor"]}
{"id": "C14", "title": "One simplex per composition", "statement": "In every reachable state of the topology there is at most one footprint per set of sub-simplex footprints and at most one oriented simplex per footprint and orientation; asking twice for the same simplex returns the same object and creates nothing; the number of simplices reported for an order is the number of distinct ones registered, and a request raises it by one exactly when the simplex did not exist.", "quantifier": "all histories of creations, flips and erasures, all orders N, all addresses the allocator may return (reuse included)", "why_tests_cant": "Uniqueness must survive every interleaving of creation and erasure, including address reuse.", "anchors": ["lib/mito/topology/SimplexFactory.h: simplex, findSimplex, erase", "lib/mito/topology/OrientedSimplexFactory.h: orientedSimplex, erase", "lib/mito/topology/Topology.icc: simplex"]}
{"id": "C15", "title": "Reordering a composition changes the simplex by the sign of the reordering", "statement": "If two compositions list the same sub-simplex footprints in different orders, the two simplices returned share their footprint, are the same object when the reordering is even and are the flip of one another when it is odd.", "quantifier": "all reachable states, all valid compositions of any order N, all reorderings", "why_tests_cant": "All permutations of all compositions in all states.", "anchors": ["lib/mito/topology/OrientedSimplexFactory.h: _orientation, _permutation_sign, orientedSimplex"]}
{"id": "C16", "title": "Flip is a fixed-point-free involution", "statement": "flip(s) shares the footprint of s, has the opposite orientation, is never s itself, has a vertex order that is an odd permutation of that of s, and flip(flip(s)) is s; exists_flipped(s) is true right after flip(s).", "quantifier": "all reachable states and all simplices in them", "why_tests_cant": "Ranges over all states and simplices.", "anchors": ["lib/mito/topology/Topology.icc: flip, exists_flipped", "lib/mito/topology/OrientedSimplex.h: vertices, composition"]}
{"id": "C17", "title": "A simplex built from vertices has those vertices, in that orientation", "statement": "vertices() of the simplex returned by segment/triangle/tetrahedron({v...}) is an even permutation of the vertices requested, whatever simplices existed before.", "quantifier": "all histories of the topology, all tuples of distinct vertices", "why_tests_cant": "The result depends on which footprints pre-exist and in which order they were first built. (In release builds the assertion that checks it is compiled out.)", "anchors": ["lib/mito/topology/Topology.icc: segment, triangle, tetrahedron", "lib/mito/topology/Simplex.h: vertices", "lib/mito/topology/OrientedSimplex.h: vertices"]}
{"id": "C18", "title": "Vertex order determines the simplex up to even permutation", "statement": "simplex({v}) and simplex({w}) are the same object when w is an even permutation of v, flips of one another when it is odd, and have different footprints when the vertex sets differ; rebuilding a simplex from its own vertices() returns it.", "quantifier": "all histories and all pairs of tuples of distinct vertices, N = 1, 2, 3", "why_tests_cant": "All states, all vertex tuples and permutations.", "anchors": ["lib/mito/topology/Topology.icc: segment, triangle, tetrahedron"]}
{"id": "C19", "title": "exists tells the truth", "statement": "exists(composition) is true exactly when an oriented simplex with this composition class is registered, that is when requesting it would create nothing; exists({v0,v1}) is true exactly when segment({v0,v1}) would create nothing.", "quantifier": "all reachable states and compositions", "why_tests_cant": "Two independent lookups must agree in every state.", "anchors": ["lib/mito/topology/Topology.icc: exists", "lib/mito/topology/OrientedSimplexFactory.h: existsOrientedSimplex, findOrientedSimplex"]}
{"id": "C20", "title": "Erasing never leaves a dangling simplex", "statement": "No history of creations, flips, copies, drops and erasures makes a simplex that is still designated by a client pointer, or that is part of a simplex still registered, disappear: every operation on a simplex the client holds is defined.", "quantifier": "all histories by clients that only use pointers they hold, all allocator behaviours", "why_tests_cant": "Use-after-erase depends on sharing patterns across the whole complex.", "anchors": ["lib/mito/topology/Topology.icc: _erase, erase", "lib/mito/topology/OrientedSimplexFactory.h: erase", "lib/mito/topology/SimplexFactory.h: erase", "lib/mito/utilities/Repository.h: erase"]}
{"id": "C21", "title": "Erasing removes what only the erased simplex used", "statement": "Erasing the last pointer to a simplex removes it, and removes each of its faces (recursively) that no other simplex and no client uses; faces in use elsewhere stay; all other simplices are untouched.", "quantifier": "all reachable states, all simplices", "why_tests_cant": "Depends on the full sharing structure.", "anchors": ["lib/mito/topology/Topology.icc: _erase", "lib/mito/topology/OrientedSimplexFactory.h: erase", "lib/mito/topology/SimplexFactory.h: erase"]}
{"id": "C22", "title": "The validity check of a composition does not depend on its order", "statement": "isValid returns the same answer for every reordering of a composition, accepts every composition generated by the vertex-based constructors in any state they produce, and rejects any composition obtained from it by flipping one member.", "quantifier": "all compositions of order N > 1, all reorderings, all states", "why_tests_cant": "All permutations, all states (the source carries a TODO asking for exactly this).", "anchors": ["lib/mito/topology/utilities.h: isValid", "lib/mito/topology/Topology.icc"]}
{"id": "C23", "title": "Segments run from tail to head", "statement": "For a segment built from {a,b}: tail is a and head is b; the flip has them exchanged; head-tail connection holds around every triangle built from vertices.", "quantifier": "all histories of vertex-based construction", "why_tests_cant": "Depends on which of ab and ba was built first.", "anchors": ["lib/mito/topology/utilities.h: tail, head, headTailConnected", "lib/mito/topology/OrientedSimplex.h: composition"]}
{"id": "C24", "title": "A valid N-simplex has N+1 distinct vertices and N(N+1)/2 distinct edges", "statement": "Every simplex built from N+1 distinct vertices passes sanityCheck, its set of vertices is exactly the requested set and its edges are exactly the pairs of those vertices.", "quantifier": "all histories, N = 1, 2, 3", "why_tests_cant": "All states and vertex tuples.", "anchors": ["lib/mito/topology/Simplex.h: vertices, edges, sanityCheck"]}
{"id": "C25", "title": "Mesh orientation bookkeeping is exact", "statement": "After any sequence of insertions and erasures of cells, the count the mesh keeps for a facet and an orientation equals the number of occurrences of that oriented facet in the cells currently in the mesh; inserting then erasing a cell restores all counts.", "quantifier": "all histories of insert/erase, all facets", "why_tests_cant": "A count maintained incrementally over all histories.", "anchors": ["lib/mito/mesh/Mesh.h: insert, erase, _register_cell_orientation"]}
{"id": "C26", "title": "isOnBoundary recognises exactly the boundary facets", "statement": "A facet of a cell of the mesh is reported on the boundary exactly when no other cell of the mesh has the same facet with opposite orientation; in a consistently oriented mesh this is exactly when one cell owns it.", "quantifier": "all meshes, all facets", "why_tests_cant": "All meshes and all ways the cells were oriented and created.", "anchors": ["lib/mito/mesh/Mesh.h: isOnBoundary", "lib/mito/mesh/Boundary.icc: boundary, boundary_size"]}
{"id": "C27", "title": "The boundary of a mesh is the facets owned once, and is closed", "statement": "boundary(mesh) contains each boundary facet exactly once, boundary_size counts them, and for a consistently oriented mesh every (N-2)-face occurs in the boundary equally often with each orientation (the boundary has no boundary).", "quantifier": "all meshes of consistently oriented cells", "why_tests_cant": "A homological identity over all complexes.", "anchors": ["lib/mito/mesh/Boundary.icc"]}
{"id": "C28", "title": "Mesh content follows the insertions and erasures", "statement": "The cells of a mesh are exactly those inserted and not erased, nCells counts them, and erasing a cell leaves every other cell alone.", "quantifier": "all histories of insert/erase", "why_tests_cant": "Histories with slot reuse.", "anchors": ["lib/mito/mesh/Mesh.h: insert, erase, nCells, cells"]}
{"id": "C29", "title": "Filtering a mesh enumerates the sub-cells", "statement": "filter<I>(mesh) visits every I-dimensional sub-cell of every cell; the number of insertions for a mesh of n N-cells is n times the number of chains of faces from N down to I.", "quantifier": "all meshes, all N >= I", "why_tests_cant": "All meshes and dimensions.", "anchors": ["lib/mito/mesh/Filter.icc"]}
{"id": "C30", "title": "Subdivision multiplies the cells by 2^N per level", "statement": "tetra(mesh, n) has exactly nCells * 2^(N*n) cells, each an N-simplex on existing nodes.", "quantifier": "all meshes of simplices that were requested by their vertices or by compositions listed as those requests list them, all coordinate systems, all numbers of subdivisions, N = 1, 2, 3", "why_tests_cant": "Unbounded recursion depth.", "anchors": ["lib/mito/mesh/tetra.h"]}
{"id": "C31", "title": "Subdivision tiles each cell with equal volumes and the same orientation", "statement": "The children of a simplex have signed volume equal to the parent's divided by 2^N each, so the volume of tetra(mesh,n) is that of mesh and no child is inverted; the children cover the simplex, lie in it, and have disjoint interiors.", "quantifier": "all positions of the vertices (real coordinates), all subdivision depths", "why_tests_cant": "A polynomial identity over all coordinates and all depths.", "anchors": ["lib/mito/mesh/tetra.h: subdivision base case and recursion", "lib/mito/geometry/CoordinateSystem.h: midpoint"]}
{"id": "C32", "title": "Subdivision of a conforming mesh is conforming", "statement": "Two cells of the mesh that share an edge share the midpoint node of that edge after subdivision.", "quantifier": "all meshes with two cells sharing an edge", "why_tests_cant": "Ranges over all meshes; a count of cells cannot see it.", "anchors": ["lib/mito/mesh/tetra.h"]}
{"id": "C33", "title": "Partitioning covers each cell once", "statement": "The partitions of a mesh for ranks 0..P-1 are disjoint and their union is the mesh, for any assignment returned by the external partitioner; the connectivity handed to it lists, for each cell, the indices of its vertices under one dense injective numbering.", "quantifier": "all meshes, all numbers of partitions, all outputs of the external partitioner in range", "why_tests_cant": "All meshes and all colourings.", "anchors": ["lib/mito/mesh/metis/Partitioner.icc"]}
{"id": "C34", "title": "Summit writer and reader are inverse", "statement": "Reading what the summit writer wrote yields a mesh with the same number of cells and, up to the renaming of nodes, the same node coordinates and the same connectivity in the same order; the indices written are 1-based, dense and one per distinct point.", "quantifier": "all meshes", "why_tests_cant": "A round trip over all meshes and sharing patterns.", "anchors": ["lib/mito/io/summit/MeshSummitWriter.h", "lib/mito/io/summit/reader.h", "lib/mito/io/summit/summit_cell.h"]}
{"id": "C35", "title": "VTK output numbers points densely and once", "statement": "The VTK writers assign to the distinct nodes of the mesh the numbers 0..n-1, each node one number, in order of first encounter; every cell refers to the numbers of its own nodes in its own order; fields are written in the same order as the points.", "quantifier": "all meshes and fields", "why_tests_cant": "All sharing patterns.", "anchors": ["lib/mito/io/vtk/MeshVTKWriter.h", "lib/mito/io/vtk/FieldVTKWriter.h", "lib/mito/io/vtk/NodeVTKWriter.h"]}
{"id": "C36", "title": "A coordinate system remembers the coordinates of each point", "statement": "After place(p,x) of a point not placed before, coordinates(p) is x from then on, and placing it again is rejected; other points are unaffected; looking up a point never placed fails; midpoint(a,b) is the average, and is symmetric; changing the coordinates of the whole system keeps every point and every distance between points.", "quantifier": "all histories of place and all points", "why_tests_cant": "Map laws over all histories.", "anchors": ["lib/mito/geometry/CoordinateSystem.h: place, coordinates, midpoint"]}
{"id": "C37", "title": "Cartesian coordinates form an affine space", "statement": "A + (B - A) = B, (A + u) + v = A + (u + v), A - A = 0, (B - A) + (C - B) = C - A, A + 0 = A, and a midpoint is equidistant from its ends; in every kind of coordinates the distance of two points is the Euclidean distance of their positions.", "quantifier": "all points and vectors of any dimension (real arithmetic)", "why_tests_cant": "Algebra over all coordinates.", "anchors": ["lib/mito/geometry/cartesian/algebra.h", "lib/mito/geometry/algebra_coordinates.h", "lib/mito/coordinates/Coordinates.h"]}
{"id": "C38", "title": "Polar and spherical transformations invert", "statement": "Transforming coordinates polar->cartesian->polar and spherical->cartesian->spherical returns the original coordinates on the regular domain, and cartesian->curvilinear->cartesian is the identity away from the axis.", "quantifier": "all real coordinates in the chart domain", "why_tests_cant": "Transcendental identity over a continuum.", "anchors": ["lib/mito/geometry/coordinate_transformation.h", "lib/mito/geometry/polar/algebra.h", "lib/mito/geometry/spherical/algebra.h"]}
{"id": "C39", "title": "The i-th coordinate function returns the i-th coordinate", "statement": "cartesian x_0, x_1, x_2 applied to a point return its first, second and third coordinate.", "quantifier": "all coordinates", "why_tests_cant": "Holds for all inputs or not at all; a test with equal coordinates does not see a swap.", "anchors": ["lib/mito/geometry/cartesian/api.h: x_0, x_1, x_2"]}
{"id": "C40", "title": "Metric and inverse metric agree", "statement": "For cartesian, polar and spherical metrics, g composed with g_inv is the identity on the regular domain, the volume density is the square root of det g, and the dual one-forms dx_i evaluate to 1 on e_i and 0 on e_j.", "quantifier": "all points of the chart domain", "why_tests_cant": "Identity over a continuum.", "anchors": ["lib/mito/geometry/metric_space.h", "lib/mito/geometry/polar/metric.h", "lib/mito/geometry/spherical/metric.h", "lib/mito/geometry/cartesian/metric.h"]}
{"id": "C41", "title": "Wedge products of one-forms are alternating and multilinear", "statement": "wedge(a,b) and wedge(a,b,c) of one-forms change sign under exchange of two arguments or of two forms, vanish on repeated arguments, and are linear in each argument.", "quantifier": "all one-forms and vectors", "why_tests_cant": "Algebraic law over all forms and vectors.", "anchors": ["lib/mito/tensor/wedge.h", "lib/mito/tensor/Form.h"]}
{"id": "C42", "title": "Wedge of a one-form and a two-form is alternating and associative", "statement": "wedge(b, a) for a one-form b and a two-form a is alternating and wedge(a, wedge(b,c)) = wedge(a,b,c).", "quantifier": "all one-forms and vectors", "why_tests_cant": "An identity that a test on parallel or basis-aligned vectors can miss.", "anchors": ["lib/mito/tensor/wedge.h"]}
{"id": "C43", "title": "Form algebra evaluates pointwise and contraction fills slots in order", "statement": "Sums, differences and scalar multiples of forms evaluate pointwise; contracting some slots leaves a form in the remaining ones in the same order; tensor products evaluate to products.", "quantifier": "all forms and arguments", "why_tests_cant": "All forms and slot patterns.", "anchors": ["lib/mito/tensor/Form.h", "lib/mito/tensor/forms_algebra.h", "lib/mito/tensor/tensor.h"]}
{"id": "C44", "title": "Volume is oriented, additive and independent of even reordering", "statement": "The volume of a cell computed by the manifold is 1/N! times the determinant of its edge vectors; it is invariant under even permutations of the nodes and under translation, changes sign under odd permutations, and the volume of a mesh is the sum over its cells.", "quantifier": "all node positions, N = 1, 2, 3", "why_tests_cant": "Polynomial identity over all positions.", "anchors": ["lib/mito/manifolds/Manifold.h: volume, _volume", "lib/mito/geometry/utilities.h: directors", "lib/mito/geometry/metric_space.h"]}
{"id": "C45", "title": "Symbolic derivatives are derivatives", "statement": "For every function expression built from the library's operations, derivative<I>(f) evaluated at x equals the partial derivative of f with respect to the I-th coordinate at x, wherever the sub-expressions are differentiable.", "quantifier": "all expressions of any depth, all points of the domain", "why_tests_cant": "Structural induction over expressions and a limit over reals.", "anchors": ["lib/mito/functions/derivation_rules.h", "lib/mito/functions/library_derivatives.h", "lib/mito/functions/function.h"]}
{"id": "C46", "title": "Function algebra evaluates pointwise", "statement": "The functions built by +, -, *, /, composition, power and scalar operations evaluate to the operation applied to the values.", "quantifier": "all expressions, all points", "why_tests_cant": "All expressions; operator overloads select different node types.", "anchors": ["lib/mito/functions/algebra.h", "lib/mito/functions/function.h"]}
{"id": "C47", "title": "Gradient and divergence satisfy the product rules", "statement": "gradient and divergence of fields are the arrays of partial derivatives, divergence is the trace of the gradient, and they are linear and obey the Leibniz rules.", "quantifier": "all differentiable fields built from the library's functions", "why_tests_cant": "Continuum identity.", "anchors": ["lib/mito/fields/differential.h", "lib/mito/functions/partial_derivatives.h"]}
{"id": "C48", "title": "Shape functions form a nodal basis", "statement": "The P1 segment, P1 triangle and P2 triangle shape functions sum to one everywhere, equal one at their own node and zero at the others, and reproduce every polynomial of their degree.", "quantifier": "all points of the parametric space, all polynomials of the degree", "why_tests_cant": "Identity over a continuum.", "anchors": ["lib/mito/fem/elements/seg1/ShapeSegmentP1.h", "lib/mito/fem/elements/tri1/ShapeTriangleP1.h", "lib/mito/fem/elements/tri2/ShapeTriangleP2.h"]}
{"id": "C49", "title": "Element gradients are exact for linear fields", "statement": "The gradients of shape functions in physical space sum to zero, and the gradient of the interpolant of an affine field is that field's gradient, for every non-degenerate element; det of the jacobian is the (signed) measure ratio.", "quantifier": "all non-degenerate elements", "why_tests_cant": "Rational identity over all node positions.", "anchors": ["lib/mito/fem/elements/seg1/IsoparametricSegmentP1.h", "lib/mito/fem/elements/tri1/IsoparametricTriangleP1.h", "lib/mito/fem/elements/tri2/IsoparametricTriangleP2.h"]}
{"id": "C50", "title": "Quadrature rules have their advertised degree of precision", "statement": "Each quadrature table integrates every polynomial of total degree at most its order on the reference simplex: exactly for the rational tables, up to an explicit bound for the tables written in decimals.", "quantifier": "all polynomials of the degree", "why_tests_cant": "All polynomials (a vector space), not samples.", "anchors": ["lib/mito/quadrature/quadrature_tables_segments.icc", "lib/mito/quadrature/quadrature_tables_triangles.icc", "lib/mito/quadrature/quadrature_tables_tetrahedra.icc", "lib/mito/quadrature/Integrator.h"]}
{"id": "C51", "title": "Elementary matrices have the structure of the bilinear form", "statement": "The grad-grad and mass elementary matrices are symmetric and positive semidefinite for positively oriented elements; the grad-grad matrix annihilates constants; the entries of the mass matrix sum to the volume of the element.", "quantifier": "all elements, all quadrature rules with positive weights summing to one", "why_tests_cant": "All elements and all nodal vectors.", "anchors": ["lib/mito/fem/blocks/GradGradBlock.h", "lib/mito/fem/blocks/MassBlock.h", "lib/mito/fem/blocks/SourceTermBlock.h", "lib/mito/fem/blocks/L2NormBlock.h"]}
{"id": "C52", "title": "Equation numbering is a bijection on the unconstrained nodes", "statement": "The discrete system numbers the unconstrained nodes 0..n-1 without gaps or repetition, where n is the reported number of equations, and gives no equation to a constrained node.", "quantifier": "all connectivities and constraint sets", "why_tests_cant": "All meshes and constraint sets.", "anchors": ["lib/mito/fem/DiscreteSystem.h: _build_equation_map"]}
{"id": "C53", "title": "Assembly sums the elementary contributions", "statement": "The assembled matrix entry (i,j) is the sum over elements and local node pairs of the elementary entries whose nodes have equations i and j, the right-hand side likewise; the result does not depend on the order of elements and is symmetric if the elementary matrices are.", "quantifier": "all element lists, elementary matrices and numberings", "why_tests_cant": "All orders and all connectivities.", "anchors": ["lib/mito/fem/DiscreteSystem.h: assemble"]}
{"id": "C54", "title": "Reading the solution sets every unconstrained node and only those; constrained nodes carry the prescribed value", "statement": "After the solution is read, each unconstrained node has the value of its equation and each constrained node has the value prescribed by the Dirichlet condition.", "quantifier": "all solutions, all constraint sets and prescribed values", "why_tests_cant": "All boundary data; homogeneous data hides a dropped imposition.", "anchors": ["lib/mito/fem/DiscreteSystem.h: read_solution", "lib/mito/constraints/Dirichlet.h"]}
{"id": "C55", "title": "Continuous discretisation shares nodes exactly where the mesh does", "statement": "Two cells share a discretisation node exactly when they share the mesh node (and, at second order, the mid-node exactly when they share the edge); constrained discretisation nodes are exactly those on the constrained mesh nodes (edges).", "quantifier": "all meshes and constraint sets", "why_tests_cant": "All sharing patterns.", "anchors": ["lib/mito/fem/elements/seg1/DiscretizerCG.h", "lib/mito/fem/elements/tri1/DiscretizerCG.h", "lib/mito/fem/elements/tri2/DiscretizerCG.h"]}
{"id": "C56", "title": "Material laws are consistent", "statement": "For the linear elastic and the Gent material, stress is the derivative of the energy with respect to the deformation and the tangent moduli are the derivative of the stress; the tangents have major symmetry.", "quantifier": "all deformations in the domain and all material parameters", "why_tests_cant": "Derivative identities over a continuum, random sampling only approximates.", "anchors": ["lib/mito/materials/LinearElastic.h", "lib/mito/materials/Gent.h"]}
{"id": "C57", "title": "Flipping a diagonal replaces two triangles of a quadrilateral by the other two", "statement": "flip_diagonal of two consistently oriented triangles sharing an edge returns two triangles on the opposite diagonal with the same outer boundary and orientation; applying it twice gives back the original pair up to order.", "quantifier": "all states and all pairs of distinct triangles sharing exactly one edge", "why_tests_cant": "Depends on addresses (set order) and on pre-existing simplices.", "anchors": ["lib/mito/topology/FlipDiagonal.icc"]}
{"id": "C58", "title": "A discrete field is a finite map", "statement": "insert then read returns the value; inserts of other nodes do not disturb it; reading a node never inserted fails.", "quantifier": "all histories", "why_tests_cant": "Map laws over all histories.", "anchors": ["lib/mito/discrete/DiscreteField.h"]}
{"id": "C59", "title": "Solver options are prefixed word by word", "statement": "Prepending the solver prefix to an options string prefixes exactly the words that start with '-' and leaves the other words and their order unchanged.", "quantifier": "all option strings and prefixes", "why_tests_cant": "All strings.", "anchors": ["lib/mito/matrix_solvers/backend/petsc/PETScKrylovSolver.cc: prepend_options_prefix"]}
{"id": "C60", "title": "Integration is linear and additive over cells", "statement": "integrate(f) is linear in f, additive over disjoint unions of elements, equals c times the volume for a constant c, and for a field constant on each cell is the sum of value times volume.", "quantifier": "all fields, meshes and quadrature rules", "why_tests_cant": "All fields and meshes.", "anchors": ["lib/mito/quadrature/Integrator.h: integrate"]}
{"id": "C61", "title": "Iterating a repository visits exactly the resources in use", "statement": "If clients erase a resource only through its last pointer, a range-for over the repository visits, once each and in slot order, exactly the resources that were emplaced, not erased and are held by at least one shared pointer; size() counts the resources emplaced and not erased; a resource in the repository keeps its value.", "quantifier": "all segment sizes, all finite histories of emplace, pointer copy, pointer drop and erase that respect the rule", "why_tests_cant": "Depends on how counts, erasures and slot reuse interleave.", "anchors": ["lib/mito/utilities/Repository.h: emplace, erase, begin, end, size", "lib/mito/utilities/SegmentedContainerIterator.h", "lib/mito/utilities/Shareable.icc: is_valid"]}
{"id": "C62", "title": "A repository erases a resource only if nobody else uses it", "statement": "As documented above Repository::erase: erasing a resource to which another shared pointer exists does nothing; a pointer in use keeps designating its resource.", "quantifier": "all histories of emplace, copy, drop and erase", "why_tests_cant": "Ranges over all sharing patterns at the time of the erase.", "anchors": ["lib/mito/utilities/Repository.h: erase (comment lines 100-102)"]}
{"id": "C63", "title": "Repository slots are recycled", "statement": "emplace never returns a location that holds a resource; it reuses the locations of erased resources, first erased first, before taking new storage. (The class comment also promises that unused resources are overwritten by the next emplace.)", "quantifier": "all histories of emplace, copy, drop and erase that erase a resource only through its last pointer", "why_tests_cant": "Storage recycling depends on the whole history.", "anchors": ["lib/mito/utilities/Repository.h: class comment lines 43-46, emplace, erase", "lib/mito/utilities/SegmentedAllocator.h: location_for_placement"]}
{"id": "C64", "title": "An accepted composition is a simplex", "statement": "Two oriented vertices are accepted as a segment exactly when the vertices differ and their orientations are opposite; three segments accepted as a triangle are the three sides ab, bc, ca of three distinct vertices; four triangles accepted as a tetrahedron are its four faces.", "quantifier": "all reachable states of the topology, all compositions", "why_tests_cant": "All states and compositions; the check only adds up orientations.", "anchors": ["lib/mito/topology/utilities.h: isValid", "lib/mito/topology/OrientedSimplexFactory.h: orientedSimplex", "lib/mito/topology/Simplex.h: sanityCheck"]}
{"id": "C65", "title": "The simplex returned for a composition has these members", "statement": "composition() of the simplex returned for a composition is, up to an even reordering, the composition it was asked for.", "quantifier": "all reachable states, all accepted compositions", "why_tests_cant": "Depends on which footprints pre-exist and how their members were oriented.", "anchors": ["lib/mito/topology/OrientedSimplexFactory.h: orientedSimplex", "lib/mito/topology/SimplexFactory.h: simplex", "lib/mito/topology/OrientedSimplex.h: composition"]}
{"id": "C66", "title": "Removing duplicates keeps one cell of each kind", "statement": "erase_topological_duplicates keeps, of the cells with the same footprint, exactly the one a loop over the mesh visits first, and erases all others; erase_geometrical_duplicates does the same for cells with the same oriented simplex. The loop that erases while it iterates never reads an invalid location.", "quantifier": "all histories of the mesh, all multiplicities of cells", "why_tests_cant": "Erasure during iteration over a container with erased slots, for all contents.", "anchors": ["lib/mito/mesh/Mesh.h: erase_topological_duplicates, erase_geometrical_duplicates"]}
{"id": "C67", "title": "Metric equivalents represent what they convert", "statement": "The inner product of the metric equivalent of a one-form with any vector is the value of the form at that vector; the metric equivalent of a vector is the one-form whose value at any vector is its inner product with that vector; the two conversions undo each other.", "quantifier": "all charts the library provides, all points where the chart is regular, all one-forms and vectors", "why_tests_cant": "All points, forms and vectors of a continuum.", "anchors": ["lib/mito/geometry/metric_space.h: metric_equivalent"]}
{"id": "C68", "title": "The field read from a solved system satisfies the assembled equations with homogeneous data", "statement": "If the vector the solver returns solves the linear system that was assembled from an empty one, then the field read from it is zero at every constrained node and satisfies, at every other node, the equation whose coefficients and right-hand side are the sums of the elementary ones.", "quantifier": "all element lists, elementary matrices and vectors, constraint sets and solutions of the system", "why_tests_cant": "All meshes and operators; a numbering error in one place cancels another on regular meshes.", "anchors": ["lib/mito/fem/DiscreteSystem.h: assemble, read_solution, solution", "lib/mito/fem/FunctionSpace.h: fem_field"]}
{"id": "C69", "title": "Integrals sample the field at points of the cells, in every coordinate system", "statement": "Whatever the coordinate system of the manifold (Cartesian, polar, spherical), integrate(f) is defined and depends only on the values of f at points of the cells.", "quantifier": "all coordinate systems, meshes, fields and quadrature tables", "why_tests_cant": "The tests integrate in Cartesian coordinates only; the claim is about every chart and field.", "anchors": ["lib/mito/quadrature/Integrator.h: _computeQuadPointCoordinates", "lib/mito/geometry/GeometricSimplex.h: parametrization", "lib/mito/geometry/polar/algebra.h", "lib/mito/geometry/spherical/algebra.h"]}
{"id": "C70", "title": "The norms of the error between two fields on a finite element mesh", "statement": "compute_l2_norm(u, v) is the square root of the sum over the elements of the quadrature of the square of u - v, hence a distance (nonnegative, symmetric, zero only when the fields agree at the quadrature points, triangle inequality), exact for polynomial fields and rules of twice the degree, whatever the order of the elements; compute_h1_norm(u, v) is the same with the square of the gradient of u - v added.", "quantifier": "all meshes of linear segments, linear and quadratic triangles, all nodal fields and functions of the position, all rules with nonnegative weights", "why_tests_cant": "A continuum of meshes and fields; on elements of unit size a missing scale factor does not show.", "anchors": ["lib/mito/fem/norms.h: compute_l2_norm, compute_h1_norm", "lib/mito/fem/localize.h", "lib/mito/fem/blocks/L2NormBlock.h"]}
{"id": "C71", "title": "The material consistency test accepts consistent materials and rejects the others", "statement": "test_stress (test_tangents) compares, component by component and at the given deformation, the central differences of the energy (stress) with the analytical stress (tangents): it passes for small perturbations if and only if the stress is the derivative of the energy. A passed test bounds the error of every component by tolerance / (2 perturbation).", "quantifier": "all materials with a differentiable energy, all deformations, perturbations and tolerances", "why_tests_cant": "The test is itself a sampling of one deformation; what its verdict means is a statement about all materials and perturbations.", "anchors": ["lib/mito/materials/MaterialConsistencyTest.h: test_stress, test_tangents"]}
{"id": "C72", "title": "A finite element problem from its elements to the field of its solution", "statement": "On a mesh of elements with positive jacobians in which every node is linked to a constrained node by a chain of elements, the matrix assembled from the stiffness blocks is symmetric and positive definite, the system has exactly one solution, and the field read from it is zero at the constrained nodes, satisfies the weak form of the Poisson equation against every nodal field that vanishes there, and is the only minimiser of the energy among these fields. If some node is not linked to a constrained one the matrix is singular. The mass blocks give a positive definite matrix without constraints, and the solution of a projection problem is the nodal field closest to the source in the mean square: it reproduces nodal fields and polynomials of the order of the element.", "quantifier": "all meshes of linear segments, linear and quadratic triangles with positive jacobians, all constraint sets, sources and rules with nonnegative weights that see the gradients (or the values)", "why_tests_cant": "All meshes and sources; a test solves one system and compares with one manufactured solution up to a tolerance.", "anchors": ["benchmarks/mito.lib/pdes/poisson.cc", "lib/mito/fem/DiscreteSystem.h: assemble, read_solution, solution", "lib/mito/fem/FunctionSpace.h: fem_field", "lib/mito/fem/blocks/GradGradBlock.h", "lib/mito/fem/blocks/MassBlock.h", "lib/mito/fem/blocks/SourceTermBlock.h"]}
{"id": "C73", "title": "On a line the linear finite element solution is exact at the nodes", "statement": "For the equation -u'' = f on a chain of linear segments, held at both ends at zero, with a polynomial f and a quadrature rule exact to one degree more, the field read from the solved system equals the exact solution at every node, whatever the sizes of the segments.", "quantifier": "all chains of segments, all polynomial sources, all rules exact to the degree", "why_tests_cant": "All meshes and polynomials, and equality rather than agreement up to a tolerance.", "anchors": ["benchmarks/mito.lib/pdes/poisson.cc", "lib/mito/fem/elements/seg1/IsoparametricSegmentP1.h", "lib/mito/fem/DiscreteSystem.h: assemble, solution"]}
{"id": "C74", "title": "The Poisson program: from a mesh to the solution of the equation", "statement": "Given a mesh of segments or triangles with positive volume, a part of its boundary on which the solution is zero and to which every node is linked by cells, a quadrature rule that sees the gradients, a source and a linear solver that solves symmetric positive definite systems, the program (discretize with linear or quadratic elements, build the weak form and the discrete system, solve) terminates without error, and the values it leaves at the nodes of the mesh and of the elements are those of a continuous function, a polynomial of the order of the elements on each cell, zero on the constrained part, that satisfies the weak form of the equation against every other such function. There is only one such function.", "quantifier": "all meshes, constraint domains, sources, rules and orders in which the tables are visited; linear segments, linear and quadratic triangles; debug and release", "why_tests_cant": "All meshes, sources and test functions; a test runs one mesh and compares one norm with a tolerance. The statement joins every step of the library from the mesh to the field.", "anchors": ["benchmarks/mito.lib/pdes/poisson.cc", "lib/mito/fem/elements/seg1/DiscretizerCG.h", "lib/mito/fem/elements/tri1/DiscretizerCG.h", "lib/mito/fem/elements/tri2/DiscretizerCG.h", "lib/mito/fem/DiscreteSystem.h: DiscreteSystem, assemble, read_solution", "lib/mito/solvers/LinearSolver.h: solve"]}
{"id": "C75", "title": "Solving again gives the same solution", "statement": "However many times solve is called on a discrete system whose weak form does not change, the field of the solution is the one after the first call, and it satisfies the equations of the weak form, if their matrix is symmetric and positive definite.", "quantifier": "all meshes, weak forms with a positive definite matrix, constraints, numbers of calls and linear solvers that solve such systems", "why_tests_cant": "Any number of calls; the calls leave different matrices in the linear system, which a test that solves once does not see.", "anchors": ["lib/mito/solvers/LinearSolver.h: solve", "lib/mito/fem/DiscreteSystem.h: assemble, read_solution", "lib/mito/matrix_solvers/backend/petsc/PETScLinearSystem.cc: add_matrix_value, add_rhs_value"]}
{"id": "C76", "title": "solve solves the equations of the weak form as it is at the call", "statement": "After a call of solve, the field of the solution satisfies the equations of the weak form given to the discrete system as it is at the time of the call, also if blocks were added to it since an earlier call.", "quantifier": "all meshes, constraints, and sequences of calls and changes of the weak form", "why_tests_cant": "All sequences of calls and changes.", "anchors": ["lib/mito/solvers/LinearSolver.h: solve", "lib/mito/fem/DiscreteSystem.h: assemble", "lib/mito/fem/Weakform.h: add_block"]}
{"id": "C77", "title": "A linear system that was not solved does not pass for a solution", "statement": "When solve returns without an exception or a failed assertion, the field of the solution satisfies the equations of the weak form.", "quantifier": "all meshes, weak forms, constraints and outcomes of the linear solver", "why_tests_cant": "All systems and outcomes of the solver, including those that do not converge.", "anchors": ["lib/mito/solvers/LinearSolver.h: solve", "lib/mito/matrix_solvers/backend/petsc/PETScKrylovSolver.cc: solve"]}
{"id": "C78", "title": "The divergence theorem holds for what is computed on a mesh of triangles and on its boundary", "statement": "On a consistently oriented mesh of triangles in the plane, for a vector field with polynomial components, the integral of the divergence over the mesh (metric volume form) and the integral over mito::mesh::boundary(mesh) of the component of the field along the outward normal (volume form contracted with the normal) are computed without error and are equal: exactly for the quadrature rules written in fractions, and up to the digits of the table for the others.", "quantifier": "all meshes reachable by the operations of the library (holes and several components included), all orders in which the tables are visited, all positions of the nodes, all polynomial fields of the degree of the rules, all normal fields of the boundary, debug and release", "why_tests_cant": "All meshes, positions and polynomials; the test has one square of four triangles, one field and a tolerance. The statement joins the orientation of simplices, the boundary, the forms and the integrator.", "anchors": ["tests/mito.lib/integration/divergence_theorem.cc", "lib/mito/mesh/Boundary.h", "lib/mito/topology/Topology.icc: triangle, segment", "lib/mito/manifolds/Manifold.h: Manifold, volume", "lib/mito/manifolds/factories.h: submanifold", "lib/mito/quadrature/Integrator.h: integrate", "lib/mito/functions/derivation_rules.h", "lib/mito/fields/differential.h: divergence"]}
{"id": "C79", "title": "The divergence theorem holds for what is computed on a mesh of tetrahedra and on its boundary", "statement": "The same as C78 for meshes of tetrahedra in space and their boundary triangles.", "quantifier": "all meshes of tetrahedra reachable by the operations of the library, all positions of the nodes, all polynomial fields of the degree of the rules, all normal fields of the boundary, debug and release", "why_tests_cant": "All meshes, positions and polynomials; there is no test in three dimensions.", "anchors": ["lib/mito/mesh/Boundary.h", "lib/mito/topology/Topology.icc: tetrahedron", "lib/mito/manifolds/factories.h: submanifold", "lib/mito/quadrature/Integrator.h: integrate"]}
{"id": "C80", "title": "Refinement does not change integrals", "statement": "Refining a mesh of cells of full dimension in Cartesian coordinates changes no integral: for every function continuous on the cells the integrals over the cells exist and their sum over the refined mesh is their sum over the mesh, and the number that the integrator computes for a polynomial of the degree of its rule is the same on both meshes.", "quantifier": "all meshes of segments, triangles and tetrahedra, depths of refinement, continuous functions, polynomials of the degree of the rule, positions of the nodes, orders in which the tables are visited, debug and release", "why_tests_cant": "All meshes, depths and functions. The statement joins the refinement, the coordinate system and the integrator.", "anchors": ["lib/mito/mesh/tetra.h: tetra, subdivide", "lib/mito/quadrature/Integrator.h: integrate", "lib/mito/quadrature/quadrature_tables_triangles.icc"]}
{"id": "C81", "title": "Refined cells are small and keep their shape", "statement": "After n levels of refinement every cell is small, its edges tending to zero with n, and has the shape of the cell it was made from, or at least one of a bounded distortion (the ratio of the cube of an edge to the volume does not grow without bound).", "quantifier": "all meshes of segments, triangles and tetrahedra, depths, positions of the nodes and coordinate systems", "why_tests_cant": "All depths and shapes: the distortion of a bad sequence of children shows only as the depth grows.", "anchors": ["lib/mito/mesh/tetra.h: tetra, subdivide"]}
{"id": "C82", "title": "Quadrature converges under refinement", "statement": "For every function continuous on the cells of a mesh, the values that the integrator computes on the refined meshes converge to the integral of the function as the number of levels grows, whatever the rule; for a Lipschitz function the error is at most a constant times 2^-n after n levels on segments and triangles (2^(-n/2) on tetrahedra, which the refinement does not keep in shape), with the constant given by the function and the size of the mesh; with the rules that are exact for affine functions and a function that is within a multiple of d^2 of its linear expansions at distance d, the error is at most a constant times 4^-n on segments and triangles and 2^-n on tetrahedra.", "quantifier": "all meshes of cells of full dimension in Cartesian coordinates, all continuous functions, all rules, all tolerances", "why_tests_cant": "A limit over all depths, for all continuous functions.", "anchors": ["lib/mito/mesh/tetra.h: tetra", "lib/mito/quadrature/Integrator.h: integrate", "lib/mito/quadrature/QuadratureTable.h"]}
{"id": "C83", "title": "The Poisson solver on a line has the known accuracy", "statement": "For - u'' = f on an interval with a polynomial source and u zero at the constrained ends, discretised with linear segments of any sizes, the field computed by the program agrees with u at every node; at every point of a segment of length h it differs from u by at most M h^2 / 8 and its slope from u' by at most M h, where M bounds |f|; the L2 norm of the difference reported by the library is at most M h^2 / 8 times the square root of the length of the mesh, and is below any given positive number on every sufficiently fine mesh.", "quantifier": "all chains of segments of any number and sizes, all polynomial sources and solutions, all quadrature rules exact to the needed degree, all orders of visiting, all solvers that solve the linear system", "why_tests_cant": "The tests run the Poisson driver on a few meshes and compare with the exact solution to a tolerance; the bound for every mesh and source, and convergence, are statements about infinitely many meshes.", "anchors": ["benchmarks/mito.lib/pdes/poisson.cc", "lib/mito/fem/blocks/GradGradBlock.h", "lib/mito/fem/blocks/SourceTermBlock.h", "lib/mito/fem/blocks/L2NormBlock.h", "lib/mito/solvers/LinearSolver.h"]}
{"id": "C84", "title": "A nonnegative source gives a nonnegative field", "statement": "The Poisson program with homogeneous constraints gives a field that is nowhere negative when the source is nowhere negative, and a larger field for a larger source.", "quantifier": "all meshes, sources and admissible quadrature rules", "why_tests_cant": "Needs every mesh and every source; the meshes of the tests are made of well shaped triangles.", "anchors": ["benchmarks/mito.lib/pdes/poisson.cc", "lib/mito/fem/blocks/GradGradBlock.h", "lib/mito/fem/blocks/SourceTermBlock.h", "lib/mito/fem/DiscreteSystem.h", "lib/mito/solvers/LinearSolver.h"]}
{"id": "C85", "title": "A parallel job computes the serial integral", "statement": "A job of any number of processes, each of which loads the same mesh, keeps its partition and integrates a field on it, has every cell of the mesh in the partition of exactly one process, and the sum of the local integrals is the integral that one process computes on the whole mesh.", "quantifier": "all numbers of processes, meshes, paintings of the external partitioner, allocators of the processes, coordinate systems, volume forms, rules, integrands, orders of the reduction, debug and release", "why_tests_cant": "Depends on the addresses in the memory of each process and on the answer of the external partitioner; the test runs one job on one machine with one mesh.", "anchors": ["tests/mito.lib/integration/quadrature_load_mesh_2D_mpi.cc", "lib/mito/mesh/metis/Partitioner.icc", "lib/mito/simulation/Context.icc", "lib/mito/quadrature/Integrator.h: integrate"]}
{"id": "C86", "title": "The Poisson solver on triangles gives the best field and converges", "statement": "For - div grad u = f in the plane with a polynomial solution u that is zero at the constrained sides and has no flux through the others, the field computed by the program with linear or quadratic triangles is, among all fields of the discrete space, the one whose gradient is closest to that of u in the integral of the square; that integral is at most 4 (M h / sigma)^2 times the area of the mesh, where M is the Lipschitz constant of the gradient of u, h the longest side and sigma bounds the area of a triangle over the square of its sides; with quadratic triangles it is also at most (36 M2 h^2 / sigma)^2 times the area, where M2 is the Lipschitz constant of the second derivatives of u; it is below any given positive number on all the meshes of a bounded region with triangles that are fine enough and not too flat.", "quantifier": "all matching meshes of positive triangles, linear and quadratic elements, polynomial solutions of every degree, rules exact to the needed degree, orders of visiting, solvers that solve the linear system, competing fields of the discrete space", "why_tests_cant": "Optimality is against all fields of the space and convergence over all meshes; the tests compare a few meshes with a tolerance.", "anchors": ["benchmarks/mito.lib/pdes/poisson.cc", "lib/mito/fem/blocks/GradGradBlock.h", "lib/mito/fem/blocks/SourceTermBlock.h", "lib/mito/fem/DiscreteSystem.h", "lib/mito/solvers/LinearSolver.h"]}
{"id": "C87", "title": "A VTK file holds the grid and the fields last recorded", "statement": "Whatever the order in which the writers of a program or of the tasks of a parallel job are called, the file of a writer on which write was called holds its grid and, under each name, the values at the nodes of the field last recorded under that name before the last write, as they were when recorded; later records do not change it, the files of the other writers and all other files are not touched.", "quantifier": "all schedules of calls to record and write of any number of writers with distinct files, all meshes, function spaces, point clouds, fields and names", "why_tests_cant": "A statement about every schedule of the tasks and every history of calls; the tests write one file per program and do not read it.", "anchors": ["lib/mito/io/vtk/FieldVTKWriter.h: record, write", "lib/mito/io/vtk/GridVTKWriter.h: write", "lib/mito/io/vtk/ParallelGridVTKWriter.h: write", "lib/mito/io/vtk/factories.h"]}
{"id": "C88", "title": "Different VTK writers write different files", "statement": "Two writers with different names, or two tasks of a job, never write to the same file.", "quantifier": "all names, whatever their characters, and all task numbers", "why_tests_cant": "Ranges over all strings and task numbers; the tests use one name per program.", "anchors": ["lib/mito/io/vtk/GridVTKWriter.h: write", "lib/mito/io/vtk/ParallelGridVTKWriter.h: write", "lib/mito/io/Writer.h"]}
