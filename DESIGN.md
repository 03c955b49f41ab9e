# Formal model of geometry-central: design

The code under /repo (nmwsharp/geometry-central, C++) is read as text and re-expressed function by function
as executable Gallina programs in `rocq/theories`. The theorems are about those programs.

## Layout

| kind | files | content |
|---|---|---|
| model | `*Model.v` | computable definitions only, each citing the file and lines it models |
| spec | `*Spec.v` (or a spec section at the head of a Properties file) | the English property in independent terms |
| proofs | `*Proofs.v` | lemmas |
| properties | `*Properties.v` | `Theorem … exact lemma. Qed.`, a non-vacuity `Example` beside each, `Print Assumptions` |

Conventions of the model

* C++ undefined behaviour (out-of-range access, reading a deleted slot, unbounded loop) is the distinct outcome
  `UB` of the result type `res`; a C++ exception is the distinct outcome `Throw`. Theorems state which outcome occurs.
* `size_t` indices are `Z`; `INVALID_IND` (SIZE_MAX) is `-1`. Wrap-around is only modelled where the property is about it (C37).
* Arrays are lists; reads and writes are bounds-checked against the current length.
* Loops are structural recursion over the iterated range or fuelled recursion; out-of-fuel is `UB`, which theorems exclude.
* Callbacks/containers (`MeshData`) are modelled as arrays transformed by the same expand/permute functions the code registers.
* Floating point numbers are modelled as exact reals (`R`), rationals or an abstract ordered type; rounding is not modelled.

## Plan per property

| id | model | proof |
|---|---|---|
| C01 C02 | parent/rank arrays, find with path compression, merge by rank, marks | forest invariant (rank strictly increases to the parent), refinement to the equivalence closure of the merge list |
| C03 C04 | require count, computed flag, callbacks; dependency lists | invariant over operation lists; induction on a topological order |
| C05 C06 C07 C08 C55 C58 | container = list + default; expand, permute, toVector, fromVector, iteration over a dead pattern | list lemmas; permutation theorem combined with the compress model |
| C09 C10 C11 C12 C13 C14 C15 C16 C17 C18 C19 C20 C26 C27 C51 C56 C57 | the implicit-twin halfedge mesh record with heNext, heVertex, heFace, vHalfedge, fHalfedge and counters; each mutation as a monadic program | validity = next is a permutation, incidence identities, orbit connectivity, representative and boundary conventions, counters; symbolic execution then case analysis and orbit simulation |
| C21 C06 | compress* as filter + rewrite of arrays | isomorphism by monotone maps |
| C22 C23 | polygon constructor with an association map for edges | loop invariants |
| C17 C20 C47 | collapseEdgeTriangular as a program; histories that contain it | the result is the image of the old mesh under explicit maps; orbit simulation; count changes per call |
| C24 C25 | copyInternalFields; the arrays written by addMeshConnectivity, the property lists of the file and what the loading constructor reads back | equality / round trip |
| C28–C34 | polygon soup = list of positions + list of index lists + UV lists | list induction; chain algebra for triangulation; BFS invariant for orientation; token-level OBJ writer/reader |
| C35–C38 | integer formulas with the C++ conversions | lia over an independent arc-counting specification |
| C39 C40 | priority queue Dijkstra over an abstract graph with exact lengths | Dijkstra invariant |
| C41 C42 C52 C53 C54 | real formulas | field / nra over R |
| C43 C44 | triplet lists, index maps | list induction |
| C45 | component assembly over segment lists | loop invariant |
| C46 | work-queue loop over an abstract mesh with an edge-local criterion | queue invariant: every violating edge is queued |
| C47 | manager = mesh operations + constraint containers + callback log | refinement per operation |
| C48 | point cloud record | as C05/C06 |
| C49 C73 C74 C75 C76 C77 C78 | general mesh record with explicit twins: heSibling, heOrientation, heEdge, eHalfedge and the circular lists of halfedges around vertices; constructor and each mutation as programs | loop invariants; validity of the record with its sibling and vertex cycles |
| C50 C60 C72 | whole-mesh queries over the mesh record | union-find theorem reused; counting lemmas |
| C59 | the documented flag of flip | refuted by a concrete mesh; what does hold is proved |
| C61 | curve tracing over integer edge coordinates | the tracing step is a bijection on crossings, so every trace ends |
| C62 C63 | matrix checks and files at the level of entries and tokens | list induction |
| C64 C65 C68 C69 C70 | surface points, barycentric vectors, marching triangles over exact reals | case analysis over the element kinds; linear algebra; loop invariant of the assembly |
| C66 C67 | real formulas | field / nra over R |
| C79 C80 C81 | edge lengths in a container; lengths, areas, angles, curvatures, tangent vectors, sparse matrices as loops over the mesh | law of cosines and Heron over R; sums regrouped by faces, edges, vertices; quadratic forms |
| C82 | positions in a container; cross products, normals, atan2 | agreement with C79/C80 through the metric of the positions; vector algebra |
| C83 | one list of triplets per corner, matrices over edges | energy rewritten corner by corner; the positive form of C80 in every triangle |
| C84 | bases as pairs of vectors, directions as pairs of reals, one fuelled loop per vertex | frame orthonormality, ring argument of C82, projection onto the plane |
| C85 | dense local matrices as functions, assembled with the triplets of MatrixModel; weights as an argument | per-corner bilinear forms, Heron's formula, sums over faces as sums over corners |
| C86 | the chain of dense products as written, polygonLambda as an argument | matrices as actions, summation by parts around a face, vector areas |
| C87 | edge lengths as mesh data over the reals, the loop over the corners of all faces | the maximum over the loop bounds and is attained |
| C88 | complex arg and pow over the reals, rounding to nearest | angles modulo full turns, holonomy of a triangle and of a vertex ring, pairing the two sides of each edge |
| C89 | the search over an arbitrary choice among least heap entries, fuelled; eikonal update over the reals | search invariant (finalised vertices are least, every tentative value is explained), a bound on pushes for termination, plane geometry of the update |
| C90 | the class over the reals, division by zero in slerp a distinct outcome | ring identities, Rodrigues' formula, addition theorems |
| C91 | the two loops over the edges and faces of the changing mesh, the marker containers as functions, compress() and its callback | invariants: the split sides of every old halfedge; the quads of the visited faces and the spokes of the current one; orbit arguments keep unvisited faces clear; counting by degree sums |
| C92 | the same, with the position rules of catmullClarkSubdivide | the same; means over any listing of the sides; counterexamples |
| C93 | the split of every original edge of the changing mesh, the markers and the list of edges to flip, the flips, compress() and its callback | invariant: the vertex of each split edge and the halfedges that join it to the ends; edges in the flip list are none of these, each has an old end, and no edge joins two old vertices; corners counted by halfedges. That the faces are the four of each triangle (LoopSpec.FourWay) is stated and refuted for degree two, not proved otherwise |
| C94 | the wrappers around the kd-tree: bounds, removal of the source, squared radius, the loop over a cloud | the library is a parameter with a contract; the list with its source removed, or without its last entry when the source is missing, is again sorted and nearest; the contract is met by sorting |
| C71 | polygon constructor | exact characterisation of the accepted inputs, both directions |

Properties that the code violates are proved in the negative as `…_refuted` with a concrete witness and are listed
under "Findings" below, together with the strongest positive theorem that holds.

## What is modelled, file by file

| part of /repo | model | left out |
|---|---|---|
| `utilities/disjoint_sets.*` | DisjointSetsModel | nothing |
| `utilities/dependent_quantity.*` | QuantityModel | the quantities' contents |
| `utilities/mesh_data.ipp`, `surface/surface_mesh.ipp` callbacks, `pointcloud` | DataModel, MeshDataModel | Eigen views; serialisation |
| `surface/manifold_surface_mesh.cpp` | MeshModel, MeshModel2, MeshBuildModel, CollapseModel, CopyModel, CountModel, MeshCutModel | twins constructor |
| `surface/surface_mesh.cpp` (implicit twins) | MeshModel, MeshCompressModel, CopyModel (copyInternalFields), CountModel (queries) | – (next row) |
| `surface/surface_mesh.cpp` (explicit twins) | GenModel, GenOpsModel, GenTopoModel | copies, compression and data containers of general meshes |
| `surface/rich_surface_mesh_data.*` | RichModel | the happly file format: a file is its list of named properties |
| `surface/intrinsic_geometry_interface.cpp`, `edge_length_geometry.ipp` | IntrinsicModel, CRModel | the order in which quantities are recomputed is QuantityModel |
| `surface/embedded_geometry_interface.cpp`, `extrinsic_geometry_interface.cpp`, `vertex_position_geometry.ipp` | EmbeddedModel, FrameModel, PolyModel | polygon connection Laplacian, polygon DEC operators, virtual vertex weights |
| `surface/simple_polygon_mesh.cpp` | PolygonModel, OrientModel | OFF/STL/PLY files; OBJ below the level of tokens; outwardOrient |
| `surface/intrinsic_mollification.cpp` | FieldModel | – |
| `surface/direction_fields.cpp` | FieldModel (the two index functions) | the smoothest fields (eigenvectors) and the embedded variants |
| `surface/fast_marching_method.cpp` | FastModel | signed distances |
| `utilities/quaternion.cpp` | QuatModel | printing |
| `utilities/knn.cpp`, `pointcloud/neighborhoods.cpp` | KnnModel | nanoflann |
| `surface/subdivide.cpp` | SubdivModel (linear and Catmull-Clark), LoopModel (Loop) | a MutationManager with constraints of its own in loopSubdivide |
| solvers, heat/vector methods, parameterisation | – | all of it (numerical) |
| `surface/mesh_graph_algorithms.cpp` | GraphModel | – |
| `surface/normal_coordinates.*` | NormalModel | geodesic tracing of the curves, roundabouts |
| `numerical/linear_algebra_utilities.*`, `suitesparse` | MatrixModel | solvers; default tolerances |
| `surface/surface_point.*`, `barycentric_coordinate_helpers.*`, `barycentric_vector.*` | PointModel, BaryModel | – |
| `utilities/vector2.*`, `vector3.*`, `elementary_geometry.*` | GeoModel | functions through acos, pow (acos and atan2 appear in IntrinsicModel and EmbeddedModel) |
| `surface/marching_triangles.cpp` | MarchModel | – |
| `surface/simple_idt.cpp`, `intrinsic_triangulation.cpp`, `signpost…` (flip queue) | DelaunayModel | fixDelaunay of remeshing.cpp (stops after 100 nVertices flips), Delaunay refinement |
| `surface/mutation_manager.*` | ManagerModel | policies that mutate the mesh: the user's policies only observe |

Simplifications used throughout: doubles are exact reals or an abstract ordered type, so nothing is said about rounding, NaN or
infinities; a division by zero is excluded by a hypothesis; sizes do not overflow (stated where the code converts to `int`);
`std::sort` is any function returning a sorted permutation; `std::unordered_map`/`map` are association lists.

Histories (C05, C19, C20, C21_flag, C47_history) quantify over every list of calls each of which is legal in the state it meets.
Termination: every modelled loop over a mesh has fuel derived from the mesh's size and the theorems show it suffices; the flip
queue of C46 has no bound, its theorems speak about all runs that return.

## Trusted base

Coq 8.16.1's kernel, including `vm_compute` for the concrete cases, and the correspondence between the C++ text and the Gallina
model, which is by reading only. No axiom is declared. `Print Assumptions` on every theorem of the manifest gives:

* `ClassicalDedekindReals.sig_forall_dec`, `FunctionalExtensionality.functional_extensionality_dep`: C41_halfedge, C41_in_edge_refuted, C41_in_face, C41_interpolate, C41_some_face, C42_to_canonical, C47_before_collapse_refuted, C47_history, C47_split_near, C54_displacement, C54_normalize, C54_project, C64_nearest, C66_complex, C66_remove, C67_ray_segment, C67_rays, C68_add, C68_between_partial, C68_between_refuted, C68_halfedge, C68_in_edge, C68_in_face_partial, C68_normalized, C68_scale, C68_some_face, C68_subtract, C85_prolongation, C86_divergence, C86_gradient_partial, C86_gradient_refuted, C86_laplacian, C86_linear_precision, C87_absolute, C87_relative, C90_linear, C90_matrix, C90_product, C91_degree_one_refuted, C91_linear, C92_boundary_refuted, C92_catmull_clark_partial, C92_rule_refuted, C93_boundary_refuted, C93_degree_two_refuted, C93_loop_partial
* `ClassicalDedekindReals.sig_forall_dec`: C41_in_edge_partial, C42_from_canonical, C47_collapse, C47_collapse_at, C47_collapse_parameter_refuted, C47_reposition, C47_split_at, C68_in_face_refuted
* `ClassicalDedekindReals.sig_forall_dec`, `ClassicalDedekindReals.sig_not_dec`, `FunctionalExtensionality.functional_extensionality_dep`: C46_boundary_refuted, C46_hyperbolic, C46_simple, C46_test, C46_triangulation, C52_area, C52_invalid, C52_layout, C53_distance, C53_distance_2d, C53_nearest, C54_length, C54_length_3d, C66_angle, C66_around, C66_basis, C66_cutoff, C66_norm, C66_rotate, C67_circle, C67_segments, C67_tet, C69_dot, C69_norm, C69_rotate, C69_rotate90, C70_double_edge_refuted, C70_maximal, C70_segments, C70_sides, C70_vertex_refuted, C80_dec, C80_laplacian, C81_face_connection, C81_transport_across, C82_cotan_weights, C82_lengths, C82_mean_curvature_normals, C83_connection, C83_laplacian, C83_mass, C85_dirichlet_energy_partial, C85_laplacian, C85_mass, C85_small_refuted, C86_areas, C86_normals_partial, C86_normals_refuted, C90_norms, C90_rotation, C94_contracts_met, C94_k_nearest, C94_neighborhoods, C94_neighbours, C94_radius
* `ClassicalDedekindReals.sig_forall_dec`, `ClassicalDedekindReals.sig_not_dec`, `Classical_Prop.classic`, `FunctionalExtensionality.functional_extensionality_dep`: C79_areas, C79_corner_angles, C79_gauss_bonnet, C79_scaled_angles, C80_cotan_weights, C80_mass, C81_face_vectors, C81_transport_along, C81_vertex_connection, C81_vertex_vectors, C82_angles, C82_areas, C82_dihedral_angles, C82_mean_curvature, C82_normals, C82_principal_curvatures, C84_face_directions, C84_face_frames, C84_vertex_directions, C84_vertex_frames, C88_boundary_refuted, C88_face_index_partial, C88_opposite_refuted, C88_vertex_index_partial, C89_distances_partial, C89_face_source_refuted, C89_from_vertices, C89_sources_refuted, C90_slerp_partial, C90_slerp_refuted

All of these are axioms of the standard library (its construction of the real numbers and functional extensionality).

Every theorem not listed is `Closed under the global context`.

## Findings

Behaviour of the code that contradicts the property a user would expect. "Theorem" means a machine-checked witness in the model;
"reading" means seen in the source and not modelled.

| where | what | status |
|---|---|---|
| `insertVertexAlongEdge`, `splitEdgeTriangular`, `switchHalfedgeSides` | wrong connectivity when an end of the edge has degree one | C11_degree_one_refuted, C14_degree_one_refuted, C51_degree_one_refuted |
| `switchHalfedgeSides` on a boundary edge | a boundary vertex's representative is no longer the boundary one | C51_boundary_refuted |
| `flip(e, preventSelfEdges)` | can create a self edge | C59_no_self_edge_refuted |
| `compress` with two or more loops | the permutation given to loop containers is reversed | C06_loop_data_refuted |
| `genus()` | boundary loops are counted twice | C60_genus_refuted |
| `FaceData` arithmetic after growth | out of range | C58_face_refuted |
| `setDefault` on a container without elements | no effect on the default of existing storage | C55_no_element_refuted |
| `PointCloud` grown from capacity 0 | capacity stays 0 | C48_grow_from_empty_refuted |
| `unrequire` in excess | the quantity can be dropped while required | C03_excess_unrequire_refuted |
| `vertexDijkstraDistanceWithinRadius` | never unrequires the edge lengths | C40_requirements_refuted |
| `SurfacePoint::inEdge` | the end points are exchanged | C41_in_edge_refuted |
| `checkAdjacent` | true for elements that only share a boundary loop | C65_boundary_refuted |
| `BarycentricVector` between two points of an edge; `inFace` | reversed; accepted by a wrong face | C68_between_refuted, C68_in_face_refuted |
| `marchingTriangles` | level through a vertex; two faces sharing two edges | C70_vertex_refuted, C70_double_edge_refuted |
| `SimplePolygonMesh::triangulate` | UV lists are not triangulated | C31_uvs_refuted |
| OBJ round trip without UVs | the result claims a parameterisation | C34_parameterization_refuted |
| normal coordinates | `cornerCoord` with parallel arcs; int/size_t division; traced curves that end at a vertex reported closed | C37_*_refuted, C61_*_refuted |
| `checkFinite`, `checkHermitian`, matrix files | rows, shapes, rejection | C62_*_refuted, C63_reject_refuted |
| `flipToDelaunay` (free function) | raises an error on every mesh with boundary | C46_boundary_refuted |
| `tetFourthPoint` | only the square of the volume is used: a negative one is accepted | C67_tet |
| `MutationManager::flipEdge` | with a parallel edge, the policies called "before" see the flipped mesh | C47_before_flip_refuted |
| `MutationManager::collapseEdge` | policies told of a collapse that does not happen; parameter −1 with a given position | C47_before_collapse_refuted, C47_collapse_parameter_refuted |
| `MutationManager::removePolicy` | face split policies stay on the list: use after free | C47_removed_policy_refuted |
| `collapseEdgeTriangular` | an edge at the tip of an ear (vertex of degree two on the boundary): another edge is collapsed, the given one stays | C17_merges_refuted |
| `collapseEdgeTriangular` | a vertex of degree two throws instead of returning the null vertex | C17_returns_refuted |
| `collapseEdgeTriangular` | an edge from a vertex to itself nearby (two flips of a tetrahedron): returns a vertex and leaves a live halfedge pointing to a deleted one | C17_self_edges_refuted |
| `MutationManager::collapseEdge` | an allowed edge at the tip of an ear: the call removes an edge marked not collapsible and a vertex marked not repositionable | C47_ear_refuted |
| `SurfaceMesh::duplicateFace` | the new halfedges are allocated as exterior: nInteriorHalfedges() and nCorners() are too small after every call | C75_count_refuted |
| `SurfaceMesh::nConnectedComponents` | general meshes: uses twin(), which is the halfedge itself on the boundary (and runs the same way across a non-oriented edge); a single triangle has 3 components | C50_general_refuted |
| `addMeshConnectivity` / `loadMeshFromFile` | faces and boundary loops are written without the unused slots between them, but heFaceArr is not renumbered: an uncompressed mesh with boundary is read back with face indices out of range | C25_uncompressed_refuted |
| `removeFaceAlongBoundary` | the sides that move to the boundary loop stay counted as interior: nInteriorHalfedges() is too large by three after removing a triangle | C56_count_refuted |
| `removeFaceAlongBoundary` | after removing a polygon only one of the vertices that reach the boundary gets a boundary halfedge: isBoundary() is false for another | C56_polygon_refuted |
| `separateEdge` | one new halfedge is counted as interior although one old one becomes exterior: nInteriorHalfedges() is one too large | C57_count_refuted |
| `separateEdge` | with an end on the boundary, the loop moving the fan takes all faces for triangles: polygons are left inconsistent | C57_polygon_refuted |
| `simplePolygonStiffnessMatrix` | triangles of the fan with twice the area at most 1e-7 are skipped, so the Laplacian of a small mesh is zero | C85_small_refuted |
| `polygonPerFaceGradientMatrix` | gives minus the gradient; the documentation says the gradient, the comment says the sharp of the derivative (the heat solver uses it twice, so the signs cancel there) | C86_gradient_refuted |
| `computeFaceNormals`, `faceNormal` | for five or more sides the sum of corner cross products is not along the vector area: the normal of a counterclockwise three-pointed star points down | C86_normals_refuted |
| `computeFaceIndex`, `computeVertexIndex` | the turning is taken in [-pi, pi) separately for the two faces of an edge, so if the field is exactly opposite at its ends both count half a turn the same way and the indices do not add up to n times the Euler characteristic | C88_opposite_refuted |
| `computeFaceIndex` | the turning along boundary edges is left out of the sum, so at a face on the boundary the index is not the number of turns of the field: a lone triangle has index 1 for a field that does not turn | C88_boundary_refuted |
| `FMMDistance` (fast_marching_method.cpp:173,175) | for a source point inside a face the squared distances to the first and third corner subtract the wrong side (lAB for lBC and the reverse), so the distances of these corners are wrong | C89_face_source_refuted |
| `FMMDistance` (fast_marching_method.cpp:213) | vertices next to any source point are never improved, so with several source points, all at distance 0, a vertex can get a greater distance than the one from another source along an edge | C89_sources_refuted |
| `slerp` (quaternion.cpp:263) | for two quaternions in the same direction it divides by sin(0) and returns NaN, although nothing needs to move | C90_slerp_refuted |
| `catmullClarkSubdivide` (subdivide.cpp:104-105) | a boundary edge has a boundary loop on one side, whose entry in splitFacePositions is the default (0,0,0): the new vertices of boundary edges are drawn halfway to the origin, and the result depends on where the origin is | C92_boundary_refuted |
| `catmullClarkSubdivide` (subdivide.cpp:105,112-114) | the new vertex of an edge is at the mean of the two face points only, and R averages these points instead of the midpoints of the edges: not the rule of Catmull and Clark | C92_rule_refuted |
| `linearSubdivide` (subdivide.cpp:36-43) | where the halfedge() of an edge starts at a vertex of degree one, insertVertexAlongEdge breaks the mesh and the function throws "???" | C91_degree_one_refuted |
| `loopSubdivide` (subdivide.cpp:247-249) | an interior vertex of degree two: flip() refuses to join two vertices that are joined already, the refusal is ignored, and the triangles are not split into four | C93_degree_two_refuted |
| `loopSubdivide` (subdivide.cpp:197-203) | vertices on the boundary are moved with the weights of interior vertices: the boundary curve shrinks and depends on the interior | C93_boundary_refuted |
| `NearestNeighborFinder::kNearest` (knn.cpp:46-48) | k = 0 takes the address of the first element of an empty vector | reading |
| `deleteElement(Halfedge)` of the general mesh | clears the face before testing whether the halfedge is interior | reading |
| `getNewFace`/`getNewBoundaryLoop` | room test uses the number of loops, not of loop slots; capacity doubling from 0 stays 0 | reading |
| `duplicateFace` | the corner count is not updated | reading |
| rich PLY files | connectivity of uncompressed meshes with boundary is not restored | see C25 |
| moved-from `MeshData` | stays registered with the mesh | reading |
| `remeshing fixDelaunay` | gives up after 100·nVertices flips | reading |

## Not modelled

Rounding of floating point numbers, memory allocation failure, file I/O at the byte level, the linear solvers (Eigen/SuiteSparse),
threads (the library is single threaded), visualisation, and the parts named in the table above.
