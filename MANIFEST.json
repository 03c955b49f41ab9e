{
 "claims": [
  {
   "property": "C01",
   "status": "proved",
   "theorems": [
    "C01_union_find"
   ],
   "note": ""
  },
  {
   "property": "C02",
   "status": "proved",
   "theorems": [
    "C02_marked_sets",
    "C02_marked_sets_partition"
   ],
   "note": ""
  },
  {
   "property": "C03",
   "status": "proved",
   "theorems": [
    "C03_required_available",
    "C03_purge",
    "C03_unrequire_throws",
    "C03_excess_unrequire_refuted"
   ],
   "note": "The property excludes excess unrequire calls; C03_excess_unrequire_refuted shows what the code does in that case."
  },
  {
   "property": "C04",
   "status": "proved",
   "theorems": [
    "C04_evaluation_order"
   ],
   "note": "Proved for any already-computed set (not only dependency-closed ones)."
  },
  {
   "property": "C05",
   "status": "proved",
   "theorems": [
    "C05_expand",
    "C05_mutation",
    "C05_created",
    "C05_history"
   ],
   "note": "Every growth of the element arrays, and whole histories of the ten modelled mutations with writes, compressions and setDefault (C05_history); PointCloud in C48_point_cloud."
  },
  {
   "property": "C06",
   "status": "partial",
   "theorems": [
    "C06_permute",
    "C06_compress",
    "C06_loop_data_refuted"
   ],
   "note": "Every element type except boundary loops, and boundary loops when there is at most one; false with two or more loops (C06_loop_data_refuted). PointCloud in C48_compress."
  },
  {
   "property": "C07",
   "status": "proved",
   "theorems": [
    "C07_from_to_vector",
    "C07_to_from_vector",
    "C07_wrong_size_throws",
    "C07_indices",
    "C07_to_vector_indexed",
    "C07_from_vector_indexed"
   ],
   "note": "Container level, for every list of live elements; C08 and C19 supply the list and its length."
  },
  {
   "property": "C08",
   "status": "proved",
   "theorems": [
    "C08_iteration",
    "C08_mesh"
   ],
   "note": "For every valid mesh, all six element types, with the reported count; the histories reaching valid meshes are those of C19."
  },
  {
   "property": "C09",
   "status": "proved",
   "theorems": [
    "C09_flip"
   ],
   "note": "Both sides of the edge must not be monogons."
  },
  {
   "property": "C10",
   "status": "proved",
   "theorems": [
    "C10_two_flips",
    "C10_four_flips"
   ],
   "note": "Incidence (next, vertex, face) and counts; the stored representatives v.halfedge(), f.halfedge() may differ but stay valid (Valid m4)."
  },
  {
   "property": "C11",
   "status": "partial",
   "theorems": [
    "C11_insert_vertex_along_edge_partial",
    "C11_degree_one_refuted"
   ],
   "note": "Proved when the tail of e.halfedge() has degree at least 2; false otherwise (C11_degree_one_refuted)."
  },
  {
   "property": "C12",
   "status": "proved",
   "theorems": [
    "C12_connect_vertices"
   ],
   "note": "Documented preconditions (same interior face, tails distinct and not adjacent along it); boundary loops deleted but not yet compressed away are excluded (NoDeadLoops)."
  },
  {
   "property": "C13",
   "status": "proved",
   "theorems": [
    "C13_insert_vertex"
   ],
   "note": "Every face of every valid mesh with no boundary loop deleted since the last compress(); full description of the new connectivity."
  },
  {
   "property": "C14",
   "status": "partial",
   "theorems": [
    "C14_split_edge_partial",
    "C14_degree_one_refuted"
   ],
   "note": "Proved for every edge of a valid triangle mesh neither of whose ends has degree one (with no boundary loop deleted since the last compress()). C14_degree_one_refuted shows the claim is false in the excluded case."
  },
  {
   "property": "C15",
   "status": "proved",
   "theorems": [
    "C15_remove_edge"
   ],
   "note": "All three outcomes (error on a boundary edge, refusal, merge) are characterised, with the full new connectivity. Excluded input: both sides of the edge are monogon faces, where the code indexes an empty vector (undefined behaviour in the model too); such a face cannot be built by the polygon constructor."
  },
  {
   "property": "C16",
   "status": "proved",
   "theorems": [
    "C16_remove_vertex"
   ],
   "note": "All three outcomes of removeVertex are characterised; the star condition is stated without reference to the code's ring loops."
  },
  {
   "property": "C17",
   "status": "partial",
   "theorems": [
    "C17_outcome_partial",
    "C17_edge",
    "C17_merges_refuted",
    "C17_returns_refuted",
    "C17_self_edges_refuted",
    "C17_collapses"
   ],
   "note": "Exact outcome of every call on a valid triangle mesh without self-edges: never UB; null means unchanged and (chord between boundary vertices, or link condition violated, or three-edge boundary loop); a vertex means the endpoints of the target edge were merged, exactly the degenerate faces and edges removed, result Valid, triangular, and simple if it was. Any sequence of collapses keeps a simple triangle mesh simple and valid. Refuted parts: in an ear another edge is collapsed, degree-two interior vertices throw, self-edges give corrupt meshes."
  },
  {
   "property": "C18",
   "status": "proved",
   "theorems": [
    "C18_triangulate",
    "C18_list_exists"
   ],
   "note": "Complete description of the fan for every face of degree at least 3."
  },
  {
   "property": "C19",
   "status": "partial",
   "theorems": [
    "C19_counts_partial"
   ],
   "note": "Histories of flip, insertVertexAlongEdge, connectVertices, splitEdgeTriangular, insertVertex, removeEdge, removeVertex, collapseEdgeTriangular, triangulate, switchHalfedgeSides and compress, each within its documented preconditions (collapse: triangle meshes without self edges and not a thin edge). Missing: separateEdge, removeFaceAlongBoundary."
  },
  {
   "property": "C20",
   "status": "proved",
   "theorems": [
    "C20_call",
    "C20_euler"
   ],
   "note": "Every listed mutation: C20_call for any single call that returns, whatever the mesh (removeVertex: a valid mesh and a live vertex), C20_euler for every legal history."
  },
  {
   "property": "C21",
   "status": "proved",
   "theorems": [
    "C21_compress",
    "C21_monotone",
    "C21_idempotent",
    "C21_flag"
   ],
   "note": "Complete renumbering theorem for every valid mesh; C21_flag shows that isCompressed() is truthful along histories. The permutation handed to loop containers is reversed (C06_loop_data_refuted)."
  },
  {
   "property": "C22",
   "status": "proved",
   "theorems": [
    "C22_polygons_preserved"
   ],
   "note": "indices are nonnegative (size_t)"
  },
  {
   "property": "C23",
   "status": "proved",
   "theorems": [
    "C23_bad_lists_rejected"
   ],
   "note": "all listed defects and the empty list"
  },
  {
   "property": "C24",
   "status": "proved",
   "theorems": [
    "C24_equal",
    "C24_independent",
    "C24_commute",
    "C24_attached",
    "C24_history",
    "C24_reinterpret"
   ],
   "note": "manifold meshes; any number of meshes, copies and containers; mutations are those of C19"
  },
  {
   "property": "C25",
   "status": "partial",
   "theorems": [
    "C25_connectivity_partial",
    "C25_compressed",
    "C25_properties",
    "C25_property_size",
    "C25_general",
    "C25_uncompressed_refuted"
   ],
   "note": "Manifold meshes without unused room between faces and boundary loops (always after compress(), and after construction) or without boundary, with dead elements allowed; general meshes; properties of all element types. Uncompressed meshes with boundary and room are read back corrupt (C25_uncompressed_refuted). The ply format itself (happly) is not modelled; indices must fit 32 bits."
  },
  {
   "property": "C26",
   "status": "proved",
   "theorems": [
    "C26_face_circulator",
    "C26_vertex_circulator",
    "C26_prev"
   ],
   "note": ""
  },
  {
   "property": "C27",
   "status": "proved",
   "theorems": [
    "C27_edge",
    "C27_vertex"
   ],
   "note": "Valid contains the representative conventions; every mutation theorem re-establishes Valid."
  },
  {
   "property": "C28",
   "status": "proved",
   "theorems": [
    "C28_merge_identical",
    "C28_merge_exact",
    "C28_merge_out_of_range"
   ],
   "note": "Positions compared with any symmetric, transitive ==; exact equality gives identical corner positions."
  },
  {
   "property": "C29",
   "status": "proved",
   "theorems": [
    "C29_strip_unused",
    "C29_strip_unused_throws"
   ],
   "note": "With safety asserts enabled, the default build."
  },
  {
   "property": "C30",
   "status": "proved",
   "theorems": [
    "C30_strip_invalid_faces",
    "C30_strip_faces_with_duplicate_vertices",
    "C30_strip_duplicate_faces"
   ],
   "note": "For every result std::sort may return."
  },
  {
   "property": "C31",
   "status": "partial",
   "theorems": [
    "C31_triangulate_partial",
    "C31_triangulate_throws",
    "C31_uvs_refuted"
   ],
   "note": "Everything except the UV clause, which is false (C31_uvs_refuted)."
  },
  {
   "property": "C32",
   "status": "proved",
   "theorems": [
    "C32_consistent_orientation"
   ],
   "note": "outwardOrient=false; for every result std::sort may return; sides joining a vertex to itself excluded."
  },
  {
   "property": "C33",
   "status": "proved",
   "theorems": [
    "C33_union"
   ],
   "note": ""
  },
  {
   "property": "C34",
   "status": "partial",
   "theorems": [
    "C34_obj_with_uvs_partial",
    "C34_obj_without_uvs_partial",
    "C34_parameterization_refuted"
   ],
   "note": "Round trip with UVs exact; without UVs polygons and positions survive but the result claims a parameterization (C34_parameterization_refuted). Number formatting not modelled; indices within int."
  },
  {
   "property": "C35",
   "status": "proved",
   "theorems": [
    "C35_flip"
   ],
   "note": "flipNormalCoordinates returns crossings of the other diagonal (minus arcs along it) for all pairs of planar arc systems, whichever abs overload is used; coordinates bounded by 2^27 so int sums do not overflow."
  },
  {
   "property": "C36",
   "status": "proved",
   "theorems": [
    "C36_back"
   ],
   "note": "Flipping twice restores the coordinate; coordinates bounded by 2^24."
  },
  {
   "property": "C37",
   "status": "partial",
   "theorems": [
    "C37_corners_partial",
    "C37_valid",
    "C37_wrap",
    "C37_rounding_refuted",
    "C37_parallel_refuted"
   ],
   "note": "Corner coordinates and degrees equal the arc counts when no edge has two or more parallel arcs along it; C37_valid says which triples come from arcs; C37_wrap says what the mixed int/size_t arithmetic computes (floor division). Two parts are false: C37_rounding_refuted (differs from int division), C37_parallel_refuted (coordinate -2)."
  },
  {
   "property": "C38",
   "status": "proved",
   "theorems": [
    "C38_step"
   ],
   "note": "One step from any crossing of any valid triangle mesh, and the step back."
  },
  {
   "property": "C39",
   "status": "proved",
   "theorems": [
    "C39_shortest",
    "C39_arithmetic"
   ],
   "note": "implicit-twin meshes; lengths of any type whose addition is monotone and inflationary, so exact or correctly rounded arithmetic without NaN; requests for edge lengths balanced"
  },
  {
   "property": "C40",
   "status": "partial",
   "theorems": [
    "C40_ball_partial",
    "C40_requirements_refuted"
   ],
   "note": "exactly the vertices of the ball with their distances is proved; the balance of requirements is refuted: edge lengths are required and never released"
  },
  {
   "property": "C41",
   "status": "partial",
   "theorems": [
    "C41_interpolate",
    "C41_halfedge",
    "C41_some_face",
    "C41_in_face",
    "C41_in_edge_partial",
    "C41_in_edge_refuted"
   ],
   "note": "interpolate, the halfedge constructor, inSomeFace and inFace in full over the reals; inEdge for edge points and rejections; for vertices inEdge returns the opposite end point (C41_in_edge_refuted)"
  },
  {
   "property": "C42",
   "status": "proved",
   "theorems": [
    "C42_to_canonical",
    "C42_from_canonical"
   ],
   "note": "over the reals, every interior halfedge of a valid triangle mesh"
  },
  {
   "property": "C43",
   "status": "proved",
   "theorems": [
    "C43_blocks",
    "C43_square",
    "C43_vector",
    "C43_product"
   ],
   "note": "Any scalar type; entries compared as stored entries. The product statement assumes an associative commutative addition with zero. Sizes fit int."
  },
  {
   "property": "C44",
   "status": "proved",
   "theorems": [
    "C44_vertical",
    "C44_horizontal"
   ],
   "note": "Any scalar type; total size fits int (Eigen's index type)."
  },
  {
   "property": "C45",
   "status": "proved",
   "theorems": [
    "C45_components",
    "C45_maximal"
   ],
   "note": "any node comparison that separates the nodes; exact partition, linking, and maximality"
  },
  {
   "property": "C46",
   "status": "proved",
   "theorems": [
    "C46_simple",
    "C46_hyperbolic",
    "C46_triangulation",
    "C46_test",
    "C46_boundary_refuted"
   ],
   "note": "Lengths are exact reals. Termination is not claimed: the theorems speak about every run that returns, for any number of queue entries, and exclude undefined behaviour. C46_boundary_refuted: the free function raises an error on every mesh with a boundary edge. The signpost version needs a positive tolerance."
  },
  {
   "property": "C47",
   "status": "partial",
   "theorems": [
    "C47_new",
    "C47_register",
    "C47_set",
    "C47_remove",
    "C47_flip",
    "C47_split",
    "C47_split_at",
    "C47_split_near",
    "C47_split_face",
    "C47_reposition",
    "C47_collapse",
    "C47_collapse_at",
    "C47_history",
    "C47_before_flip_refuted",
    "C47_before_collapse_refuted",
    "C47_collapse_parameter_refuted",
    "C47_removed_policy_refuted",
    "C47_ear_refuted"
   ],
   "note": "Proved: refusal of marked elements leaves everything as it was (C47_flip, C47_split, C47_split_face, C47_reposition, C47_collapse); policies are called exactly once before and once after a successful operation; both pieces of a split edge inherit; fixed vertices survive every history of flips, splits, collapses, face splits and repositionings, marked edges every history without collapses (C47_history). Refuted: a collapse at the tip of an ear removes a marked edge and a fixed vertex (C47_ear_refuted); what the policies see before a flip when a parallel edge exists; policies told of a collapse that does not happen; parameter -1; a removed face split policy is still called. Missing: splitFaceAt / splitFaceNear positions."
  },
  {
   "property": "C48",
   "status": "proved",
   "theorems": [
    "C48_point_cloud",
    "C48_compress",
    "C48_grow_from_empty_refuted"
   ],
   "note": "Creation of a point is only guaranteed while at least one point is alive; C48_grow_from_empty_refuted shows the failure from capacity 0."
  },
  {
   "property": "C49",
   "status": "proved",
   "theorems": [
    "C49_built",
    "C49_rejected",
    "C49_circulators"
   ],
   "note": "C49_built: for every polygon list with nonnegative indices that has no polygon of fewer than three corners and no gap in the numbering, and every traversal order of the hash table. C49_rejected: any other list throws. C49_circulators: every loop around a face, edge or vertex ends and visits each incident halfedge once. The twins overload with a nonempty list throws 'not implemented' and is not modelled."
  },
  {
   "property": "C50",
   "status": "partial",
   "theorems": [
    "C50_components",
    "C50_general_partial",
    "C50_general_refuted"
   ],
   "note": "C50_components: every valid manifold mesh. On general meshes the claim is false (C50_general_refuted: one triangle gives 3); C50_general_partial: it holds there if every edge is closed and oriented. Meshes that violate this get no correct count."
  },
  {
   "property": "C51",
   "status": "partial",
   "theorems": [
    "C51_switch_partial",
    "C51_switch_twice_partial",
    "C51_degree_one_refuted",
    "C51_boundary_refuted"
   ],
   "note": "Renaming proved when neither end has degree one and neither side is a monogon; validity additionally needs an interior edge. Both exclusions are necessary (C51_degree_one_refuted, C51_boundary_refuted)."
  },
  {
   "property": "C52",
   "status": "proved",
   "theorems": [
    "C52_layout",
    "C52_area",
    "C52_invalid"
   ],
   "note": "over the reals"
  },
  {
   "property": "C53",
   "status": "proved",
   "theorems": [
    "C53_nearest",
    "C53_distance",
    "C53_distance_2d"
   ],
   "note": "over the reals, 2D and 3D"
  },
  {
   "property": "C54",
   "status": "proved",
   "theorems": [
    "C54_normalize",
    "C54_displacement",
    "C54_project",
    "C54_length",
    "C54_length_3d"
   ],
   "note": "over the reals"
  },
  {
   "property": "C55",
   "status": "partial",
   "theorems": [
    "C55_setDefault",
    "C55_no_element_refuted",
    "C55_mesh",
    "C55_applies"
   ],
   "note": "Proved for every mesh and element type with a slot in use, hence all but boundary loops of closed meshes (C55_applies); false for an element type without elements (C55_no_element_refuted)."
  },
  {
   "property": "C56",
   "status": "partial",
   "theorems": [
    "C56_refused_partial",
    "C56_count_refuted",
    "C56_polygon_refuted"
   ],
   "note": "Proved for every valid mesh: exactly which faces are refused, and that a refused mesh is unchanged. Refuted: the interior halfedge count is wrong after removing a triangle, and after removing a polygon a boundary vertex is not reported as boundary. Missing: validity (up to that count) after removing a triangle."
  },
  {
   "property": "C57",
   "status": "partial",
   "theorems": [
    "C57_rejected",
    "C57_interior_partial",
    "C57_count_refuted",
    "C57_polygon_refuted"
   ],
   "note": "Proved: boundary edges and edges with both ends on the boundary are rejected; an edge between two distinct interior vertices is cut into a valid mesh with a new two-sided boundary loop, with the full effect stated, except that the interior halfedge count is one too large. Refuted: the count; tip-to-tail order when an end is on the boundary and a polygon is next to it. Missing: the case of one end on the boundary in a triangle mesh."
  },
  {
   "property": "C58",
   "status": "partial",
   "theorems": [
    "C58_binary",
    "C58_unary",
    "C58_assign",
    "C58_point_cloud",
    "C58_overflow",
    "C58_mesh",
    "C58_face_refuted"
   ],
   "note": "Proved for vertices, halfedges, corners and edges on any valid mesh; false for faces (C58_face_refuted)."
  },
  {
   "property": "C59",
   "status": "partial",
   "theorems": [
    "C59_no_duplicate_edge_partial",
    "C59_no_self_edge_refuted"
   ],
   "note": "False as documented (C59_no_self_edge_refuted); duplicates of existing edges are prevented."
  },
  {
   "property": "C60",
   "status": "partial",
   "theorems": [
    "C60_closed_partial",
    "C60_genus_refuted"
   ],
   "note": "True without boundary; false with two boundary loops (C60_genus_refuted)."
  },
  {
   "property": "C61",
   "status": "partial",
   "theorems": [
    "C61_trace_partial",
    "C61_slip_refuted",
    "C61_boundary_refuted"
   ],
   "note": "Proved except when the last crossing is the twin halfedge with the starting index: C61_slip_refuted shows a curve ending at a vertex reported as closed, C61_boundary_refuted a spurious entry when starting from the exterior side."
  },
  {
   "property": "C62",
   "status": "partial",
   "theorems": [
    "C62_symmetric",
    "C62_finite",
    "C62_finite_column",
    "C62_row_refuted",
    "C62_square_refuted"
   ],
   "note": "Checks with an explicit tolerance and an abstract distance test. Two parts are false: C62_row_refuted (row vectors are read at row 1), C62_square_refuted (non-square matrices are read out of range). The default tolerance is not modelled."
  },
  {
   "property": "C63",
   "status": "partial",
   "theorems": [
    "C63_sparse",
    "C63_dense",
    "C63_reject_refuted"
   ],
   "note": "Round trips proved for any printing and parsing of numbers; the rejection part is false (C63_reject_refuted). Tokenising lines is not modelled."
  },
  {
   "property": "C64",
   "status": "proved",
   "theorems": [
    "C64_nearest"
   ],
   "note": "over the reals"
  },
  {
   "property": "C65",
   "status": "partial",
   "theorems": [
    "C65_face",
    "C65_edge",
    "C65_adjacent_partial",
    "C65_closed",
    "C65_boundary_refuted"
   ],
   "note": "sharedFace and sharedEdge in full; checkAdjacent exact on closed meshes, on meshes with boundary it also reports elements that only share a boundary loop (C65_boundary_refuted)"
  },
  {
   "property": "C66",
   "status": "proved",
   "theorems": [
    "C66_complex",
    "C66_norm",
    "C66_rotate",
    "C66_cutoff",
    "C66_around",
    "C66_remove",
    "C66_basis",
    "C66_angle"
   ],
   "note": "over the reals; functions using atan2, acos and pow are not modelled"
  },
  {
   "property": "C67",
   "status": "proved",
   "theorems": [
    "C67_rays",
    "C67_ray_segment",
    "C67_segments",
    "C67_circle",
    "C67_tet"
   ],
   "note": "over the reals, away from parallel lines and collinear base triangles"
  },
  {
   "property": "C68",
   "status": "partial",
   "theorems": [
    "C68_between_partial",
    "C68_between_refuted",
    "C68_halfedge",
    "C68_in_face_partial",
    "C68_in_face_refuted",
    "C68_some_face",
    "C68_in_edge",
    "C68_shared_face",
    "C68_shared_edge",
    "C68_add",
    "C68_subtract",
    "C68_scale",
    "C68_normalized"
   ],
   "note": "two points inside one edge give the reversed vector (C68_between_refuted) and edge vectors are accepted by faces they are not in (C68_in_face_refuted); everything else proved"
  },
  {
   "property": "C69",
   "status": "proved",
   "theorems": [
    "C69_dot",
    "C69_norm",
    "C69_rotate90",
    "C69_rotate"
   ],
   "note": "exact real arithmetic"
  },
  {
   "property": "C70",
   "status": "partial",
   "theorems": [
    "C70_segments",
    "C70_maximal",
    "C70_sides",
    "C70_vertex_refuted",
    "C70_double_edge_refuted"
   ],
   "note": "proved when no vertex is exactly at the level and no two faces share two edges; both conditions are needed: C70_vertex_refuted, C70_double_edge_refuted"
  },
  {
   "property": "C71",
   "status": "proved",
   "theorems": [
    "C71_accepts_exactly_manifolds"
   ],
   "note": "equivalence with a definition of oriented manifold polygon lists; every other list raises an error"
  },
  {
   "property": "C72",
   "status": "proved",
   "theorems": [
    "C72_interior_vertices",
    "C72_triangular",
    "C72_connecting_edge",
    "C72_face_list",
    "C72_face_list_built"
   ],
   "note": "every valid manifold mesh, deleted elements included; getFaceVertexList of a mesh just built from polygons returns the polygons"
  },
  {
   "property": "C73",
   "status": "proved",
   "theorems": [
    "C73_separateToNewEdge",
    "C73_separateNonmanifoldEdges"
   ],
   "note": "C73_separateToNewEdge: every pair of halfedges of every valid general mesh. C73_separateNonmanifoldEdges: the loop ends and the records EdgesSplit and TwoPerEdge hold. The loop visits the edges that exist when it starts (the range is fixed when the loop starts)."
  },
  {
   "property": "C74",
   "status": "proved",
   "theorems": [
    "C74_inverted",
    "C74_twice"
   ],
   "note": "every face of every valid general mesh; validity is the record GValid of GenSpec.v. modificationTick and the implicit-twin guard are not modelled."
  },
  {
   "property": "C77",
   "status": "proved",
   "theorems": [
    "C77_flip",
    "C77_built"
   ],
   "note": "every edge of every valid general mesh without one-sided faces; C77_built: every mesh made by the constructor meets the hypotheses, and C77_flip keeps them. The triangle test of the code also accepts a face with one side, hence the hypothesis. The recursive call is modelled with a depth; any depth of at least 2 suffices."
  },
  {
   "property": "C75",
   "status": "partial",
   "theorems": [
    "C75_duplicated",
    "C75_count_refuted"
   ],
   "note": "C75_duplicated: everything except the count. C75_count_refuted: after every call nInteriorHalfedges() and nCorners() are too small, because the new halfedges are allocated with getNewHalfedge(false)."
  },
  {
   "property": "C76",
   "status": "proved",
   "theorems": [
    "C76_refuses",
    "C76_separated",
    "C76_twice"
   ],
   "note": "every valid general mesh. Validity is the record GValid; corners that meet across an edge are defined by acrossEdge in GenTopoSpec.v, from edges and orientation flags. modificationTick is not modelled."
  },
  {
   "property": "C78",
   "status": "proved",
   "theorems": [
    "C78_oriented"
   ],
   "note": "greedilyOrientFaces on every valid general mesh, with no bound: it returns, only turns whole faces round, keeps the mesh valid and orients every orientable set of faces closed under crossing two-sided edges. The circulator over the current face is modelled as a list taken before its neighbours are turned round."
  },
  {
   "property": "C79",
   "status": "proved",
   "theorems": [
    "C79_corner_angles",
    "C79_areas",
    "C79_gauss_bonnet",
    "C79_scaled_angles"
   ],
   "note": "every valid implicit-twin triangle mesh, with or without boundary, and every length assignment satisfying the strict triangle inequalities; cached and immediate versions (intrinsic_geometry_interface.cpp, edge_length_geometry.ipp). double is R: rounding is not modelled."
  },
  {
   "property": "C80",
   "status": "proved",
   "theorems": [
    "C80_cotan_weights",
    "C80_laplacian",
    "C80_dec",
    "C80_mass",
    "C80_index_order"
   ],
   "note": "every valid implicit-twin triangle mesh and every metric; double is R. Edge and halfedge cotangent weights, cotangent Laplacian, d0, d1, Hodge stars, lumped and Galerkin mass matrices (intrinsic_geometry_interface.cpp). Eigen's diagonal matrices are their diagonals; hodgeNInverse are reciprocals and not modelled separately. The face Galerkin and Crouzeix-Raviart matrices are not modelled."
  },
  {
   "property": "C81",
   "status": "proved",
   "theorems": [
    "C81_face_vectors",
    "C81_transport_across",
    "C81_vertex_vectors",
    "C81_transport_along",
    "C81_vertex_connection",
    "C81_face_connection"
   ],
   "note": "over the reals (no rounding); the vectors of exterior halfedges in a face, which the code sets to NaN, are not spoken about"
  },
  {
   "property": "C82",
   "status": "proved",
   "theorems": [
    "C82_lengths",
    "C82_areas",
    "C82_angles",
    "C82_cotan_weights",
    "C82_normals",
    "C82_mean_curvature_normals",
    "C82_dihedral_angles",
    "C82_mean_curvature",
    "C82_principal_curvatures"
   ],
   "note": "Real arithmetic, meshes with implicit twins. The claims about the immediate functions and about the cached containers are both proved; C82_lengths gives Metric, so C79, C80 and C81 apply to positioned meshes."
  },
  {
   "property": "C83",
   "status": "proved",
   "theorems": [
    "C83_laplacian",
    "C83_mass",
    "C83_connection"
   ],
   "note": "Real arithmetic, meshes with implicit twins. The half-cotangent weights and face coordinates the statements mention are those of C80 and C81."
  },
  {
   "property": "C84",
   "status": "proved",
   "theorems": [
    "C84_face_frames",
    "C84_vertex_frames",
    "C84_vertex_directions",
    "C84_face_directions"
   ],
   "note": "Over the reals. Face frames lift the intrinsic face coordinates; vertex frames are right-handed whenever the normal and the averaged direction are not zero, and lift the intrinsic coordinates around unbent vertices; curvature directions are the weighted sums of squared orthogonal unit vectors. The branch for general meshes (buildTangentBasis) is C66_basis."
  },
  {
   "property": "C85",
   "status": "partial",
   "theorems": [
    "C85_laplacian",
    "C85_dirichlet_energy_partial",
    "C85_mass",
    "C85_prolongation",
    "C85_small_refuted"
   ],
   "note": "Over the reals; the weights (a least squares solve in Eigen) are an argument. Symmetry, semidefiniteness, constants, masses and prolongation are proved in full. The energy is the Dirichlet energy of the fans only up to the triangles with twice the area at most 1e-7, which the code skips: C85_small_refuted gives a small mesh whose Laplacian vanishes."
  },
  {
   "property": "C86",
   "status": "partial",
   "theorems": [
    "C86_laplacian",
    "C86_linear_precision",
    "C86_areas",
    "C86_normals_partial",
    "C86_gradient_partial",
    "C86_divergence",
    "C86_gradient_refuted",
    "C86_normals_refuted"
   ],
   "note": "Over the reals; lambda arbitrary. Laplacian and linear precision proved for any polygons given normals and areas; areas are right for all polygons, normals for faces with three or four sides (C86_normals_refuted: flipped on a star with six sides). The gradient matrix is minus the gradient (C86_gradient_refuted); the divergence is its weighted transpose."
  },
  {
   "property": "C87",
   "status": "proved",
   "theorems": [
    "C87_absolute",
    "C87_relative"
   ],
   "note": "Over the reals. Faces of any degree as far as the triangle test of the code goes; nondegeneracy for triangle meshes."
  },
  {
   "property": "C88",
   "status": "partial",
   "theorems": [
    "C88_face_index_partial",
    "C88_vertex_index_partial",
    "C88_opposite_refuted",
    "C88_boundary_refuted"
   ],
   "note": "Over the reals, on the intrinsic transports of C81. Exact for faces without boundary edges and for interior vertices; boundary vertices have index 0. The sum over a closed surface is n times the Euler characteristic less the number of edges at whose ends the field is exactly opposite (C88_opposite_refuted shows the plain claim false). Faces on the boundary ignore the turning along boundary edges (C88_boundary_refuted); their index is the nearest integer to what is left."
  },
  {
   "property": "C89",
   "status": "partial",
   "theorems": [
    "C89_distances_partial",
    "C89_from_vertices",
    "C89_face_source_refuted",
    "C89_sources_refuted"
   ],
   "note": "Over the reals, unsigned. C89_from_vertices covers the overload for vertices completely; C89_distances_partial source points at vertices and on edges. For points inside faces the starting values are wrong (C89_face_source_refuted), and edges into vertices next to a source are excepted (C89_sources_refuted). Missing: signed distances."
  },
  {
   "property": "C90",
   "status": "partial",
   "theorems": [
    "C90_product",
    "C90_linear",
    "C90_norms",
    "C90_matrix",
    "C90_rotation",
    "C90_slerp_partial",
    "C90_slerp_refuted"
   ],
   "note": "Over the reals. Complete except slerp of parallel quaternions, where the code divides by zero (C90_slerp_refuted)."
  },
  {
   "property": "C91",
   "status": "proved",
   "theorems": [
    "C91_linear",
    "C91_degree_one_refuted"
   ],
   "note": "Over the reals. The statement excludes meshes where e.halfedge() starts at a vertex of degree one; there it is false (C91_degree_one_refuted)."
  },
  {
   "property": "C92",
   "status": "partial",
   "theorems": [
    "C92_catmull_clark_partial",
    "C92_boundary_refuted",
    "C92_rule_refuted"
   ],
   "note": "The refinement of the mesh and the positions the code computes are proved; two of the rules of Catmull and Clark fail (C92_rule_refuted), and translations fail at boundaries (C92_boundary_refuted). Meshes where e.halfedge() starts at a vertex of degree one are excluded."
  },
  {
   "property": "C93",
   "status": "partial",
   "theorems": [
    "C93_loop_partial",
    "C93_degree_two_refuted",
    "C93_boundary_refuted"
   ],
   "note": "Success, validity, triangles only, the vertices, the halves of the edges, that no edge joins two old vertices, the positions and the counts are proved, for every triangle mesh without self edges. Missing: that the faces are the four of each triangle when no interior vertex has degree two (LoopSpec.FourWay; it fails for degree two, C93_degree_two_refuted, and holds for the tetrahedron, C93_four_way). Boundary vertices do not follow the boundary rule (C93_boundary_refuted)."
  },
  {
   "property": "C94",
   "status": "proved",
   "theorems": [
    "C94_k_nearest",
    "C94_neighbours",
    "C94_neighborhoods",
    "C94_radius",
    "C94_contracts_met"
   ],
   "note": "nanoflann is not modelled: its contract (KnnSpec.ExactSearch, ExactBall) is a hypothesis, met by some search for every list of points (C94_contracts_met). Exact real distances. kNearest with k = 0 takes the address of the first element of an empty vector: modelled as undefined and excluded."
  }
 ]
}