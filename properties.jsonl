{"id": "C01", "title": "Union-find represents exactly the merges performed", "statement": "After any sequence of DisjointSets::merge and DisjointSets::find calls, find(x)==find(y) holds iff x and y are connected by the merges performed so far; find always terminates, returns a member of x's own class, and never changes which elements are equivalent.", "quantifier": "every number of elements, every sequence of merge/find calls with in-range arguments, every pair of elements", "why_tests_cant": "Path compression and union by rank depend on the entire call history; the histories and the forest shapes they create are unbounded.", "anchors": ["src/utilities/disjoint_sets.cpp: DisjointSets::find, DisjointSets::merge", "include/geometrycentral/utilities/disjoint_sets.h"]}
{"id": "C02", "title": "Marks on union-find classes are exactly the union of the marks of the members", "statement": "After any sequence of MarkedDisjointSets::mark/unmark/merge/find calls, isMarked(x) is true iff the class of x currently carries a mark: mark(x) marks the whole class of x, unmark(x) clears it, and merging two classes yields a marked class iff at least one of them was marked.", "quantifier": "every history of mark, unmark, merge, find on every number of elements", "why_tests_cant": "The marks live on roots which change with the history of merges.", "anchors": ["src/utilities/disjoint_sets.cpp: MarkedDisjointSets"]}
{"id": "C03", "title": "A required quantity stays available until it is un-required", "statement": "For every history of require/unrequire/purge/refresh calls on a managed quantity in which no unrequire exceeds the outstanding requires, whenever at least one require is outstanding the quantity is computed (its buffer is filled), purgeQuantities() does not clear it, and refreshQuantities() recomputes it; when none is outstanding purgeQuantities() leaves it cleared if it is clearable.", "quantifier": "every history of require/unrequire/purge/refresh", "why_tests_cant": "The reference count and the computed flag evolve with an unbounded call history.", "anchors": ["include/geometrycentral/utilities/dependent_quantity.ipp", "src/surface/base_geometry_interface.cpp: refreshQuantities, purgeQuantities"]}
{"id": "C04", "title": "Quantities are computed after their dependencies, each at most once", "statement": "For every acyclic dependency graph of managed quantities, ensureHave on one quantity evaluates exactly the not-yet-computed quantities reachable from it, each exactly once, and every quantity's compute callback runs only when all its dependencies are already computed.", "quantifier": "every finite acyclic graph of quantities, every already-computed set closed under dependencies", "why_tests_cant": "The graph and the previously computed set are arbitrary; tests only exercise the few graphs shipped in the library.", "anchors": ["include/geometrycentral/utilities/dependent_quantity.ipp: ensureHave", "src/surface/intrinsic_geometry_interface.cpp"]}
{"id": "C05", "title": "Attached data follows its element when storage grows", "statement": "When an element array is reallocated because new elements are created, every existing element keeps the value it had in every registered MeshData container, and every element created afterwards reads the container's default value until it is written.", "quantifier": "every container state, every growth history", "why_tests_cant": "Growth happens at unpredictable points of a mutation history and for every container alive at that time.", "anchors": ["include/geometrycentral/utilities/mesh_data.ipp: registerWithMesh expandFunc", "src/surface/surface_mesh.cpp: getNewVertex, getNewEdgeTriple, getNewFace, expandFaceStorage"]}
{"id": "C06", "title": "Attached data follows its element through compress()", "statement": "After compress() each surviving vertex, halfedge, corner, edge, face and boundary loop has in every registered container the value it had before compress().", "quantifier": "every set of dead elements, every container contents, every element type", "why_tests_cant": "The permutation depends on the entire deletion history and the property must hold for all containers alive at the time.", "anchors": ["src/surface/surface_mesh.cpp: compressHalfedges, compressEdges, compressFaces, compressVertices", "include/geometrycentral/utilities/mesh_data.ipp: permuteFunc"]}
{"id": "C07", "title": "Dense index maps and vector conversion are mutually inverse", "statement": "getVertexIndices() and its siblings number the live elements 0..n-1 without gaps in iteration order; MeshData::toVector() lists the live values in that order, fromVector(toVector()) restores every live element's value, toVector(fromVector(v)) = v for every v of length n, and the variants taking an index map use it as written.", "quantifier": "every live/dead pattern, every container contents, every vector of the right length", "why_tests_cant": "All dead patterns and all contents must be covered.", "anchors": ["include/geometrycentral/utilities/mesh_data.ipp: toVector, fromVector", "src/surface/surface_mesh.cpp: getVertexIndices .. getBoundaryLoopIndices"]}
{"id": "C08", "title": "Element iteration visits exactly the live elements, once each, in index order", "statement": "Iterating mesh.vertices()/halfedges()/edges()/faces() yields every live element exactly once in increasing index order and no dead element, and the number of elements visited equals nVertices()/nHalfedges()/nEdges()/nFaces().", "quantifier": "every live/dead pattern reachable by any mutation history", "why_tests_cant": "Dead patterns are unbounded.", "anchors": ["include/geometrycentral/utilities/element_iterators.ipp: RangeIteratorBase, RangeSetBase", "include/geometrycentral/surface/surface_mesh.ipp"]}
{"id": "C09", "title": "A triangle mesh edge flip keeps the mesh a valid manifold halfedge mesh", "statement": "For every valid mesh and edge, ManifoldSurfaceMesh::flip either returns false and changes nothing, or returns true and yields a valid mesh with the same vertices, edges, halfedges and faces in which only the flipped edge's endpoints changed: it now joins the two vertices opposite it.", "quantifier": "every valid manifold mesh, every edge", "why_tests_cant": "Meshes of arbitrary size and with degenerate local configurations (self-edges, degree one and two vertices).", "anchors": ["src/surface/surface_mesh.cpp: SurfaceMesh::flip", "src/surface/manifold_surface_mesh.cpp"]}
{"id": "C10", "title": "Flipping an edge twice restores the mesh with the edge's sides exchanged, four times restores it exactly", "statement": "Two successive successful flips of the same edge give back the original connectivity with the two halfedges (and the two faces' contents) of that edge exchanged; four successive flips give back exactly the original connectivity.", "quantifier": "every valid mesh with a flippable edge", "why_tests_cant": "Quantifies over all meshes.", "anchors": ["src/surface/surface_mesh.cpp: SurfaceMesh::flip", "src/surface/mutation_manager.cpp: MutationManager::flipEdge"]}
{"id": "C11", "title": "Inserting a vertex along an edge keeps the mesh valid", "statement": "For every valid mesh and edge, insertVertexAlongEdge(e) adds exactly one vertex and one edge, splits e in two, keeps all other connectivity, increases the degree of the one or two incident faces or boundary loops by one, returns a halfedge at the new vertex, and leaves a valid mesh.", "quantifier": "every valid manifold mesh (including general polygons, boundary edges), every edge", "why_tests_cant": "Arbitrary sizes, arbitrary polygon degrees and storage slack (reallocation may happen inside).", "anchors": ["src/surface/manifold_surface_mesh.cpp: insertVertexAlongEdge"]}
{"id": "C12", "title": "Connecting two vertices of a face splits the face in two", "statement": "For every valid mesh and two halfedges of the same face whose tails are not adjacent in it, connectVertices adds exactly one edge and one face, the two resulting faces together traverse exactly the old face's halfedges plus the two sides of the new edge, and the mesh stays valid.", "quantifier": "every valid mesh, every face degree, every pair of halfedges of the face", "why_tests_cant": "Face degrees are unbounded.", "anchors": ["src/surface/manifold_surface_mesh.cpp: connectVertices"]}
{"id": "C13", "title": "Inserting a vertex in a face fans the face", "statement": "For every valid mesh and face of degree d, insertVertex(f) adds one vertex, d edges and d-1 faces, the new vertex has degree d, all the faces around it are triangles each containing exactly one of the old face's halfedges, and the mesh stays valid.", "quantifier": "every valid mesh, every face degree", "why_tests_cant": "Face degrees are unbounded; storage growth may occur during the loop.", "anchors": ["src/surface/manifold_surface_mesh.cpp: insertVertex"]}
{"id": "C14", "title": "Splitting an edge of a triangle mesh keeps it a triangle mesh", "statement": "For every valid triangle mesh and edge, splitEdgeTriangular(e) yields a valid triangle mesh with one more vertex and, for an interior (boundary) edge, three (two) more edges and two (one) more faces.", "quantifier": "every valid triangle mesh and every edge", "why_tests_cant": "Arbitrary meshes.", "anchors": ["src/surface/manifold_surface_mesh.cpp: splitEdgeTriangular"]}
{"id": "C15", "title": "Removing an edge merges its two faces", "statement": "For every valid mesh and edge, removeEdge(e) either returns a null face and changes nothing, or removes exactly that edge and one face so that the merged face traverses the remaining halfedges of both, and the mesh stays valid.", "quantifier": "every valid mesh and edge", "why_tests_cant": "Arbitrary meshes and face degrees.", "anchors": ["src/surface/manifold_surface_mesh.cpp: removeEdge"]}
{"id": "C16", "title": "Removing an interior vertex leaves one face in place of its star", "statement": "For every valid mesh and vertex, removeVertex(v) either returns a null face and changes nothing, or removes v, its d incident edges and d-1 of its d incident faces, and the surviving face traverses exactly the outer halfedges of the star; the mesh stays valid.", "quantifier": "every valid mesh and vertex degree", "why_tests_cant": "Vertex degrees are unbounded.", "anchors": ["src/surface/manifold_surface_mesh.cpp: removeVertex"]}
{"id": "C17", "title": "Edge collapse on triangle meshes keeps the mesh valid or refuses", "statement": "For every valid triangle mesh and edge, collapseEdgeTriangular(e) either returns a null vertex and leaves the mesh unchanged, or merges e's endpoints into one vertex, removes exactly the edges and faces that become degenerate, and leaves a valid mesh.", "quantifier": "every valid triangle mesh and edge", "why_tests_cant": "The degenerate configurations that must be refused are unbounded in number.", "anchors": ["src/surface/manifold_surface_mesh.cpp: collapseEdgeTriangular"]}
{"id": "C18", "title": "Triangulating a face yields only triangles", "statement": "For every valid mesh and face of degree d>=3, triangulate(f) splits the face into d-2 triangles using only its own vertices, adds d-3 edges and d-3 faces, and keeps the mesh valid.", "quantifier": "every valid mesh and face degree", "why_tests_cant": "Face degrees are unbounded.", "anchors": ["src/surface/manifold_surface_mesh.cpp: triangulate"]}
{"id": "C19", "title": "Counts reported by the mesh match its contents after any mutation history", "statement": "After construction and any history of mutations, nVertices, nEdges, nHalfedges, nFaces, nBoundaryLoops, nInteriorHalfedges, nExteriorHalfedges and nCorners equal the number of live elements of that kind (interior halfedges being those in a face).", "quantifier": "every mutation history", "why_tests_cant": "Counters are maintained incrementally by many operations; errors only show after particular histories.", "anchors": ["src/surface/surface_mesh.cpp: getNew*, delete*", "src/surface/manifold_surface_mesh.cpp", "include/geometrycentral/surface/surface_mesh.ipp: nCorners, nInteriorHalfedges"]}
{"id": "C20", "title": "Euler characteristic is invariant under local mutations", "statement": "flip, insertVertexAlongEdge, connectVertices, insertVertex, splitEdgeTriangular, removeEdge, removeVertex, collapseEdgeTriangular, triangulate and compress leave eulerCharacteristic() and the number of boundary loops unchanged.", "quantifier": "every valid mesh, every argument, every sequence of these mutations", "why_tests_cant": "All histories.", "anchors": ["src/surface/manifold_surface_mesh.cpp: eulerCharacteristic, genus and the mutations"]}
{"id": "C21", "title": "compress() is a renumbering", "statement": "compress() yields a mesh with no dead elements that is isomorphic to the original: there are index bijections from old live to new elements, monotone in the index, that commute with next, twin, vertex, face, edge and the element-to-halfedge references; afterwards capacities equal counts; compressing a compressed mesh changes nothing.", "quantifier": "every mesh state with any dead elements", "why_tests_cant": "All deletion histories and capacities.", "anchors": ["src/surface/surface_mesh.cpp: compress, compressHalfedges, compressEdges, compressFaces, compressVertices"]}
{"id": "C22", "title": "Building a manifold mesh from polygons preserves the polygons", "statement": "If ManifoldSurfaceMesh(polygons) succeeds then getFaceVertexList() returns exactly the input polygons (same order, each starting at the same vertex), every halfedge's twin runs between the same two vertices in the opposite direction, and each boundary halfedge's twin lies on exactly one boundary loop.", "quantifier": "every polygon list accepted by the constructor", "why_tests_cant": "Input lists of unbounded length; hash-table based edge matching must be right for all of them.", "anchors": ["src/surface/manifold_surface_mesh.cpp: ManifoldSurfaceMesh(const std::vector<std::vector<size_t>>&)", "src/surface/surface_mesh.cpp: getFaceVertexList"]}
{"id": "C23", "title": "The manifold constructor rejects inputs that are not oriented manifolds", "statement": "ManifoldSurfaceMesh(polygons) raises an error whenever a polygon has fewer than three vertices, some directed edge occurs twice, a polygon has a self-edge, or some vertex index below the maximum is unused; it never silently produces a mesh for such an input.", "quantifier": "every invalid polygon list", "why_tests_cant": "Unbounded family of invalid inputs.", "anchors": ["src/surface/manifold_surface_mesh.cpp: polygon constructor", "include/geometrycentral/utilities/utilities.h: GC_SAFETY_ASSERT"]}
{"id": "C24", "title": "Copies are equal and independent", "statement": "copy() returns a mesh with the same elements, indices, connectivity, counts and capacities; subsequent mutation of either one does not change the other, and containers stay attached to the mesh they were created for.", "quantifier": "every mesh state (compressed or not)", "why_tests_cant": "All states, all later histories.", "anchors": ["src/surface/surface_mesh.cpp: copyInternalFields", "src/surface/manifold_surface_mesh.cpp: copy"]}
{"id": "C25", "title": "Rich PLY connectivity survives a save/load round trip", "statement": "Loading the connectivity written by RichSurfaceMeshData::addMeshConnectivity() reproduces the mesh: same indices, next, vertex, face and boundary-loop incidence, same counts; element properties written for live elements are read back on the same elements.", "quantifier": "every mesh with fewer than 2^32-1 elements", "why_tests_cant": "All meshes, compressed or not, with or without boundary.", "anchors": ["src/surface/rich_surface_mesh_data.cpp: addMeshConnectivity, loadMeshFromFile", "include/geometrycentral/surface/rich_surface_mesh_data.ipp", "src/surface/manifold_surface_mesh.cpp: raw-array constructor"]}
{"id": "C26", "title": "Circulators terminate and visit each incident element exactly once", "statement": "On every valid mesh, f.adjacentHalfedges() and v.outgoingHalfedges() terminate, visit exactly the halfedges of the face (at the vertex), each once; prevOrbitFace()/prevOrbitVertex() terminate and are inverse to next; degree() is the number of halfedges visited.", "quantifier": "every valid mesh, every element", "why_tests_cant": "The orbit lengths are unbounded and termination is a property of the whole permutation.", "anchors": ["include/geometrycentral/surface/halfedge_element_types.ipp", "include/geometrycentral/utilities/element_iterators.ipp: NavigationIteratorBase"]}
{"id": "C27", "title": "Constant-time boundary tests are right", "statement": "On every valid mesh reachable by mutation, v.isBoundary() is true iff some halfedge at v is on a boundary loop, and e.isBoundary() is true iff one of e's halfedges is on a boundary loop, although both only inspect one stored halfedge.", "quantifier": "every valid mesh, every vertex and edge", "why_tests_cant": "Relies on a storage convention every mutation has to maintain.", "anchors": ["include/geometrycentral/surface/halfedge_element_types.ipp: Vertex::isBoundary, Edge::isBoundary"]}
{"id": "C28", "title": "Merging identical vertices changes no corner position", "statement": "mergeIdenticalVertices() leaves the position of every polygon corner unchanged, leaves pairwise distinct vertex positions, keeps the first-occurrence order, and never reads out of range when all polygon indices are in range.", "quantifier": "every polygon mesh", "why_tests_cant": "Unbounded meshes and coincidence patterns.", "anchors": ["src/surface/simple_polygon_mesh.cpp: mergeIdenticalVertices"]}
{"id": "C29", "title": "Stripping unused vertices changes no corner position", "statement": "stripUnusedVertices() leaves every polygon corner's position unchanged, leaves exactly the used vertices in their original order, returns the translation map (INVALID for removed ones), and throws iff some polygon index is out of range.", "quantifier": "every polygon mesh", "why_tests_cant": "Unbounded meshes.", "anchors": ["src/surface/simple_polygon_mesh.cpp: stripUnusedVertices"]}
{"id": "C30", "title": "Stripping invalid or duplicate faces keeps exactly the right faces", "statement": "stripInvalidFaces() keeps exactly the faces with at least 3 vertices, in-range and pairwise distinct indices, in order and with their UV lists; stripFacesWithDuplicateVertices() removes exactly the faces with a repeated index; stripDuplicateFaces() keeps exactly one face (an original one, with its own UVs) for every vertex multiset that occurs.", "quantifier": "every polygon mesh, every face degree (both the quadratic and the hash-set path)", "why_tests_cant": "Unbounded faces; two code paths chosen by degree.", "anchors": ["src/surface/simple_polygon_mesh.cpp: stripInvalidFaceWorker, stripDuplicateFaces"]}
{"id": "C31", "title": "Polygon triangulation preserves the surface chain", "statement": "SimplePolygonMesh::triangulate() replaces each d-gon by d-2 triangles over its own vertices whose directed edges, after cancelling opposite pairs, are exactly the polygon's directed edges; it throws iff some polygon has fewer than 3 vertices; per-corner UVs stay in correspondence with corners.", "quantifier": "every polygon mesh", "why_tests_cant": "Unbounded polygon degrees.", "anchors": ["src/surface/simple_polygon_mesh.cpp: triangulate"]}
{"id": "C32", "title": "Greedy orientation makes every orientable manifold patch consistent", "statement": "consistentlyOrientFaces(false) only reverses polygons, and if each manifold patch (faces connected through edges with exactly two face sides) is orientable then afterwards the two sides of every such edge run in opposite directions; it terminates on every input.", "quantifier": "every polygon mesh", "why_tests_cant": "Patches of unbounded size and shape.", "anchors": ["src/surface/simple_polygon_mesh.cpp: consistentlyOrientFaces"]}
{"id": "C33", "title": "Union of meshes is a disjoint union", "statement": "unionMeshes() preserves for every corner of every input mesh its position (and its UV if all inputs have UVs), in input order, and shares no vertex between inputs.", "quantifier": "every list of polygon meshes", "why_tests_cant": "Unbounded lists.", "anchors": ["src/surface/simple_polygon_mesh.cpp: unionMeshes"]}
{"id": "C34", "title": "OBJ face records survive a write/read round trip", "statement": "Writing a polygon mesh as OBJ and reading it back yields the same polygons (0-based indices) and the same per-corner UVs, and reports a parameterization iff the written mesh had one.", "quantifier": "every polygon mesh", "why_tests_cant": "All index magnitudes and polygon degrees, with and without UVs.", "anchors": ["src/surface/simple_polygon_mesh.cpp: writeMeshObj, readMeshFromObjFile, parseFaceIndex"]}
{"id": "C35", "title": "Normal coordinates after a flip count the arcs crossing the new edge", "statement": "flipNormalCoordinates(nij,njk,nki,nil,nlj) returns the number of arcs crossing the flipped edge (minus the number of arcs running along it) for every system of arcs in the two triangles that has the given edge counts.", "quantifier": "every integer tuple of edge coordinates satisfying the parity and matching conditions of curve systems in two triangles", "why_tests_cant": "Infinitely many coordinate tuples and many case distinctions in one closed formula.", "anchors": ["src/surface/normal_coordinates.cpp: flipNormalCoordinates"]}
{"id": "C36", "title": "Flipping back restores the normal coordinate", "statement": "Applying the flip rule to the flipped diamond returns the original coordinate of the original edge.", "quantifier": "every valid tuple of coordinates", "why_tests_cant": "Infinite domain.", "anchors": ["src/surface/normal_coordinates.cpp: flipNormalCoordinates"]}
{"id": "C37", "title": "Corner coordinates are the arc counts of the triangle, computed safely in mixed signed/unsigned arithmetic", "statement": "For every triangle with valid edge coordinates, strictCornerCoord gives the number of arcs cutting off the corner, strictDegree the number of arcs ending in it, and together they account for every crossing on every edge; the mixed int/size_t arithmetic in cornerCoord never produces a different value than exact integer arithmetic.", "quantifier": "every valid integer triple, including negative (shared-edge) coordinates", "why_tests_cant": "Infinite domain and wrap-around arithmetic.", "anchors": ["src/surface/normal_coordinates.cpp: cornerCoord, strictDegree, strictCornerCoord"]}
{"id": "C38", "title": "Tracing a normal curve is reversible and stays in range", "statement": "One step of topological tracing from crossing (he,index) either ends at a vertex or leads to a crossing with index in range; tracing the reverse direction from there leads back to the crossing one started from.", "quantifier": "every triangle mesh with valid normal coordinates, every crossing", "why_tests_cant": "Infinite domain; all local configurations.", "anchors": ["src/surface/normal_coordinates.cpp: stepTopologicalCurve, topologicalTrace"]}
{"id": "C39", "title": "Shortest edge path is a path and no path is shorter", "statement": "shortestEdgePath(v,w) returns a chain of consecutive halfedges from v to w of minimal total edge length, and the empty list iff v==w or w is unreachable.", "quantifier": "every mesh graph with non-negative edge lengths (exact arithmetic), every pair of vertices", "why_tests_cant": "All graphs and all weightings.", "anchors": ["src/surface/mesh_graph_algorithms.cpp: shortestEdgePath"]}
{"id": "C40", "title": "Dijkstra ball contains exactly the vertices within the radius with their exact distances", "statement": "vertexDijkstraDistanceWithinRadius(v,r) maps exactly the vertices whose shortest edge-path distance is at most r (and v itself) to that distance, and leaves the geometry's quantity requirements balanced.", "quantifier": "every mesh graph with non-negative lengths (exact arithmetic)", "why_tests_cant": "All graphs.", "anchors": ["src/surface/mesh_graph_algorithms.cpp: vertexDijkstraDistanceWithinRadius"]}
{"id": "C41", "title": "Re-expressing a surface point does not move it", "statement": "For every surface point on a triangle mesh and every vertex function, interpolating after inSomeFace(), inFace(f) and inEdge(e) gives the same value as interpolating the original point; the conversions throw iff the point is not on the target element.", "quantifier": "every triangle mesh, every point, every function (exact arithmetic)", "why_tests_cant": "All configurations of handles within the face.", "anchors": ["include/geometrycentral/surface/surface_point.ipp: inSomeFace, inFace, inEdge, interpolate"]}
{"id": "C42", "title": "Canonical barycentric permutations are inverse and preserve the point", "statement": "permuteBarycentricFromCanonical and permuteBarycentricToCanonical are mutually inverse for every halfedge of a triangle and preserve the coordinate attached to each vertex.", "quantifier": "every triangle, every halfedge of it, every coordinate triple", "why_tests_cant": "All handle rotations; all real coordinates.", "anchors": ["include/geometrycentral/surface/barycentric_coordinate_helpers.ipp"]}
{"id": "C43", "title": "Block decomposition of a matrix is lossless", "statement": "blockDecomposeSquare splits a matrix into blocks whose entries are exactly the entries of the original at the corresponding original indices; reassembleVector(decomposeVector(x)) = x and the blockwise matrix-vector product reassembles to the full product.", "quantifier": "every square sparse matrix, every index subset, every vector", "why_tests_cant": "All sizes and all subsets.", "anchors": ["include/geometrycentral/numerical/linear_algebra_utilities.ipp: blockDecomposeSquare, decomposeVector, reassembleVector"]}
{"id": "C44", "title": "Stacking matrices places each block at its offset", "statement": "verticalStack/horizontalStack of matrices has in each block exactly the entries of the corresponding input and throws iff the list is empty or the shared dimension differs.", "quantifier": "every list of matrices", "why_tests_cant": "All list lengths and sizes.", "anchors": ["include/geometrycentral/numerical/linear_algebra_utilities.ipp: verticalStack, horizontalStack"]}
{"id": "C45", "title": "Isoline segments are assembled into curves without loss", "statement": "The curve components built by marchingTriangles use every segment exactly once and within each component consecutive segments share an endpoint in order.", "quantifier": "every list of oriented segments", "why_tests_cant": "Unbounded segment lists.", "anchors": ["src/surface/marching_triangles.cpp: getCurveComponents"]}
{"id": "C46", "title": "Intrinsic Delaunay flipping ends with no flippable bad edge", "statement": "Whenever flipToDelaunay (the free function in either flavour, or the method of the integer-coordinate and signpost intrinsic triangulations) returns, every edge it may flip satisfies the local Delaunay condition up to the given tolerance, edge lengths are still those of non-degenerate triangles, boundary and marked edges are untouched, the mesh is valid with the same elements, and isDelaunay() answers true.", "quantifier": "every valid triangle mesh, all edge lengths that satisfy the triangle inequality (all positive ones in the hyperbolic flavour), every tolerance and every set of marked edges", "why_tests_cant": "The work queue evolves over an unbounded flip history.", "anchors": ["src/surface/simple_idt.cpp: flipToDelaunay", "src/surface/intrinsic_triangulation.cpp: flipToDelaunay, isDelaunay", "src/surface/integer_coordinates_intrinsic_triangulation.cpp: flipEdgeIfNotDelaunay", "src/surface/signpost_intrinsic_triangulation.cpp: flipEdgeIfNotDelaunay"]}
{"id": "C47", "title": "Mutation constraints are respected", "statement": "MutationManager never flips, splits or collapses an element marked as not flippable/splittable/collapsible: the call returns the null result and changes nothing; after a split both pieces inherit the constraint of the split edge; callbacks run before and after exactly the successful operations.", "quantifier": "every constraint assignment, every history of operations", "why_tests_cant": "All histories of operations and growing containers.", "anchors": ["src/surface/mutation_manager.cpp"]}
{"id": "C48", "title": "Point clouds keep their data through growth, deletion and compress", "statement": "After any history of point creation, deletion and compress, nPoints() is the number of live points, iteration visits exactly those, and every registered PointData value stays with its point.", "quantifier": "every history", "why_tests_cant": "Unbounded histories.", "anchors": ["src/pointcloud/point_cloud.cpp"]}
{"id": "C49", "title": "The general polygon mesh constructor groups face sides into edges", "statement": "SurfaceMesh(polygons) creates one halfedge per face side, two halfedges share an edge iff they join the same unordered pair of vertices, each edge's sibling cycle visits exactly its halfedges, halfedge orientation flags tell whether it runs along the edge, and getFaceVertexList() returns the input.", "quantifier": "every polygon list", "why_tests_cant": "Unbounded inputs, arbitrary nonmanifold incidence.", "anchors": ["src/surface/surface_mesh.cpp: SurfaceMesh(const std::vector<std::vector<size_t>>&), initializeHalfedgeNeighbors"]}
{"id": "C50", "title": "Connected component count", "statement": "nConnectedComponents() equals the number of classes of vertices under the relation generated by 'joined by an edge'.", "quantifier": "every mesh", "why_tests_cant": "All graphs.", "anchors": ["src/surface/surface_mesh.cpp: nConnectedComponents"]}
{"id": "C51", "title": "Exchanging an edge's sides is a pure renaming", "statement": "switchHalfedgeSides(e) exchanges the two halfedge indices of e everywhere and changes nothing else: the mesh before and after are identical up to that renaming and stay valid.", "quantifier": "every valid mesh, every edge", "why_tests_cant": "Degenerate local configurations (degree-one vertices, self-folded faces).", "anchors": ["src/surface/manifold_surface_mesh.cpp: switchHalfedgeSides, ensureEdgeHasInteriorHalfedge"]}
{"id": "C52", "title": "Triangle layout places the vertex at the prescribed distances on the left", "statement": "For every non-degenerate baseline and lengths satisfying the triangle inequality, layoutTriangleVertex(pA,pB,lBC,lCA) returns a point at distance lCA from pA and lBC from pB, on the left of the baseline.", "quantifier": "all real inputs (exact arithmetic)", "why_tests_cant": "Infinite domain.", "anchors": ["include/geometrycentral/utilities/elementary_geometry.ipp: layoutTriangleVertex, triangleArea"]}
{"id": "C53", "title": "Nearest point on a segment minimizes the distance", "statement": "pointLineSegmentNeaestLocation returns t in [0,1] such that no other point of the segment is closer to the query point.", "quantifier": "all real inputs (exact arithmetic)", "why_tests_cant": "Infinite domain.", "anchors": ["include/geometrycentral/utilities/elementary_geometry.ipp: pointLineSegmentNeaestLocation"]}
{"id": "C54", "title": "Barycentric normalization and projection produce valid coordinates", "statement": "normalizeBarycentric returns coordinates summing to one; projectInsideTriangle returns non-negative coordinates summing to one and is the identity on valid coordinates; normalizeBarycentricDisplacement returns coordinates summing to zero; displacementLength2 equals the squared Euclidean length of the displacement in any planar layout with the given edge lengths.", "quantifier": "all real inputs (exact arithmetic)", "why_tests_cant": "Infinite domain.", "anchors": ["include/geometrycentral/surface/barycentric_coordinate_helpers.ipp"]}
{"id": "C55", "title": "Setting a container's default affects exactly the elements created later", "statement": "MeshData::setDefault(v) changes no existing element's value and every element created afterwards reads v.", "quantifier": "every container and mesh state", "why_tests_cant": "All dead patterns and capacities.", "anchors": ["include/geometrycentral/utilities/mesh_data.ipp: setDefault"]}
{"id": "C56", "title": "Removing a boundary-adjacent face keeps the mesh valid", "statement": "removeFaceAlongBoundary(f) either refuses without change or removes f and yields a valid mesh whose counts match its contents.", "quantifier": "every valid mesh with boundary, every face", "why_tests_cant": "Many local configurations of boundary edges around a face.", "anchors": ["src/surface/manifold_surface_mesh.cpp: removeFaceAlongBoundary"]}
{"id": "C57", "title": "Cutting an edge keeps the mesh valid", "statement": "separateEdge(e) replaces an interior edge by two boundary edges, keeps all faces, and yields a valid mesh whose counts match its contents.", "quantifier": "every valid mesh, every interior edge", "why_tests_cant": "Cases by how many endpoints are on the boundary; arbitrary vertex degrees.", "anchors": ["src/surface/manifold_surface_mesh.cpp: separateEdge"]}
{"id": "C58", "title": "Container arithmetic stays in bounds and acts elementwise", "statement": "For every two containers on the same mesh, the sum/product/negation of containers reads, for every live element, the value computed from the operands at that element, without accessing memory out of range, at any point of any mutation history.", "quantifier": "every container pair, every history", "why_tests_cant": "Container sizes differ from the current capacity depending on when they were created.", "anchors": ["include/geometrycentral/utilities/mesh_data.ipp: operator overloads, expandFunc"]}
{"id": "C59", "title": "flip with preventSelfEdges never creates a self-edge", "statement": "flip(e, true) never returns true with both endpoints of e being the same vertex afterwards (documented in docs/surface/surface_mesh/mutation.md), nor with e duplicating another edge.", "quantifier": "every valid mesh and every edge", "why_tests_cant": "the offending configurations (two triangles sharing their opposite vertex) are rare in test meshes", "anchors": ["src/surface/surface_mesh.cpp: SurfaceMesh::flip", "docs/docs/surface/surface_mesh/mutation.md"]}
{"id": "C60", "title": "genus() is the genus", "statement": "On a connected mesh genus() returns g with V - E + F = 2 - 2g - b, b being the number of boundary loops.", "quantifier": "every connected mesh, with or without boundary", "why_tests_cant": "tests only check closed meshes; the formula must hold for any number of boundary loops", "anchors": ["src/surface/manifold_surface_mesh.cpp: eulerCharacteristic, genus", "docs/docs/surface/surface_mesh/basics.md"]}
{"id": "C61", "title": "Tracing a normal curve ends and lists the crossings of that curve", "statement": "topologicalTrace from a crossing terminates and returns the crossings of that curve in order, each once: it stops when the curve ends at a vertex, when it returns to the starting crossing (which is then repeated), or when it crosses a boundary edge (which is then listed).", "quantifier": "every triangle mesh with valid normal coordinates, every starting crossing on the inner side of its edge", "why_tests_cant": "Termination and absence of repetition over all curve systems and all meshes.", "anchors": ["src/surface/normal_coordinates.cpp: topologicalTrace, stepTopologicalCurve"]}
{"id": "C62", "title": "Matrix sanity checks accept exactly the matrices they describe", "statement": "checkSymmetric(m, eps) returns normally iff every pair of mirrored coefficients differs by at most eps, stored or implicit, and throws otherwise; checkFinite returns normally iff every entry is finite.", "quantifier": "every matrix or vector, every tolerance", "why_tests_cant": "All sparsity patterns and values.", "anchors": ["include/geometrycentral/numerical/linear_algebra_utilities.ipp: checkSymmetric, checkHermitian, checkFinite"]}
{"id": "C63", "title": "Matrix files read back the matrix that was written", "statement": "Loading a file written by saveSparseMatrix or saveDenseMatrix gives a matrix with the same dimensions, the same stored positions, and each value as printed; files whose entries lie outside the stated dimensions are rejected.", "quantifier": "every matrix; every file", "why_tests_cant": "All sizes and sparsity patterns, including empty rows and columns.", "anchors": ["include/geometrycentral/numerical/linear_algebra_utilities.ipp: saveSparseMatrix, loadSparseMatrix, saveDenseMatrix, loadDenseMatrix"]}
{"id": "C64", "title": "nearestVertex is a vertex of largest weight", "statement": "For every surface point, nearestVertex() returns a vertex of the point's element whose barycentric weight is not smaller than that of any other vertex of the element.", "quantifier": "every mesh, every point (exact arithmetic)", "why_tests_cant": "All ties and all real coordinates.", "anchors": ["include/geometrycentral/surface/surface_point.ipp: nearestVertex"]}
{"id": "C65", "title": "sharedFace, sharedEdge and checkAdjacent decide common incidence", "statement": "sharedFace(a,b) returns a face containing both elements and null only if there is none; sharedEdge likewise for edges; checkAdjacent(a,b) holds iff two different elements belong to a common face.", "quantifier": "every valid triangle mesh, every two vertex/edge/face points", "why_tests_cant": "All incidence configurations, including boundary ones.", "anchors": ["src/surface/surface_point.cpp: checkAdjacent", "include/geometrycentral/surface/surface_point.ipp: sharedFace, sharedEdge"]}
{"id": "C66", "title": "Vector rotations, complex arithmetic and bases", "statement": "Vector2 product and quotient are inverse and multiply lengths; rotateCCW is multiplication by fromAngle, keeps length and is undone by rotateCW; rotateAround keeps scalar products and the axis component and turns perpendicular vectors by the angle in the right-handed direction; buildTangentBasis is orthonormal, perpendicular to the vector and right-handed; normalizeCutoff, removeComponent and regularizeAngle do what they say.", "quantifier": "all real inputs except zero vectors where stated (exact arithmetic)", "why_tests_cant": "Infinite domain.", "anchors": ["include/geometrycentral/utilities/vector2.ipp", "include/geometrycentral/utilities/vector3.ipp", "include/geometrycentral/utilities/utilities.h: clamp, regularizeAngle"]}
{"id": "C67", "title": "Intersections, in-circle test and tetrahedron completion are exact", "statement": "For non-parallel lines, rayRayIntersection/raySegmentIntersection/segmentSegmentIntersection return the parameters of the unique common point and segmentSegmentIntersection's hit flag holds iff the segments meet; inCircleTest on a counter-clockwise triangle holds iff the point is strictly inside the circumcircle; tetFourthPoint returns a point with the requested distances on a fixed side of the base triangle whenever one exists.", "quantifier": "all real inputs (exact arithmetic)", "why_tests_cant": "Infinite domain.", "anchors": ["include/geometrycentral/utilities/elementary_geometry.ipp", "src/utilities/elementary_geometry.cpp: inCircleTest"]}
{"id": "C68", "title": "Barycentric vectors denote the same displacement in every element", "statement": "A BarycentricVector built from two points of a face is the displacement between them; moving it to a face or edge it belongs to (inFace, inEdge, inSomeFace) does not change the displacement and asking for one it does not belong to throws; sums, differences, multiples and negation act on the displacements; sharedFace/sharedEdge find a common face/edge when there is one.", "quantifier": "every valid triangle mesh, all points and vectors on it (exact arithmetic)", "why_tests_cant": "Infinitely many meshes, elements and coordinates; the case split over element pairs is only partly reached by any test set.", "anchors": ["include/geometrycentral/surface/barycentric_vector.ipp", "src/surface/barycentric_vector.cpp"]}
{"id": "C69", "title": "Barycentric vector geometry agrees with every embedding", "statement": "For every placement of a face that realises its edge lengths, dot/norm of barycentric vectors are the Euclidean scalar product and length, and rotate90/rotate turn the vector counter-clockwise by a quarter turn and by the given angle, into the face on the proper side for vectors along an edge.", "quantifier": "every valid triangle mesh, all edge lengths, vectors and angles (exact arithmetic)", "why_tests_cant": "Real-valued inputs.", "anchors": ["include/geometrycentral/surface/barycentric_vector.ipp: dot, norm, rotate90, rotate"]}
{"id": "C70", "title": "Isolines are complete, oriented and maximal", "statement": "marchingTriangles returns curves whose steps are exactly one segment for each face with corners on both sides of the level; all points have the level as interpolated value; walking along a curve smaller values are on the left; every curve is closed or runs from boundary to boundary.", "quantifier": "every valid triangle mesh, vertex function and level", "why_tests_cant": "Unbounded meshes and real-valued functions.", "anchors": ["src/surface/marching_triangles.cpp: marchingTriangles"]}
{"id": "C71", "title": "The polygon constructor accepts exactly the oriented manifolds", "statement": "ManifoldSurfaceMesh(polygons) succeeds if and only if the polygons form a consistently oriented surface with boundary: at least one polygon, every polygon of degree at least three, no self-edge, every directed edge used at most once, no unused vertex index, and around every vertex the polygons form a single fan. On every other list it raises an error; it never loops forever and never reads out of bounds.", "quantifier": "every list of polygons", "why_tests_cant": "The accepted set is an infinite family described by a connectivity condition at every vertex; no finite set of inputs shows that the three separate checks in the code together decide it.", "anchors": ["src/surface/manifold_surface_mesh.cpp: ManifoldSurfaceMesh(const std::vector<std::vector<size_t>>&)"]}
{"id": "C72", "title": "Whole-mesh queries describe the mesh", "statement": "On every valid manifold mesh: nInteriorVertices is the number of vertices that touch no boundary loop; isTriangular is true exactly when every face has three sides; connectingEdge(a, b) returns an edge whose ends are a and b, and the null edge only if no edge joins them; getFaceVertexList lists the faces in iteration order, each once around from its first halfedge, with vertices numbered by their rank among the existing vertices.", "quantifier": "every valid mesh, including meshes with deleted elements and boundary, every pair of vertices", "why_tests_cant": "tests run the queries on a few freshly loaded files; the answers must hold for every mesh any mutation history can leave behind", "anchors": ["src/surface/surface_mesh.cpp: SurfaceMesh::nInteriorVertices, SurfaceMesh::isTriangular, SurfaceMesh::connectingEdge, SurfaceMesh::getFaceVertexList"]}
{"id": "C73", "title": "Separating nonmanifold edges leaves every edge with at most two faces", "statement": "On every valid general mesh, separateNonmanifoldEdges() terminates; afterwards no edge has more than two halfedges, every halfedge keeps its face, its successor, its tail and its tip, halfedges that share an edge afterwards shared one before, and the mesh is valid.", "quantifier": "every valid general mesh, any number of faces on any edge", "why_tests_cant": "The edge list grows while it is traversed and each step rewires a cyclic list; tests use one nonmanifold example.", "anchors": ["src/surface/surface_mesh.cpp: separateNonmanifoldEdges, separateToNewEdge, removeFromSiblingList"]}
{"id": "C74", "title": "Inverting a face reverses exactly that face", "statement": "On every valid general mesh and for every face, invertOrientation(f) succeeds: each halfedge of f swaps tail and tip and its orientation flag, the successor relation of f is reversed, every other halfedge keeps tail, tip, successor and flag, edges, faces and siblings are unchanged, the lists around vertices are updated, and inverting twice restores the mesh.", "quantifier": "every valid general mesh, every face of any degree, including faces that meet a vertex or an edge several times", "why_tests_cant": "Faces of every size with every pattern of repeated vertices and edges.", "anchors": ["src/surface/surface_mesh.cpp: invertOrientation, removeFromVertexLists, addToVertexLists"]}
{"id": "C77", "title": "Edge flips on general meshes", "statement": "On every valid general mesh without one-sided faces, flip(e, preventSelfEdges) terminates without error; it returns true exactly when e has two halfedges, which lie in two different triangles (whatever their orientation), and, with preventSelfEdges, no edge joins the opposite corners; it then joins the opposite corners, keeps the edge and ends of every other halfedge, and leaves other faces alone; when it returns false nothing changes; the mesh stays valid.", "quantifier": "every valid general mesh, every edge, both values of the flag", "why_tests_cant": "All degenerate configurations (repeated vertices, self-edges, opposite orientations) must be covered.", "anchors": ["src/surface/surface_mesh.cpp: flip"]}
{"id": "C75", "title": "Duplicating a face adds one coincident face", "statement": "On every valid general mesh and for every face f, duplicateFace(f) succeeds and returns a new face whose halfedges correspond one to one, in the same order and direction, to those of f and lie on the same edges; all other connectivity is unchanged and the mesh stays valid, including the counts of interior halfedges and corners.", "quantifier": "every valid general mesh, every face of any degree, including faces that meet an edge or a vertex several times", "why_tests_cant": "The sibling and vertex lists are extended while they are traversed; faces with repeated edges and every list length must be covered.", "anchors": ["src/surface/surface_mesh.cpp: duplicateFace, getNewHalfedge, getNewFace", "include/geometrycentral/surface/surface_mesh.ipp: nInteriorHalfedges, nCorners"]}
{"id": "C76", "title": "Separating nonmanifold vertices groups corners by the edges that join them", "statement": "On every valid general mesh, separateNonmanifoldVertices() throws if some edge has three or more halfedges. Otherwise it terminates: afterwards two corners have the same vertex exactly if a chain of corners meeting across edges links them, every old vertex remains, the returned data maps every vertex to the vertex it was split from, nothing but the vertices changes, the mesh is valid, and a second call changes no vertex.", "quantifier": "every valid general mesh, any pattern of faces meeting in vertices", "why_tests_cant": "Which corners belong together is an equivalence closure over the whole mesh; vertices are allocated while the loop runs and attached data grows with them.", "anchors": ["src/surface/surface_mesh.cpp: separateNonmanifoldVertices, initializeHalfedgeNeighbors, getNewVertex", "src/utilities/disjoint_sets.cpp"]}
{"id": "C78", "title": "Greedy orientation orients every orientable component", "statement": "On every valid general mesh greedilyOrientFaces() terminates without error. It changes the mesh only by reversing whole faces and leaves it valid. Wherever the faces of a part of the mesh that is closed under crossing two-sided edges can be reversed so that neighbours agree, they agree afterwards: the two halfedges of every such edge run in opposite directions.", "quantifier": "every valid general mesh, any number of components, orientable or not, with boundary and nonmanifold edges", "why_tests_cant": "The result depends on a search order over the whole mesh that reverses faces while it runs; orientability is a global property of arbitrarily large components.", "anchors": ["src/surface/surface_mesh.cpp: greedilyOrientFaces, invertOrientation", "include/geometrycentral/surface/halfedge_element_types.ipp: Edge::isBoundary, isManifold, isOriented"]}
{"id": "C79", "title": "Angles, areas and curvatures of an intrinsic triangle mesh satisfy Gauss-Bonnet", "statement": "For every triangle mesh and every assignment of positive edge lengths satisfying the strict triangle inequality in each face: each corner angle is the Euclidean angle of its triangle, each face area the Euclidean area, vertex dual areas are positive and add up to the area of the surface, the angle defects of interior vertices plus the turning angles of boundary vertices add up to 2 pi times the Euler characteristic, scaled angles add up to a full (boundary: half) turn at each vertex, face curvatures add up to 2 pi times the Euler characteristic, and the immediate functions return the values of the cached containers.", "quantifier": "every valid triangle mesh, with or without boundary, with deleted elements, of any genus; every metric", "why_tests_cant": "Gauss-Bonnet is an identity about sums over meshes of arbitrary size and topology and over all real edge lengths.", "anchors": ["src/surface/intrinsic_geometry_interface.cpp: computeFaceAreas, computeVertexDualAreas, computeCornerAngles, computeVertexAngleSums, computeCornerScaledAngles, computeVertexGaussianCurvatures, computeFaceGaussianCurvatures", "include/geometrycentral/surface/edge_length_geometry.ipp: faceArea, vertexDualArea, cornerAngle, vertexGaussianCurvature"]}
{"id": "C80", "title": "The cotangent Laplacian, exterior derivatives and mass matrices are the expected operators", "statement": "For every triangle mesh and metric: edge weights are half the sum of the cotangents of the opposite angles; the cotangent Laplacian is symmetric, equals d0^T * hodge1 * d0, acts as the weighted difference to the neighbours, is positive semidefinite whatever the metric, and its kernel consists exactly of the functions constant along edges; d1 * d0 = 0; d0 and d1 are the signed incidence matrices; the Galerkin mass matrix is symmetric positive definite with row sums equal to the dual areas, which are the entries of the lumped matrix and add up to the area. Rows and columns follow the iteration order of the elements.", "quantifier": "every valid triangle mesh (deleted elements, boundary, several edges between the same vertices, any genus) and every metric, Delaunay or not", "why_tests_cant": "Definiteness and d1 d0 = 0 quantify over all real vectors and all meshes; triplets that fall on the same position must be summed.", "anchors": ["src/surface/intrinsic_geometry_interface.cpp: computeHalfedgeCotanWeights, computeEdgeCotanWeights, computeCotanLaplacian, computeVertexLumpedMassMatrix, computeVertexGalerkinMassMatrix, computeDECOperators", "include/geometrycentral/surface/edge_length_geometry.ipp: halfedgeCotanWeight, edgeCotanWeight"]}
{"id": "C81", "title": "Tangent vectors, parallel transport and connection Laplacians agree with the metric", "statement": "For every triangle mesh and metric: the halfedge vectors in a face have the edge lengths, add up to zero and enclose twice the area counterclockwise, the first along the x axis; the halfedge vectors at a vertex have the edge lengths and directions that start at zero at the vertex's halfedge and advance counterclockwise by the rescaled corner angles, covering a full turn at interior and a half turn at boundary vertices; transport across an edge and along a halfedge are unit rotations taking the vector of the halfedge to minus that of its twin, inverse to the transport of the twin; both connection Laplacians are Hermitian and act as the (weighted) difference to the transported neighbours; the face one is positive semidefinite with exactly the parallel fields in its kernel, the vertex one has the Dirichlet energy as its quadratic form and is positive semidefinite when no weight is negative.", "quantifier": "every valid triangle mesh (boundary, deleted elements, any genus) and every metric; every complex vector field", "why_tests_cant": "The claims quantify over all meshes, all real edge lengths and all complex vectors.", "anchors": ["src/surface/intrinsic_geometry_interface.cpp: computeHalfedgeVectorsInFace, computeTransportVectorsAcrossHalfedge, computeHalfedgeVectorsInVertex, computeTransportVectorsAlongHalfedge, computeVertexConnectionLaplacian, computeFaceConnectionLaplacian"]}
{"id": "C82", "title": "Positioned geometry: agreement, normals and extrinsic curvatures", "statement": "For a triangle mesh with vertex positions and no degenerate triangle: the edge lengths are the distances between end points; areas, corner angles, dual areas, Gaussian curvatures and cotangent weights computed from positions equal those computed from the lengths, and the cached containers equal the immediate functions; face normals are unit, orthogonal to their face and oriented counterclockwise; vertex normals are the normalised angle-weighted sum; mean curvature normals are half the cotangent Laplacian of the positions and sum to zero; a dihedral angle lies in (-pi, pi] and turns one face normal into the other about the edge, read from either side, zero on the boundary; mean curvatures add up to half the sum of angle times length over edges; principal curvatures are ordered with the right sum and product.", "quantifier": "every valid triangle mesh (with or without boundary, with deleted elements), every assignment of positions without degenerate triangle, every vertex, edge, face, corner and halfedge", "why_tests_cant": "the identities are between independently written formulas (Heron against cross products, law of cosines against dot products) and hold for every mesh and every position; a test compares finitely many numbers up to a tolerance", "anchors": ["src/surface/embedded_geometry_interface.cpp: computeEdgeLengths, computeEdgeDihedralAngles, computeFaceNormals, computeVertexNormals, computeVertexDualMeanCurvatureNormals, computeFaceAreas, computeCornerAngles, computeHalfedgeCotanWeights, computeEdgeCotanWeights", "src/surface/extrinsic_geometry_interface.cpp: computeVertexMeanCurvatures, computePrincipalCurvatures", "include/geometrycentral/surface/vertex_position_geometry.ipp"]}
{"id": "C83", "title": "Crouzeix-Raviart operators on edges", "statement": "For a triangle mesh with edge lengths obeying the triangle inequality: the Crouzeix-Raviart Laplacian is symmetric, acts in every triangle as the cotangent-weighted difference between an edge and the other two, maps constants to zero, is positive semidefinite for every metric (Delaunay or not), vanishes only on functions constant on the edges of every triangle, and assigns to the edge midpoints of a function on vertices the same energy as the cotangent Laplacian; the mass matrix is diagonal, positive, holds a third of the area of the triangles at each edge and adds up to the area of the surface; the connection Laplacian is Hermitian and positive semidefinite, its quadratic form is the energy of the field seen in the coordinates of each triangle whatever the orientation of the edges, and it vanishes exactly on fields parallel inside every triangle.", "quantifier": "every valid triangle mesh (with or without boundary, with deleted elements, with a triangle glued to itself), every metric, every field of reals or complex numbers on edges", "why_tests_cant": "definiteness, symmetry and kernel are statements about every field on every mesh and metric; sign errors from edge orientation show only for some orientations", "anchors": ["src/surface/intrinsic_geometry_interface.cpp: computeCrouzeixRaviartLaplacian, computeCrouzeixRaviartMassMatrix, computeCrouzeixRaviartConnectionLaplacian"]}
{"id": "C84", "title": "Tangent frames and curvature directions of positioned triangle meshes", "statement": "requireFaceTangentBasis yields at every face an orthonormal basis of its plane, right-handed about the face normal, in which the intrinsic halfedge vectors of the face are the coordinates of its edges in space. requireVertexTangentBasis yields at every vertex the normalised sum of the projected edges turned back by their intrinsic angles and its quarter turn about the vertex normal; the basis is orthonormal and right-handed when the normal and the sum are not zero, and around a vertex where nothing is bent the intrinsic halfedge vectors are the coordinates of the edges. The curvature directions of vertices and faces are the sums over their edges of the square of the unit vector orthogonal to the edge weighted by a quarter of dihedral angle times length, no longer than the sum of the weights (the mean curvature where no edge is concave).", "quantifier": "all valid triangle meshes with implicit twins, with or without boundary, in any memory layout, and all nondegenerate positions", "why_tests_cant": "the relations hold for all real positions and all triangulations, and tie two coordinate systems computed along different paths to each other; a test fixes one mesh", "anchors": ["src/surface/embedded_geometry_interface.cpp: computeFaceTangentBasis, computeVertexTangentBasis", "src/surface/extrinsic_geometry_interface.cpp: computeVertexPrincipalCurvatureDirections, computeFacePrincipalCurvatureDirections", "include/geometrycentral/utilities/vector3.ipp: rotateAround, removeComponent"]}
{"id": "C85", "title": "Operators on polygon meshes by virtual refinement", "statement": "For any weights, one list per face, requireSimplePolygonLaplacian yields a symmetric positive semidefinite matrix over the vertices that annihilates constants when the weights of each face sum to one, and whose energy is the Dirichlet energy of the function extended linearly over the triangles joining each side of a face to the weighted point of the face. The Galerkin mass matrix integrates products of such functions exactly, is symmetric and positive semidefinite, and sums to the area of the triangles; the lumped mass matrix is the diagonal of its row sums. The prolongation matrix keeps vertex values and gives each face the weighted value of its corners.", "quantifier": "all valid polygon meshes with implicit twins, with or without boundary, in any memory layout, all positions, all weights", "why_tests_cant": "identities between matrices and integrals for all real positions, weights and polygon meshes", "anchors": ["src/surface/embedded_geometry_interface.cpp: computeSimplePolygonLaplacian, computeSimplePolygonVertexGalerkinMassMatrix, computeSimplePolygonVertexLumpedMassMatrix, simplePolygonMassMatrix, simplePolygonStiffnessMatrix, simplePolygonProlongationMatrix"]}
{"id": "C86", "title": "Virtual element operators on polygon meshes", "statement": "requirePolygonLaplacian yields a symmetric matrix that annihilates constants and whose energy is, over the faces, the area times the squared mean gradient (by the divergence theorem) plus polygonLambda times the squared mismatch along each side; it is positive semidefinite, and exact for functions that are linear on each face. The gradient matrix gives the gradient of such functions and the divergence matrix is its area-weighted transpose. Face areas are the lengths of the vector areas, and face normals are their directions.", "quantifier": "all valid polygon meshes with implicit twins, with or without boundary, in any memory layout, all positions, all lambda", "why_tests_cant": "identities for all real positions and all polygon meshes; the wrong sign of the gradient and the flipped normal of a star-shaped face only show on inputs a test must hit", "anchors": ["src/surface/embedded_geometry_interface.cpp: computePolygonLaplacian, computePolygonGradientMatrix, computePolygonDivergenceMatrix, polygonPerFaceLaplacian, polygonSharp, polygonFlat, computeFaceAreas, computeFaceNormals", "src/surface/polygon_mesh_helpers.cpp: polygonAveragingMatrix, polygonDerivativeMatrix, bracket", "docs/docs/surface/geometry/quantities.md: polygon mesh gradient matrix"]}
{"id": "C87", "title": "Intrinsic mollification", "statement": "mollifyIntrinsicAbsolute adds one and the same nonnegative amount to every edge length, the least one after which in every triangle the sum of two sides exceeds the third by at least the given margin. With a positive margin any positive lengths become lengths of nondegenerate triangles. mollifyIntrinsic is the same with the margin given as a fraction of the mean edge length.", "quantifier": "all valid meshes in any memory layout, all edge lengths (triangle inequality may fail), all margins", "why_tests_cant": "minimality of the added amount and the triangle inequality for all lengths and all meshes", "anchors": ["src/surface/intrinsic_mollification.cpp: mollifyIntrinsic, mollifyIntrinsicAbsolute"]}
{"id": "C88", "title": "Indices of direction fields", "statement": "computeFaceIndex and computeVertexIndex return, for each face (each interior vertex), the integer number of turns of an n-fold symmetric field around it: 2 pi times the index is n times the curvature there plus the turning of the field between neighbouring values, each turning measured after parallel transport and at most half a turn. On a closed surface the indices add up to n times the Euler characteristic.", "quantifier": "all valid triangle meshes with implicit twins and any edge lengths, with or without boundary, in any memory layout, all nonvanishing fields, all symmetry orders", "why_tests_cant": "a topological identity over all meshes, metrics and fields; it fails exactly on fields that are opposite along an edge and on faces at the boundary, which generic test fields miss", "anchors": ["src/surface/direction_fields.cpp: computeFaceIndex, computeVertexIndex", "include/geometrycentral/surface/direction_fields.h"]}
{"id": "C89", "title": "Fast marching distances", "statement": "FMMDistance (unsigned) ends for every set of source points and initial distances. A vertex next to a source point gets the least distance the input gives it; along every edge the distance grows by at most its length; the distance of every other vertex comes from nearer vertices, along an edge, as that of a unit-slope linear front arriving from inside a triangle, or over the height of an obtuse corner; exactly the vertices connected to a source have a finite distance.", "quantifier": "all valid triangle meshes with implicit twins, any edge lengths satisfying the triangle inequality, any source points and initial distances, any order in which the heap yields entries at the same distance", "why_tests_cant": "a property of every run of a priority-queue search over all meshes and metrics; the order among equal entries is unspecified; it fails for source points inside faces and between several sources, where the results look plausible", "anchors": ["src/surface/fast_marching_method.cpp: FMMDistance, eikonalDistanceSubroutine", "include/geometrycentral/surface/fast_marching_method.h"]}
{"id": "C90", "title": "Quaternions", "statement": "Quaternion implements Hamilton's quaternions: products follow the multiplication table, are associative and distribute; norms multiply; bar reverses products; inv is a two-sided inverse of every nonzero quaternion; unit has norm one; toMatrix turns products into matrix products; conjugation with (cos(t/2), sin(t/2) axis) is Vector3::rotateAround by t. slerp starts at the first and ends at the second quaternion, interpolates lengths linearly and moves with constant angular speed in their plane.", "quantifier": "all quaternions (reals), all axes, angles and times in [0,1]", "why_tests_cant": "identities over all real quaternions; a wrong sign in one term of the product or of one matrix entry passes on inputs with zero components, and slerp fails exactly on parallel inputs", "anchors": ["src/utilities/quaternion.cpp", "include/geometrycentral/utilities/quaternion.h: Quaternion, slerp"]}
{"id": "C91", "title": "Linear subdivision", "statement": "linearSubdivide succeeds and leaves a valid mesh whose vertices are one for each old vertex, edge and face, and whose faces are quads, one for each corner of an old face: its corners are the old vertex, the middles of the two sides that meet there and the centre of the face. Quads next to each other share sides as the old faces and corners did, the boundary stays the boundary, and vertices, edges, faces and loops have the counts V+E+F, 2E+C, C and L for C corners. Old vertices stay where they are; edge vertices are at the midpoints and face vertices at the mean of the corners.", "quantifier": "all valid manifold meshes with implicit twins (polygons of any degree, any boundary, deleted elements and spare capacity included) where no e.halfedge() starts at a vertex of degree one, all vertex positions", "why_tests_cant": "the function changes the mesh while it iterates over it: that no edge or face is visited twice, skipped or split as a new one depends on the numbering of new elements for every mesh", "anchors": ["src/surface/subdivide.cpp: linearSubdivide", "include/geometrycentral/surface/subdivide.h"]}
{"id": "C92", "title": "Catmull-Clark subdivision", "statement": "catmullClarkSubdivide refines the mesh as linear subdivision does and places the vertices by the rules of Catmull and Clark: face vertices at the mean of the corners, edge vertices at the mean of the ends and the two face vertices, old vertices at (Q + 2R + (D-3)S)/D with Q the mean of the face vertices, R the mean of the edge midpoints around it, D its degree and S its position; the result moves with the input under translations.", "quantifier": "all valid manifold meshes with implicit twins where no e.halfedge() starts at a vertex of degree one, all vertex positions", "why_tests_cant": "the mesh changes while it is iterated over, for every mesh; wrong weights give smooth plausible surfaces", "anchors": ["src/surface/subdivide.cpp: catmullClarkSubdivide"]}
{"id": "C93", "title": "Loop subdivision", "statement": "loopSubdivide succeeds and leaves a valid triangle mesh with one vertex for each old vertex and each old edge, where every old edge is replaced by two that join its new vertex to its ends and every old triangle by four: one at each corner and one in the middle. Vertices, edges, faces and loops have the counts V+E, 2E+C, F+C and L for C corners. Interior old vertices move to (1-nu)p + u times the sum of their n neighbours, u = 3/16 if n = 3 and 3/(8n) otherwise; boundary ones to 3/4 of themselves and 1/8 of each neighbour along the boundary; the vertex of an edge between two triangles is at 3/8 of its ends and 1/8 of the opposite corners, that of a boundary edge at its midpoint.", "quantifier": "all valid triangle meshes with implicit twins and without edges from a vertex to itself (any boundary, deleted elements and spare capacity included), all vertex positions", "why_tests_cant": "the mesh changes while its edges are iterated over, and which edges are flipped depends on the order in which the sides of each triangle are split; refused flips are ignored silently", "anchors": ["src/surface/subdivide.cpp: loopSubdivide", "src/surface/manifold_surface_mesh.cpp: splitEdgeTriangular", "src/surface/surface_mesh.cpp: flip"]}
{"id": "C94", "title": "Nearest neighbour queries", "statement": "kNearest lists the k points nearest to the query, nearest first, and throws if there are fewer than k points. kNearestNeighbors lists the k points nearest to a given one among the others: it never lists the point itself, also when others coincide with it, and throws if there are fewer than k others. radiusSearch lists exactly the points at a distance less than the absolute value of the radius, once each. Neighborhoods of a compressed cloud holds for each point its k nearest others.", "quantifier": "all lists of points (coinciding points included), queries, numbers and radii; all exact searches by the kd-tree library, with ties in any order", "why_tests_cant": "the order of ties is up to the library and when points coincide the source may be missing from the list of the nearest; tests see the order of one version on a few clouds", "anchors": ["src/utilities/knn.cpp: kNearest, kNearestNeighbors, radiusSearch", "src/pointcloud/neighborhoods.cpp: Neighborhoods::Neighborhoods"]}
