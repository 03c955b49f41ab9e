(** Whole-mesh queries of SurfaceMesh (implicit twins): src/surface/surface_mesh.cpp *)
From Verif Require Import Base MeshModel DataModel MeshDataModel DisjointSetsModel.
Open Scope Z_scope.

(** getVertexIndices, surface_mesh.cpp:468-476 *)
Definition vertexIndices (m : mesh) : res (mdata nat) := let* els := elements m EVertex in md_indices (Z.to_nat (vCap m)) els.

(** nConnectedComponents, surface_mesh.cpp:442-453. The unordered_set of representatives is a list without repetitions. *)
Definition insertNew (r : nat) (l : list nat) : list nat := if existsb (Nat.eqb r) l then l else r :: l.
Definition mergeEdge (m : mesh) (ind : mdata nat) (s : dsets) (e : nat) : res dsets :=
  let h := eHe (Z.of_nat e) in
  let* a := vertexOf m h in let* i := dataAt ind a in
  let* b := vertexOf m (tw h) in let* j := dataAt ind b in
  ds_merge s i j.
Definition collectRoot (st : dsets * list nat) (i : nat) : res (dsets * list nat) :=
  let (s, seen) := st in let* (s, r) := ds_find s i in Ok (s, insertNew r seen).
Definition nConnectedComponents (m : mesh) : res nat :=
  let* ind := vertexIndices m in
  let n := Z.to_nat (nVertices m) in
  let* es := elements m EEdge in
  let* s := foldM (mergeEdge m ind) es (ds_init n) in
  let* (_, seen) := foldM collectRoot (seq 0 n) (s, []) in
  Ok (length seen).

(** nInteriorVertices, surface_mesh.cpp:455-463 *)
Definition nInteriorVertices (m : mesh) : res nat :=
  let* vs := elements m EVertex in
  foldM (fun n v => let* b := vIsBoundary m (Z.of_nat v) in Ok (if negb b then S n else n)) vs 0%nat.

(** isTriangular, surface_mesh.cpp:375-382; hasBoundary of a manifold mesh: surface_mesh.h, nBoundaryLoops > 0 *)
Fixpoint allTriangles (m : mesh) (fs : list nat) : res bool :=
  match fs with
  | [] => Ok true
  | f :: t => let* b := isTriangle m (Z.of_nat f) in if negb b then Ok false else allTriangles m t
  end.
Definition isTriangular (m : mesh) : res bool := let* fs := elements m EFace in allTriangles m fs.

(** Edge::otherVertex, halfedge_element_types.ipp:300-306; tipVertex() is next().vertex(), :223 *)
Definition otherVertex (m : mesh) (e v : Z) : res Z :=
  let* t := vertexOf m (eHe e) in
  if t =? v then let* n := next m (eHe e) in vertexOf m n else vertexOf m (eHe e).
(** connectingEdge, surface_mesh.cpp:637-644; adjacentEdges() visits the edges of the outgoing halfedges,
    halfedge_element_types.ipp:119,201-203 with implicit twins. None: Edge() *)
Fixpoint connectScan (m : mesh) (vA vB : Z) (hs : list Z) : res (option Z) :=
  match hs with
  | [] => Ok None
  | h :: t => let* w := otherVertex m (edge h) vA in if w =? vB then Ok (Some (edge h)) else connectScan m vA vB t
  end.
Definition connectingEdge (m : mesh) (vA vB : Z) : res (option Z) := let* hs := vertHalfedges m vA in connectScan m vA vB hs.

(** getFaceVertexList, surface_mesh.cpp:646-661, with the vertex numbering of getVertexIndices *)
Definition faceVertexList (m : mesh) : res (list (list nat)) :=
  let* ind := vertexIndices m in
  let* fs := elements m EFace in
  mapM (fun f => let* hs := faceHalfedges m (Z.of_nat f) in mapM (fun h => let* v := vertexOf m h in dataAt ind v) hs) fs.
