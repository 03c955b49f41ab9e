(** C81: tangent vectors, parallel transport and connection Laplacians. *)
From Coq Require Import Reals Lra.
From Verif Require Import Base DataModel MeshModel MeshSpec MeshBase MeshOpSpec MeshCheck MeshExamples MeshOrbit MeshThms MeshDataModel PointProperties DelaunayExamples
  MatrixModel MatrixSpec GeoModel IntrinsicModel IntrinsicSpec TangentSpec Intrinsic14 IntrinsicProperties.
Open Scope R_scope.

(** Coordinates in a face: the vectors of its three halfedges have the lengths of the edges, add up to zero and turn counterclockwise around its area; the first
    halfedge of the face points along the x axis. *)
Theorem C81_face_vectors : forall m len, Valid m -> triangular m -> Metric m len ->
  exists areas vec, faceAreas m len = Ok areas /\ halfedgeVectorsInFace m len areas = Ok vec /\
    (forall h, liveH m h -> ~ ext m h -> norm2_2 (vecAt vec h) = lh len h * lh len h /\ add2 (add2 (vecAt vec h) (vecAt vec (nx m h))) (vecAt vec (nx m (nx m h))) = mk2 0 0 /\
       (exists A, areaAt m len h A) /\ forall A, areaAt m len h A -> cross2 (vecAt vec h) (vecAt vec (nx m h)) = 2 * A) /\
    (forall f, liveF m f -> vecAt vec (fh m f) = mk2 (lh len (fh m f)) 0).
Proof. exact face_vectors_all. Qed.
Print Assumptions C81_face_vectors.

(** Transport across an interior edge is the rotation between the coordinates of the two faces, inverse to the one across the twin. *)
Theorem C81_transport_across : forall m len, Valid m -> triangular m -> Metric m len ->
  exists areas vec tr, faceAreas m len = Ok areas /\ halfedgeVectorsInFace m len areas = Ok vec /\ transportAcross m vec = Ok tr /\
    forall h, liveH m h -> ~ ext m h -> ~ ext m (tw h) -> rotates (vecAt vec) (vecAt tr) h.
Proof. exact transport_across_all. Qed.
Print Assumptions C81_transport_across.

(** Coordinates at a vertex: every halfedge leaving it gets the length of its edge and a direction; directions start at zero at the vertex's halfedge, advance
    counterclockwise by the rescaled angles, close up around interior vertices and span a half turn at boundary ones. *)
Theorem C81_vertex_vectors : forall m len, Valid m -> triangular m -> Metric m len ->
  exists angles sums scaled vec, cornerAngles m len = Ok angles /\ vertexAngleSums m angles = Ok sums /\ cornerScaledAngles m angles sums = Ok scaled /\ halfedgeVectorsInVertex m len scaled = Ok vec /\
    exists theta : Z -> R,
      (forall h, liveH m h -> vecAt vec h = mul2 (fromAngle (theta h)) (lh len h) /\ 0 <= theta h < 2 * PI) /\
      (forall v, liveV m v -> theta (vh m v) = 0) /\
      (forall h, liveH m h -> ~ ext m h -> theta (ccwNext m h) = theta h + valAt scaled h \/ ccwNext m h = vh m (ve m h) /\ theta h + valAt scaled h = 2 * PI) /\
      (forall h, liveH m h -> ext m h -> theta h = PI).
Proof. exact vertex_vectors_all. Qed.
Print Assumptions C81_vertex_vectors.

(** Transport along a halfedge is the rotation between the coordinates of its two vertices, inverse to the one along the twin. *)
Theorem C81_transport_along : forall m len, Valid m -> triangular m -> Metric m len ->
  exists angles sums scaled vec tr, cornerAngles m len = Ok angles /\ vertexAngleSums m angles = Ok sums /\ cornerScaledAngles m angles sums = Ok scaled /\ halfedgeVectorsInVertex m len scaled = Ok vec /\ transportAlong m vec = Ok tr /\
    forall h, liveH m h -> rotates (vecAt vec) (vecAt tr) h.
Proof. exact transport_along_all. Qed.
Print Assumptions C81_transport_along.

(** The vertex connection Laplacian: Hermitian, acts as the weighted difference to the transported neighbours, with the Dirichlet energy of the field as its quadratic form;
    positive semidefinite when no edge weight is negative. *)
Theorem C81_vertex_connection : forall m len, Valid m -> triangular m -> Metric m len ->
  exists areas w angles sums scaled vec tr L vs hs, faceAreas m len = Ok areas /\ edgeCotanWeights m len areas = Ok w /\
    cornerAngles m len = Ok angles /\ vertexAngleSums m angles = Ok sums /\ cornerScaledAngles m angles sums = Ok scaled /\ halfedgeVectorsInVertex m len scaled = Ok vec /\ transportAlong m vec = Ok tr /\
    vertexConnectionLaplacian m w tr = Ok L /\ elements m EVertex = Ok vs /\ elements m EHalfedge = Ok hs /\ rows L = Z.to_nat (nVertices m) /\ cols L = Z.to_nat (nVertices m) /\
    let el := entryAt (mk2 0 0) m EVertex EVertex L in let r := vecAt tr in
    (forall a b, liveV m a -> liveV m b -> el a b = conj2 (el b a)) /\
    (forall (x : Z -> V2) v out, liveV m v -> leaving m v out ->
       ctotal (fun u => cmul (el v u) (x u)) vs = Csum (fun h => mul2 (sub2 (x v) (cmul (r (tw h)) (x (ve m (tw h))))) (valAt w (edge h))) out) /\
    (forall x : Z -> V2, 2 * total (fun v => dot2 (x v) (ctotal (fun u => cmul (el v u) (x u)) vs)) vs = total (fun h => valAt w (edge h) * norm2_2 (sub2 (x (ve m h)) (cmul (r (tw h)) (x (ve m (tw h)))))) hs) /\
    ((forall h, liveH m h -> 0 <= valAt w (edge h)) -> forall x : Z -> V2, 0 <= total (fun v => dot2 (x v) (ctotal (fun u => cmul (el v u) (x u)) vs)) vs).
Proof. exact vertex_connection_all. Qed.
Print Assumptions C81_vertex_connection.

(** The face connection Laplacian: Hermitian, acts as the difference to the transported neighbours, positive semidefinite, and zero exactly on fields that are parallel across
    every interior edge. *)
Theorem C81_face_connection : forall m len, Valid m -> triangular m -> Metric m len ->
  exists areas vec tr L fs, faceAreas m len = Ok areas /\ halfedgeVectorsInFace m len areas = Ok vec /\ transportAcross m vec = Ok tr /\ faceConnectionLaplacian m tr = Ok L /\ elements m EFace = Ok fs /\
    rows L = Z.to_nat (nFaces m) /\ cols L = Z.to_nat (nFaces m) /\
    let el := entryAt (mk2 0 0) m EFace EFace L in let r := vecAt tr in
    (forall f g, liveF m f -> liveF m g -> el f g = conj2 (el g f)) /\
    (forall (x : Z -> V2) f sides, liveF m f -> facing m f sides ->
       ctotal (fun g => cmul (el f g) (x g)) fs = Csum (fun h => sub2 (x f) (cmul (r (tw h)) (x (fa m (tw h))))) sides) /\
    (forall x : Z -> V2, 0 <= total (fun f => dot2 (x f) (ctotal (fun g => cmul (el f g) (x g)) fs)) fs) /\
    (forall x : Z -> V2, total (fun f => dot2 (x f) (ctotal (fun g => cmul (el f g) (x g)) fs)) fs = 0 <->
       forall h, liveH m h -> ~ ext m h -> ~ ext m (tw h) -> x (fa m (tw h)) = cmul (r h) (x (fa m h))).
Proof. exact face_connection_all. Qed.
Print Assumptions C81_face_connection.

Example C81_witness : (Valid quad /\ triangular quad /\ Metric quad quadLens /\ exists h, liveH quad h /\ ~ ext quad h /\ ~ ext quad (tw h)) /\ (Valid tet /\ triangular tet /\ Metric tet tetLens /\ liveV tet 0).
Proof.
  split; [split; [exact quad_valid|]; split; [exact quad_tri|]; split; [apply range_metric, quad_valid|]|].
  - exists 4%Z. repeat split; vm_compute; congruence.
  - split; [exact tet_valid|]. split; [exact tet_triangular|]. split; [apply range_metric, tet_valid|]. repeat split; vm_compute; congruence.
Qed.
