(** C80: the discrete operators built from cotangent weights. *)
From Coq Require Import Reals Lra.
From Verif Require Import Base DataModel MeshModel MeshSpec MeshBase MeshOpSpec MeshCheck MeshExamples MeshOrbit MeshThms MeshDataModel PointProperties DelaunayExamples
  MatrixModel MatrixSpec IntrinsicModel IntrinsicSpec Intrinsic10 IntrinsicProperties.
Open Scope R_scope.

(** Cotangent weights: half the cotangent of the opposite angle on interior halfedges, nothing on exterior ones; the weight of an edge is the sum over its
    two sides; the immediate functions agree. *)
Theorem C80_cotan_weights : forall m len, Valid m -> triangular m -> Metric m len ->
  exists areas hw ew, faceAreas m len = Ok areas /\ halfedgeCotanWeights m len areas = Ok hw /\ edgeCotanWeights m len areas = Ok ew /\
    (forall h, liveH m h -> ~ ext m h -> (exists c, cotOpposite m len h c) /\ forall c, cotOpposite m len h c -> valAt hw h = c / 2) /\
    (forall h, liveH m h -> ext m h -> valAt hw h = 0) /\
    (forall h, liveH m h -> valAt ew (edge h) = valAt hw h + valAt hw (tw h)) /\
    (forall h, liveH m h -> halfedgeCotanWeight m len h = Ok (valAt hw h) /\ edgeCotanWeight m len (edge h) = Ok (valAt ew (edge h))).
Proof. exact weights_all. Qed.
Print Assumptions C80_cotan_weights.

(** The cotangent Laplacian: symmetric, acts as the weighted difference to the neighbours (so constants are in its kernel), positive semidefinite for
    every metric, Delaunay or not, and with nothing but functions constant along edges in its kernel. *)
Theorem C80_laplacian : forall m len, Valid m -> triangular m -> Metric m len ->
  exists areas w L vs, faceAreas m len = Ok areas /\ edgeCotanWeights m len areas = Ok w /\ cotanLaplacian m w = Ok L /\ elements m EVertex = Ok vs /\
    rows L = Z.to_nat (nVertices m) /\ cols L = Z.to_nat (nVertices m) /\
    let el := entryAt 0 m EVertex EVertex L in
    (forall a b, liveV m a -> liveV m b -> el a b = el b a) /\
    (forall (x : Z -> R) v out, liveV m v -> leaving m v out -> total (fun u => el v u * x u) vs = Rsum (fun h => valAt w (edge h) * (x v - x (ve m (tw h)))) out) /\
    (forall v, liveV m v -> total (el v) vs = 0) /\
    (forall x : Z -> R, 0 <= total (fun v => x v * total (fun u => el v u * x u) vs) vs) /\
    (forall x : Z -> R, total (fun v => x v * total (fun u => el v u * x u) vs) vs = 0 <-> forall h, liveH m h -> x (ve m h) = x (ve m (tw h))).
Proof. exact laplacian_all. Qed.
Print Assumptions C80_laplacian.

(** Discrete exterior calculus: d0 is the difference along an edge from the tail to the head of its halfedge, d1 the signed sum around a face, d1 d0 = 0,
    and the cotangent Laplacian is the transpose of d0 times the edge weights times d0; the Hodge stars hold dual areas, edge weights and reciprocal areas. *)
Theorem C80_dec : forall m len, Valid m -> triangular m -> Metric m len ->
  exists areas dual w L d0 d1 s0 s1 s2 vs es, faceAreas m len = Ok areas /\ vertexDualAreas m areas = Ok dual /\ edgeCotanWeights m len areas = Ok w /\ cotanLaplacian m w = Ok L /\
    decD0 m = Ok d0 /\ decD1 m = Ok d1 /\ hodge0 m dual = Ok s0 /\ hodge1 m w = Ok s1 /\ hodge2 m areas = Ok s2 /\ elements m EVertex = Ok vs /\ elements m EEdge = Ok es /\
    (rows d0 = Z.to_nat (nEdges m) /\ cols d0 = Z.to_nat (nVertices m) /\ rows d1 = Z.to_nat (nFaces m) /\ cols d1 = Z.to_nat (nEdges m)) /\
    let D0 := entryAt 0 m EEdge EVertex d0 in let D1 := entryAt 0 m EFace EEdge d1 in
    (forall (x : Z -> R) e, liveH m (eHe e) -> total (fun v => D0 e v * x v) vs = x (ve m (tw (eHe e))) - x (ve m (eHe e))) /\
    (forall x : Z -> R, (forall e, liveH m (eHe e) -> total (fun v => D0 e v * x v) vs = 0) <-> forall h, liveH m h -> x (ve m h) = x (ve m (tw h))) /\
    (forall (y : Z -> R) h, liveH m h -> ~ ext m h -> exists s : Z -> R, (forall h, s (eHe (edge h)) = 1 /\ s (tw (eHe (edge h))) = -1) /\
       total (fun e => D1 (fa m h) e * y e) es = s h * y (edge h) + s (nx m h) * y (edge (nx m h)) + s (nx m (nx m h)) * y (edge (nx m (nx m h)))) /\
    (forall f v, liveF m f -> liveV m v -> total (fun e => D1 f e * D0 e v) es = 0) /\
    (forall a b, liveV m a -> liveV m b -> entryAt 0 m EVertex EVertex L a b = total (fun e => D0 e a * nth (indexOf m EEdge e) s1 0 * D0 e b) es) /\
    (length s0 = Z.to_nat (nVertices m) /\ length s1 = Z.to_nat (nEdges m) /\ length s2 = Z.to_nat (nFaces m)) /\
    (forall v, liveV m v -> nth (indexOf m EVertex v) s0 0 = valAt dual v) /\ (forall h, liveH m h -> nth (indexOf m EEdge (edge h)) s1 0 = valAt w (edge h)) /\
    (forall f, liveF m f -> nth (indexOf m EFace f) s2 0 * valAt areas f = 1).
Proof. exact dec_all. Qed.
Print Assumptions C80_dec.

(** Mass matrices: the lumped one holds the dual areas, the Galerkin one is symmetric, positive definite, and its rows sum to the dual areas; both add up
    to the area of the surface. *)
Theorem C80_mass : forall m len, Valid m -> triangular m -> Metric m len ->
  exists areas dual lumped M vs fs, faceAreas m len = Ok areas /\ vertexDualAreas m areas = Ok dual /\ lumpedMass m dual = Ok lumped /\ galerkinMass m areas = Ok M /\ elements m EVertex = Ok vs /\ elements m EFace = Ok fs /\
    (length lumped = Z.to_nat (nVertices m) /\ rows M = Z.to_nat (nVertices m) /\ cols M = Z.to_nat (nVertices m)) /\
    let em := entryAt 0 m EVertex EVertex M in
    (forall v, liveV m v -> nth (indexOf m EVertex v) lumped 0 = valAt dual v /\ total (em v) vs = valAt dual v) /\
    (forall a b, liveV m a -> liveV m b -> em a b = em b a) /\
    total (fun v => total (em v) vs) vs = total (valAt areas) fs /\
    (forall x : Z -> R, 0 <= total (fun v => x v * total (fun u => em v u * x u) vs) vs) /\
    (forall x : Z -> R, total (fun v => x v * total (fun u => em v u * x u) vs) vs = 0 -> forall v, liveV m v -> x v = 0).
Proof. exact mass_all. Qed.
Print Assumptions C80_mass.

(** Rows and columns are numbered by the iteration order of the elements. *)
Theorem C80_index_order : forall m k, Valid m -> k = EVertex \/ k = EEdge \/ k = EFace -> exists ind l, indicesOf m k = Ok ind /\ elements m k = Ok l /\
    forall e, In e l -> at_ 0%nat ind (Z.of_nat e) = indexOf m k (Z.of_nat e) /\ nth_error l (indexOf m k (Z.of_nat e)) = Some e.
Proof. exact index_all. Qed.
Print Assumptions C80_index_order.

Example C80_witness : (Valid quad /\ triangular quad /\ Metric quad quadLens /\ indexOf quad EVertex 3 = 3%nat) /\ (Valid tet /\ triangular tet /\ Metric tet tetLens /\ leaving tet 0 (match vertHalfedges tet 0 with Ok l => l | _ => [] end)).
Proof.
  split; [split; [exact quad_valid|]; split; [exact quad_tri|]; split; [apply range_metric, quad_valid|reflexivity]|].
  split; [exact tet_valid|]. split; [exact tet_triangular|]. split; [apply range_metric, tet_valid|].
  destruct (vertHalfedges_ok tet tet_valid 0 ltac:(repeat split; vm_compute; congruence)) as (l & E & _ & _ & N & I). rewrite E. split; auto.
Qed.
