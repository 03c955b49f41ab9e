(** C83: the Crouzeix-Raviart operators, whose unknowns live on edges. *)
From Coq Require Import Reals Lra.
From Verif Require Import Base DataModel MeshModel MeshSpec MeshBase MeshOpSpec MeshCheck MeshExamples MeshOrbit MeshThms MeshDataModel PointProperties DelaunayExamples
  MatrixModel MatrixSpec GeoModel IntrinsicModel IntrinsicSpec TangentSpec CRModel CRSpec CR3 IntrinsicProperties.
Open Scope R_scope.

(** The Laplacian: symmetric, acts in every triangle as the difference to its other two edges weighted by twice the cotangent of the angle between them (hw holds half cotangents, C80),
    maps constants to zero, is positive semidefinite for every metric and vanishes only on functions constant on the edges of every triangle; on functions that come from
    values at vertices its energy is that of the cotangent Laplacian. *)
Theorem C83_laplacian : forall m len, Valid m -> triangular m -> Metric m len ->
  exists areas hw ew L C es vs, faceAreas m len = Ok areas /\ halfedgeCotanWeights m len areas = Ok hw /\ edgeCotanWeights m len areas = Ok ew /\ crLaplacian m hw = Ok L /\ cotanLaplacian m ew = Ok C /\
    elements m EEdge = Ok es /\ elements m EVertex = Ok vs /\ rows L = Z.to_nat (nEdges m) /\ cols L = Z.to_nat (nEdges m) /\
    let el := entryAt 0 m EEdge EEdge L in let ec := entryAt 0 m EVertex EVertex C in
    (forall a b, liveH m (eHe a) -> liveH m (eHe b) -> el a b = el b a) /\
    (forall (x : Z -> R) e l, liveH m (eHe e) -> sidesIn m e l ->
       total (fun b => el e b * x b) es = Rsum (fun h => 4 * valAt hw (nx m (nx m h)) * (x e - x (edge (nx m h))) + 4 * valAt hw (nx m h) * (x e - x (edge (nx m (nx m h))))) l) /\
    (forall e, liveH m (eHe e) -> total (el e) es = 0) /\
    (forall x : Z -> R, 0 <= total (fun a => x a * total (fun b => el a b * x b) es) es) /\
    (forall x : Z -> R, total (fun a => x a * total (fun b => el a b * x b) es) es = 0 <-> forall h, liveH m h -> ~ ext m h -> x (edge h) = x (edge (nx m h))) /\
    (forall u : Z -> R, total (fun a => middle m u a * total (fun b => el a b * middle m u b) es) es = total (fun v => u v * total (fun w => ec v w * u w) vs) vs).
Proof. exact cr_laplacian_all. Qed.
Print Assumptions C83_laplacian.

(** The mass matrix: diagonal, a third of the area of the triangles at the edge, positive, adding up to the area of the surface. *)
Theorem C83_mass : forall m len, Valid m -> triangular m -> Metric m len ->
  exists areas M es fs, faceAreas m len = Ok areas /\ crMass m areas = Ok M /\ elements m EEdge = Ok es /\ elements m EFace = Ok fs /\ rows M = Z.to_nat (nEdges m) /\ cols M = Z.to_nat (nEdges m) /\
    let em := entryAt 0 m EEdge EEdge M in
    (forall a b, liveH m (eHe a) -> liveH m (eHe b) -> a <> b -> em a b = 0) /\
    (forall e l, liveH m (eHe e) -> sidesIn m e l -> em e e = Rsum (fun h => valAt areas (fa m h)) l / 3) /\
    (forall e, liveH m (eHe e) -> 0 < em e e) /\
    total (fun e => em e e) es = total (valAt areas) fs.
Proof. exact cr_mass_all. Qed.
Print Assumptions C83_mass.

(** The connection Laplacian: Hermitian; its quadratic form is the energy of the field as seen in the coordinates of each triangle, positive semidefinite for every metric, zero exactly on fields
    that are parallel inside every triangle. *)
Theorem C83_connection : forall m len, Valid m -> triangular m -> Metric m len ->
  exists areas hw vec L es hs, faceAreas m len = Ok areas /\ halfedgeCotanWeights m len areas = Ok hw /\ halfedgeVectorsInFace m len areas = Ok vec /\ crConnectionLaplacian m len areas hw = Ok L /\
    elements m EEdge = Ok es /\ elements m ECorner = Ok hs /\ rows L = Z.to_nat (nEdges m) /\ cols L = Z.to_nat (nEdges m) /\
    let el := entryAt (mk2 0 0) m EEdge EEdge L in let z := seenFrom len (vecAt vec) in
    (forall a b, liveH m (eHe a) -> liveH m (eHe b) -> el a b = conj2 (el b a)) /\
    (forall x : Z -> V2, total (fun a => dot2 (x a) (ctotal (fun b => cmul (el a b) (x b)) es)) es = total (fun h => 4 * valAt hw h * norm2_2 (sub2 (z x (nx m h)) (z x (nx m (nx m h))))) hs) /\
    (forall x : Z -> V2, 0 <= total (fun a => dot2 (x a) (ctotal (fun b => cmul (el a b) (x b)) es)) es) /\
    (forall x : Z -> V2, total (fun a => dot2 (x a) (ctotal (fun b => cmul (el a b) (x b)) es)) es = 0 <-> forall h, liveH m h -> ~ ext m h -> z x h = z x (nx m h)).
Proof. exact cr_connection_all. Qed.
Print Assumptions C83_connection.

Example C83_witness : (Valid quad /\ triangular quad /\ Metric quad quadLens /\ sidesIn quad 2 [4; 5]%Z) /\ (Valid tet /\ triangular tet /\ Metric tet tetLens).
Proof.
  split; [split; [exact quad_valid|]; split; [exact quad_tri|]; split; [apply range_metric, quad_valid|]|].
  - split; [repeat constructor; cbn; intuition discriminate|]. intros h. split.
    + intros [<-|[<-|[]]]; (split; [repeat split; vm_compute; congruence|]; split; [vm_compute; congruence|reflexivity]).
    + intros (_ & _ & E). unfold edge in E. cbn. pose proof (Z.div_mod h 2). pose proof (Z.mod_pos_bound h 2). lia.
  - split; [exact tet_valid|]. split; [exact tet_triangular|]. apply range_metric, tet_valid.
Qed.
