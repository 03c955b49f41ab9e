(** Crouzeix-Raviart operators, whose unknowns live on edges: src/surface/intrinsic_geometry_interface.cpp:585-673 (iface). The conventions are those of
    IntrinsicModel: double is R, complex numbers are V2, the containers read are arguments. *)
From Coq Require Import Reals.
From Verif Require Import Base DataModel MeshModel MeshDataModel MatrixModel GeoModel IntrinsicModel.
Open Scope Z_scope.
(** heA = he.next(), heB = heA.next(); GC_SAFETY_ASSERT(heB.next() == he) throws, iface:595-597 and 649-651 *)
Definition crSides (m : mesh) (h : Z) : res (Z * Z) :=
  let* a := next m h in let* b := next m a in let* c := next m b in let* _ := guard (c =? h) in Ok (a, b).
(** computeCrouzeixRaviartLaplacian, iface:586-614 *)
Definition crLaplacian (m : mesh) (hw : mdata R) : res (smat R) :=
  let* ei := indicesOf m EEdge in let* fs := elements m EFace in
  let* trips := forEach fs [] (fun l f =>
    let* hs := faceHalfedges m f in
    foldM (fun l h =>
      let* (a, b) := crSides m h in let* i := dataAt ei (edge a) in let* j := dataAt ei (edge b) in
      let* w := dataAt hw h in let w := (4 * w)%R in
      Ok (l ++ [(i, j, (- w)%R); (j, i, (- w)%R); (i, i, w); (j, j, w)])) hs l) in
  matrix (nEdges m) (nEdges m) trips.
(** computeCrouzeixRaviartMassMatrix, iface:620-633; e.adjacentFaces() visits the faces of the interior sides of e, halfedge_element_types.ipp:365-367,377-379 *)
Definition crMass (m : mesh) (areas : mdata R) : res (smat R) :=
  let* ei := indicesOf m EEdge in let* es := elements m EEdge in
  let* trips := forEach es [] (fun l e =>
    let* i := dataAt ei e in let* hs := interiorOf m (sides e) in
    foldM (fun l h => let* f := faceOf m h in let* A := dataAt areas f in Ok (l ++ [(i, i, (A / 3)%R)])) hs l) in
  matrix (nEdges m) (nEdges m) trips.
(** heOrientation with implicit twins, surface_mesh.ipp:51 *)
Definition orientation (h : Z) : bool := h mod 2 =? 0.
(** computeCrouzeixRaviartConnectionLaplacian, iface:639-673 *)
Definition crConnectionLaplacian (m : mesh) (len areas hw : mdata R) : res (smat V2) :=
  let* ei := indicesOf m EEdge in let* fs := elements m EFace in
  let* trips := forEach fs [] (fun l f =>
    let* hs := faceHalfedges m f in
    foldM (fun l h =>
      let* (a, b) := crSides m h in let* i := dataAt ei (edge a) in let* j := dataAt ei (edge b) in
      let* w := dataAt hw h in let w := (4 * w)%R in
      let s := (if Bool.eqb (orientation a) (orientation b) then 1 else -1)%R in
      let* lOpp := dataAt len (edge h) in let* lA := dataAt len (edge b) in let* lB := dataAt len (edge a) in
      let* A := dataAt areas f in
      let cosT := ((lA * lA + lB * lB - lOpp * lOpp) / (2 * lA * lB))%R in let sinT := (2 * A / (lA * lB))%R in
      let rot := mk2 (- cosT)%R sinT in
      Ok (l ++ [(i, i, mk2 w 0%R); (j, j, mk2 w 0%R); (i, j, mul2 (mul2 rot (- w)%R) s); (j, i, mul2 (mul2 (conj2 rot) (- w)%R) s)])) hs l) in
  fromTriplets add2 (Z.to_nat (nEdges m)) (Z.to_nat (nEdges m)) trips.
