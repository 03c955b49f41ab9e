(** Geometry of a triangle mesh with vertex positions: src/surface/embedded_geometry_interface.cpp (emb below) and
    src/surface/extrinsic_geometry_interface.cpp (ext below) for the cached containers,
    include/geometrycentral/surface/vertex_position_geometry.ipp (vpg below) for the immediate functions; meshes with implicit
    twins, where every edge is manifold. double is R: rounding is not modelled. *)
From Coq Require Import Reals.
From Verif Require Import Base DataModel MeshModel MeshDataModel GeoModel IntrinsicModel.
Open Scope Z_scope.

(** std::atan2 over the reals *)
Definition atan2 (y x : R) : R :=
  if Rlt_dec 0 x then atan (y / x)
  else if Rlt_dec x 0 then (if Rle_dec 0 y then atan (y / x) + PI else atan (y / x) - PI)%R
  else if Rlt_dec 0 y then (PI / 2)%R else if Rlt_dec y 0 then (- (PI / 2))%R else 0%R.

(** vertexPositions[he.vertex()] *)
Definition posOf (m : mesh) (pos : mdata V3) (h : Z) : res V3 := let* v := vertexOf m h in dataAt pos v.
(** the positions of the tails of he, he.next(), he.next().next(), with and without GC_SAFETY_ASSERT(he.next()... == he) *)
Definition triPoints (m : mesh) (pos : mdata V3) (h : Z) : res (V3 * V3 * V3 * Z) :=
  let* a := posOf m pos h in let* h1 := next m h in let* b := posOf m pos h1 in let* h2 := next m h1 in let* c := posOf m pos h2 in
  let* h3 := next m h2 in Ok (a, b, c, h3).
Definition triPositions (m : mesh) (pos : mdata V3) (h : Z) : res (V3 * V3 * V3) :=
  let* (a, b, c, h3) := triPoints m pos h in let* _ := guard (h3 =? h) in Ok (a, b, c).

(** ** lengths *)
(** edgeLength, vpg:24-29; the body of computeEdgeLengths, emb:47 *)
Definition pEdgeLength (m : mesh) (pos : mdata V3) (e : Z) : res R :=
  let* a := posOf m pos (eHe e) in let* n := next m (eHe e) in let* b := posOf m pos n in Ok (norm3d (sub3 a b)).
(** computeEdgeLengths, emb:42-49 *)
Definition pEdgeLengths (m : mesh) (pos : mdata V3) : res (mdata R) :=
  let* es := elements m EEdge in forEach es (newData m EEdge 0%R) (fun d e => let* l := pEdgeLength m pos e in setAt d e l).

(** ** areas *)
(** faceArea, vpg:32-45 *)
Definition pFaceArea (m : mesh) (pos : mdata V3) (f : Z) : res R :=
  let* h := fHe m f in let* (a, b, c) := triPositions m pos h in Ok (1 / 2 * norm3d (cross3 (sub3 b a) (sub3 c a)))%R.
(** computeFaceAreas, emb:259-276: half the norm of the sum of the cross products of consecutive positions *)
Definition pFaceAreas (m : mesh) (pos : mdata V3) : res (mdata R) :=
  let* fs := elements m EFace in
  forEach fs (newData m EFace 0%R) (fun d f =>
    let* hs := faceHalfedges m f in
    let* n := foldM (fun n h => let* a := posOf m pos h in let* h1 := next m h in let* b := posOf m pos h1 in Ok (add3 n (cross3 a b))) hs (mk3 0 0 0) in
    setAt d f (1 / 2 * norm3d n)%R).
(** vertexDualArea, vpg:48-55 *)
Definition pVertexDualArea (m : mesh) (pos : mdata V3) (v : Z) : res R :=
  let* hs := vertHalfedges m v in let* hs := interiorOf m hs in
  let* a := foldM (fun a h => let* f := faceOf m h in let* x := pFaceArea m pos f in Ok (a + x)%R) hs 0%R in Ok (a / 3)%R.

(** ** angles *)
(** emb:292-294, vpg:69-71 *)
Definition angleBetween (u v : V3) : R := acos (clamp (dot3 (normalize3 u) (normalize3 v)) (-1)%R 1%R).
(** cornerAngle, vpg:58-73 *)
Definition pCornerAngle (m : mesh) (pos : mdata V3) (c : Z) : res R :=
  let* (a, b, c) := triPositions m pos c in Ok (angleBetween (sub3 b a) (sub3 c a)).
(** computeCornerAngles, emb:279-299: each step writes the corner of the next halfedge *)
Definition pCornerAngles (m : mesh) (pos : mdata V3) : res (mdata R) :=
  let* fs := elements m EFace in
  forEach fs (newData m ECorner 0%R) (fun d f =>
    let* hs := faceHalfedges m f in
    foldM (fun d h =>
      let* a := posOf m pos h in let* h1 := next m h in let* b := posOf m pos h1 in let* h2 := next m h1 in let* c := posOf m pos h2 in
      setAt d h1 (angleBetween (sub3 c b) (sub3 a b))) hs d).
(** vertexGaussianCurvature, vpg:160-173 *)
Definition pVertexGaussianCurvature (m : mesh) (pos : mdata V3) (v : Z) : res R :=
  let* b := vIsBoundary m v in
  if b then Ok 0%R
  else let* hs := vertHalfedges m v in let* hs := interiorOf m hs in
       foldM (fun k c => let* a := pCornerAngle m pos c in Ok (k - a)%R) hs (2 * PI)%R.

(** ** cotangent weights *)
(** the body of the loops at emb:311-324 and 338-353, vpg:78-90 *)
Definition pWeight (m : mesh) (pos : mdata V3) (h : Z) : res R :=
  let* (b, c, a) := triPositions m pos h in
  let r := sub3 b a in let l := sub3 c a in Ok (dot3 r l / norm3d (cross3 r l) / 2)%R.
(** computeHalfedgeCotanWeights, emb:303-326 *)
Definition pHalfedgeCotanWeights (m : mesh) (pos : mdata V3) : res (mdata R) :=
  let* hs := elements m ECorner in forEach hs (newData m EHalfedge 0%R) (fun d h => let* w := pWeight m pos h in setAt d h w).
(** computeEdgeCotanWeights, emb:330-357 *)
Definition pEdgeCotanWeights (m : mesh) (pos : mdata V3) : res (mdata R) :=
  let* es := elements m EEdge in
  forEach es (newData m EEdge 0%R) (fun d e =>
    let* hs := interiorOf m (sides e) in
    let* s := foldM (fun s h => let* w := pWeight m pos h in Ok (s + w)%R) hs 0%R in setAt d e s).
(** halfedgeCotanWeight, edgeCotanWeight, vpg:75-102 *)
Definition pHalfedgeCotanWeight (m : mesh) (pos : mdata V3) (h : Z) : res R :=
  let* b := isInterior m h in if b then pWeight m pos h else Ok 0%R.
Definition pEdgeCotanWeight (m : mesh) (pos : mdata V3) (e : Z) : res R :=
  let* hs := interiorOf m (sides e) in foldM (fun s h => let* w := pHalfedgeCotanWeight m pos h in Ok (s + w)%R) hs 0%R.

(** ** normals *)
(** faceNormal, vpg:105-128; the body of computeFaceNormals, emb:87-107. The loop stops at the first corner of a triangle. *)
Fixpoint normal_loop (m : mesh) (pos : mdata V3) (hs : list Z) (s : V3) : res V3 :=
  match hs with
  | [] => Ok s
  | h :: t => let* (a, b, c, h3) := triPoints m pos h in let s := add3 s (cross3 (sub3 b a) (sub3 c a)) in
              if h3 =? h then Ok s else normal_loop m pos t s
  end.
Definition faceNormal (m : mesh) (pos : mdata V3) (f : Z) : res V3 :=
  let* hs := faceHalfedges m f in let* s := normal_loop m pos hs (mk3 0 0 0) in Ok (normalize3 s).
(** computeFaceNormals, emb:80-109 *)
Definition faceNormals (m : mesh) (pos : mdata V3) : res (mdata V3) :=
  let* fs := elements m EFace in forEach fs (newData m EFace (mk3 0 0 0)) (fun d f => let* n := faceNormal m pos f in setAt d f n).
(** computeVertexNormals, emb:114-132 *)
Definition vertexNormals (m : mesh) (normals : mdata V3) (angles : mdata R) : res (mdata V3) :=
  let* vs := elements m EVertex in
  forEach vs (newData m EVertex (mk3 0 0 0)) (fun d v =>
    let* hs := vertHalfedges m v in let* hs := interiorOf m hs in
    let* s := foldM (fun s c => let* f := faceOf m c in let* n := dataAt normals f in let* w := dataAt angles c in Ok (add3 s (mul3 n w))) hs (mk3 0 0 0) in
    setAt d v (normalize3 s)).
(** computeVertexDualMeanCurvatureNormals, emb:226-249 *)
Definition add3At (d : mdata V3) (i : Z) (x : V3) : res (mdata V3) := let* y := dataAt d i in setAt d i (add3 y x).
Definition vertexDualMeanCurvatureNormals (m : mesh) (pos : mdata V3) (w : mdata R) : res (mdata V3) :=
  let* es := elements m EEdge in
  forEach es (newData m EVertex (mk3 0 0 0)) (fun d e =>
    let* w := dataAt w e in let* a := tailOf m (eHe e) in let* b := headOf m (eHe e) in let* p := dataAt pos a in let* q := dataAt pos b in
    let* d := add3At d a (div3 (mul3 (sub3 p q) w) 2) in add3At d b (div3 (mul3 (sub3 q p) w) 2)).
(** vertexDualMeanCurvatureNormal, vpg:203-211 *)
Definition vertexDualMeanCurvatureNormal (m : mesh) (pos : mdata V3) (v : Z) : res V3 :=
  let* hs := vertHalfedges m v in
  foldM (fun s h => let* w := pEdgeCotanWeight m pos (edge h) in let* p := dataAt pos v in let* b := headOf m h in let* q := dataAt pos b in
    Ok (add3 s (div3 (mul3 (sub3 p q) w) 2))) hs (mk3 0 0 0).

(** ** curvatures from dihedral angles *)
(** emb:64-70, vpg:140-146 *)
Definition dihedral (n1 n2 tail tip : V3) : R := let d := normalize3 (sub3 tip tail) in atan2 (dot3 d (cross3 n1 n2)) (dot3 n1 n2).
(** edgeDihedralAngle, vpg:134-147 *)
Definition edgeDihedralAngle (m : mesh) (pos : mdata V3) (e : Z) : res R :=
  let* b := eIsBoundary m e in
  if b then Ok 0%R
  else let* f := faceOf m (eHe e) in let* n1 := faceNormal m pos f in let* g := faceOf m (tw (eHe e)) in let* n2 := faceNormal m pos g in
       let* p := posOf m pos (eHe e) in let* n := next m (eHe e) in let* q := posOf m pos n in Ok (dihedral n1 n2 p q).
(** computeEdgeDihedralAngles, emb:52-72 *)
Definition edgeDihedralAngles (m : mesh) (pos normals : mdata V3) : res (mdata R) :=
  let* es := elements m EEdge in
  forEach es (newData m EEdge 0%R) (fun d e =>
    let* b := eIsBoundary m e in
    if b then Ok d
    else let* f := faceOf m (eHe e) in let* n1 := dataAt normals f in let* g := faceOf m (tw (eHe e)) in let* n2 := dataAt normals g in
         let* p := posOf m pos (eHe e) in let* n := next m (eHe e) in let* q := posOf m pos n in setAt d e (dihedral n1 n2 p q)).
(** computeVertexMeanCurvatures, ext:28-53 *)
Definition vertexMeanCurvatures (m : mesh) (len alpha : mdata R) : res (mdata R) :=
  let* vs := elements m EVertex in
  forEach vs (newData m EVertex 0%R) (fun d v =>
    let* hs := vertHalfedges m v in
    let* s := foldM (fun s h => let* l := dataAt len (edge h) in let* a := dataAt alpha (edge h) in Ok (s + a * l / 2)%R) hs 0%R in setAt d v (s / 2)%R).
(** vertexMeanCurvature, vpg:149-158 *)
Definition vertexMeanCurvature (m : mesh) (pos : mdata V3) (v : Z) : res R :=
  let* hs := vertHalfedges m v in
  let* s := foldM (fun s h => let* l := pEdgeLength m pos (edge h) in let* a := edgeDihedralAngle m pos (edge h) in Ok (s + a * l / 2)%R) hs 0%R in Ok (s / 2)%R.
(** ext:93-107, vpg:187-200; [small] is whichCurvature == 1 *)
Definition principal (small : bool) (A H K : R) : R :=
  let H := (H / A)%R in let K := (K / A)%R in let c := sqrt (Rmax 0 (H * H - K)) in
  let k1 := (H - c)%R in let k2 := (H + c)%R in if small then Rmin k1 k2 else Rmax k1 k2.
(** computePrincipalCurvatures, ext:82-109 *)
Definition principalCurvatures (m : mesh) (small : bool) (dual mean gauss : mdata R) : res (mdata R) :=
  let* vs := elements m EVertex in
  forEach vs (newData m EVertex 0%R) (fun d v =>
    let* A := dataAt dual v in let* H := dataAt mean v in let* K := dataAt gauss v in setAt d v (principal small A H K)).
(** vertexMinPrincipalCurvature, vertexMaxPrincipalCurvature, vpg:175-201 *)
Definition vertexPrincipalCurvature (m : mesh) (pos : mdata V3) (small : bool) (v : Z) : res R :=
  let* A := pVertexDualArea m pos v in let* H := vertexMeanCurvature m pos v in let* K := pVertexGaussianCurvature m pos v in Ok (principal small A H K).
