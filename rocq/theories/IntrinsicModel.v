(** Intrinsic geometry computed from edge lengths: src/surface/intrinsic_geometry_interface.cpp (abbreviated iface below) and the
    immediate versions in include/geometrycentral/surface/edge_length_geometry.ipp, on meshes with implicit twins.
    double is R: rounding is not modelled. The containers read are arguments instead of members kept up to date by
    ensureHave() (see QuantityModel). Indices (vertexIndices, edgeIndices, faceIndices) are base_geometry_interface.cpp:40-83,
    i.e. mesh.getVertexIndices() and so on. *)
From Coq Require Import Reals.
From Verif Require Import Base DataModel MeshModel MeshDataModel MatrixModel GeoModel.
Open Scope Z_scope.

(** for (E e : mesh.es()) body *)
Definition forEach {S} (l : list nat) (s : S) (body : S -> Z -> res S) : res S := foldM (fun s i => body s (Z.of_nat i)) l s.
(** data[e] += x *)
Definition addAt (d : mdata R) (i : Z) (x : R) : res (mdata R) := let* y := dataAt d i in setAt d i (y + x)%R.
(** the lengths of the edges of he, he.next(), he.next().next(); GC_SAFETY_ASSERT(he.next().next().next() == he) throws *)
Definition triLengths (m : mesh) (len : mdata R) (h : Z) : res (R * R * R) :=
  let* a := dataAt len (edge h) in let* h1 := next m h in let* b := dataAt len (edge h1) in let* h2 := next m h1 in
  let* c := dataAt len (edge h2) in let* h3 := next m h2 in let* _ := guard (h3 =? h) in Ok (a, b, c).

(** ** areas *)
(** iface:75-79 and edge_length_geometry.ipp:20-24 *)
Definition heron (a b c : R) : R := let s := ((a + b + c) / 2)%R in let arg := (s * (s - a) * (s - b) * (s - c))%R in sqrt (Rmax 0 arg).
(** EdgeLengthGeometry::faceArea, edge_length_geometry.ipp:9-26 *)
Definition faceArea (m : mesh) (len : mdata R) (f : Z) : res R :=
  let* h := fHe m f in let* (a, b, c) := triLengths m len h in Ok (heron a b c).
(** computeFaceAreas, iface:57-84 *)
Definition faceAreas (m : mesh) (len : mdata R) : res (mdata R) :=
  let* fs := elements m EFace in forEach fs (newData m EFace 0%R) (fun d f => let* a := faceArea m len f in setAt d f a).
(** computeVertexDualAreas, iface:90-101 *)
Definition vertexDualAreas (m : mesh) (areas : mdata R) : res (mdata R) :=
  let* fs := elements m EFace in
  forEach fs (newData m EVertex 0%R) (fun d f =>
    let* A := dataAt areas f in let* hs := faceHalfedges m f in
    foldM (fun d h => let* v := vertexOf m h in addAt d v (A / 3)%R) hs d).
(** v.adjacentFaces(), v.adjacentCorners(): the outgoing halfedges that are interior, halfedge_element_types.ipp:117-120,171-199 *)
Definition interiorOf (m : mesh) (hs : list Z) : res (list Z) :=
  foldM (fun l h => let* b := isInterior m h in Ok (if b then l ++ [h] else l)) hs [].
(** EdgeLengthGeometry::vertexDualArea, edge_length_geometry.ipp:29-36 *)
Definition vertexDualArea (m : mesh) (len : mdata R) (v : Z) : res R :=
  let* hs := vertHalfedges m v in let* hs := interiorOf m hs in
  let* a := foldM (fun a h => let* f := faceOf m h in let* x := faceArea m len f in Ok (a + x)%R) hs 0%R in Ok (a / 3)%R.

(** ** angles *)
(** iface:123-125, edge_length_geometry.ipp:51-53 *)
Definition angleOf (lA lOpp lB : R) : R := acos (clamp ((lA * lA + lB * lB - lOpp * lOpp) / (2 * lA * lB))%R (-1)%R 1%R).
(** EdgeLengthGeometry::cornerAngle, edge_length_geometry.ipp:39-56; corners have the index of their halfedge *)
Definition cornerAngle (m : mesh) (len : mdata R) (c : Z) : res R :=
  let* (lA, lOpp, lB) := triLengths m len c in Ok (angleOf lA lOpp lB).
(** computeCornerAngles, iface:106-130 *)
Definition cornerAngles (m : mesh) (len : mdata R) : res (mdata R) :=
  let* cs := elements m ECorner in forEach cs (newData m ECorner 0%R) (fun d c => let* a := cornerAngle m len c in setAt d c a).
(** computeVertexAngleSums, iface:135-142 *)
Definition vertexAngleSums (m : mesh) (angles : mdata R) : res (mdata R) :=
  let* cs := elements m ECorner in
  forEach cs (newData m EVertex 0%R) (fun d c => let* v := vertexOf m c in let* a := dataAt angles c in addAt d v a).
(** computeCornerScaledAngles, iface:148-163 *)
Definition cornerScaledAngles (m : mesh) (angles sums : mdata R) : res (mdata R) :=
  let* cs := elements m ECorner in
  forEach cs (newData m ECorner 0%R) (fun d c =>
    let* v := vertexOf m c in let* b := vIsBoundary m v in let* t := dataAt sums v in let* a := dataAt angles c in
    let s := (if b then PI / t else 2 * PI / t)%R in setAt d c (s * a)%R).

(** ** curvatures *)
(** computeVertexGaussianCurvatures, iface:169-179 *)
Definition vertexGaussianCurvatures (m : mesh) (sums : mdata R) : res (mdata R) :=
  let* vs := elements m EVertex in
  forEach vs (newData m EVertex 0%R) (fun d v =>
    let* b := vIsBoundary m v in if negb b then let* t := dataAt sums v in setAt d v (2 * PI - t)%R else Ok d).
(** EdgeLengthGeometry::vertexGaussianCurvature, edge_length_geometry.ipp:80-93 *)
Definition vertexGaussianCurvature (m : mesh) (len : mdata R) (v : Z) : res R :=
  let* b := vIsBoundary m v in
  if b then Ok 0%R
  else let* hs := vertHalfedges m v in let* hs := interiorOf m hs in
       foldM (fun k c => let* a := cornerAngle m len c in Ok (k - a)%R) hs (2 * PI)%R.
(** computeFaceGaussianCurvatures, iface:184-201 *)
Definition faceGaussianCurvatures (m : mesh) (scaled : mdata R) : res (mdata R) :=
  let* fs := elements m EFace in
  forEach fs (newData m EFace 0%R) (fun d f =>
    let* h := fHe m f in
    let* (k, he) := foldM (fun (s : R * Z) (_ : nat) => let (k, he) := s in let* a := dataAt scaled he in let* n := next m he in Ok ((k + a)%R, n)) (seq 0 3) ((- PI)%R, h) in
    let* _ := guard (he =? h) in setAt d f k).

(** ** cotangent weights *)
(** iface:224-226, 252-253, edge_length_geometry.ipp:73-74: [l_ij] is the length of the halfedge's own edge *)
Definition cotWeight (l_ij l_jk l_ki area : R) : R := ((- l_ij * l_ij + l_jk * l_jk + l_ki * l_ki) / (4 * area) / 2)%R.
(** body of the loops at iface:214-226 and 243-253 *)
Definition halfedgeWeight (m : mesh) (len areas : mdata R) (h : Z) : res R :=
  let* (a, b, c) := triLengths m len h in let* f := faceOf m h in let* A := dataAt areas f in Ok (cotWeight a b c A).
(** computeHalfedgeCotanWeights, iface:206-228; interiorHalfedges() visits the indices of corners() *)
Definition halfedgeCotanWeights (m : mesh) (len areas : mdata R) : res (mdata R) :=
  let* hs := elements m ECorner in forEach hs (newData m EHalfedge 0%R) (fun d h => let* w := halfedgeWeight m len areas h in setAt d h w).
(** e.adjacentInteriorHalfedges(): e.halfedge(), then its twin, those that are interior, halfedge_element_types.ipp:332-335,375-381 *)
Definition sides (e : Z) : list Z := [eHe e; tw (eHe e)].
(** computeEdgeCotanWeights, iface:233-257 *)
Definition edgeCotanWeights (m : mesh) (len areas : mdata R) : res (mdata R) :=
  let* es := elements m EEdge in
  forEach es (newData m EEdge 0%R) (fun d e =>
    let* hs := interiorOf m (sides e) in
    let* s := foldM (fun s h => let* w := halfedgeWeight m len areas h in Ok (s + w)%R) hs 0%R in setAt d e s).
(** EdgeLengthGeometry::halfedgeCotanWeight and edgeCotanWeight, edge_length_geometry.ipp:59-78,95-101 *)
Definition halfedgeCotanWeight (m : mesh) (len : mdata R) (h : Z) : res R :=
  let* b := isInterior m h in
  if b then let* (a, b, c) := triLengths m len h in let* f := faceOf m h in let* A := faceArea m len f in Ok (cotWeight a b c A) else Ok 0%R.
Definition edgeCotanWeight (m : mesh) (len : mdata R) (e : Z) : res R :=
  let* hs := interiorOf m (sides e) in foldM (fun s h => let* w := halfedgeCotanWeight m len h in Ok (s + w)%R) hs 0%R.

(** ** matrices *)
Definition indicesOf (m : mesh) (k : ekind) : res (mdata nat) := let* els := elements m k in md_indices (Z.to_nat (capacity m k)) els.
Definition triplet := (nat * nat * R)%type.
Definition matrix (r c : Z) (trips : list triplet) : res (smat R) := fromTriplets Rplus (Z.to_nat r) (Z.to_nat c) trips.
(** he.vertex(), he.next().vertex() *)
Definition tailOf (m : mesh) (h : Z) : res Z := vertexOf m h.
Definition headOf (m : mesh) (h : Z) : res Z := let* n := next m h in vertexOf m n.
(** computeCotanLaplacian, iface:422-446 *)
Definition cotanLaplacian (m : mesh) (w : mdata R) : res (smat R) :=
  let* vi := indicesOf m EVertex in let* es := elements m EEdge in
  let* trips := forEach es [] (fun l e =>
    let* a := tailOf m (eHe e) in let* b := headOf m (eHe e) in let* iH := dataAt vi b in let* iT := dataAt vi a in
    let* x := dataAt w e in
    Ok (l ++ [(iT, iT, x); (iH, iH, x); (iT, iH, (- x)%R); (iH, iT, (- x)%R)])) in
  matrix (nVertices m) (nVertices m) trips.
(** computeVertexLumpedMassMatrix, iface:452-464: the diagonal. Writing past its end is UB *)
Definition lumpedMass (m : mesh) (dual : mdata R) : res (list R) :=
  let* vs := elements m EVertex in
  let* (d, _) := forEach vs (repeat 0%R (Z.to_nat (nVertices m)), 0%nat) (fun s v => let (d, i) := s in
    let* a := dataAt dual v in let* d := wr d i a in Ok (d, S i)) in Ok d.
(** computeVertexGalerkinMassMatrix, iface:470-501 *)
Definition galerkinMass (m : mesh) (areas : mdata R) : res (smat R) :=
  let* vi := indicesOf m EVertex in let* fs := elements m EFace in
  let* trips := forEach fs [] (fun l f =>
    let* A := dataAt areas f in
    let* h := fHe m f in let* a := vertexOf m h in let* h := next m h in let* b := vertexOf m h in let* h := next m h in let* c := vertexOf m h in
    let* h := next m h in let* h0 := fHe m f in let* _ := guard (h =? h0) in
    let* a := dataAt vi a in let* b := dataAt vi b in let* c := dataAt vi c in
    Ok (l ++ concat (map (fun r : nat * nat * nat => let '(i, j, k) := r in [(i, i, (A / 6)%R); (i, j, (A / 12)%R); (i, k, (A / 12)%R)]) [(a, b, c); (b, c, a); (c, a, b)]))) in
  matrix (nVertices m) (nVertices m) trips.
(** computeDECOperators, iface:682-772: d0, d1 and the diagonals of hodge0, hodge1, hodge2. hodgeNInverse are their reciprocals. *)
Definition decD0 (m : mesh) : res (smat R) :=
  let* vi := indicesOf m EVertex in let* ei := indicesOf m EEdge in let* es := elements m EEdge in
  let* trips := forEach es [] (fun l e =>
    let* i := dataAt ei e in let* a := tailOf m (eHe e) in let* b := headOf m (eHe e) in let* iH := dataAt vi b in let* iT := dataAt vi a in
    Ok (l ++ [(i, iH, 1%R); (i, iT, (-1)%R)])) in
  matrix (nEdges m) (nVertices m) trips.
Definition decD1 (m : mesh) : res (smat R) :=
  let* ei := indicesOf m EEdge in let* fi := indicesOf m EFace in let* fs := elements m EFace in
  let* trips := forEach fs [] (fun l f =>
    let* i := dataAt fi f in let* hs := faceHalfedges m f in
    foldM (fun l h => let* j := dataAt ei (edge h) in Ok (l ++ [(i, j, (if h =? eHe (edge h) then 1 else -1)%R)])) hs l) in
  matrix (nFaces m) (nEdges m) trips.
Definition diagonalOf (m : mesh) (k : ekind) (ratio : Z -> res R) : res (list R) :=
  let* ind := indicesOf m k in let* els := elements m k in
  forEach els (repeat 0%R (Z.to_nat (nElements m k))) (fun d e => let* x := ratio e in let* i := dataAt ind e in wr d i x).
Definition hodge0 (m : mesh) (dual : mdata R) : res (list R) := diagonalOf m EVertex (fun v => let* a := dataAt dual v in Ok (a / 1)%R).
Definition hodge1 (m : mesh) (w : mdata R) : res (list R) := diagonalOf m EEdge (fun e => dataAt w e).
Definition hodge2 (m : mesh) (areas : mdata R) : res (list R) := diagonalOf m EFace (fun f => let* a := dataAt areas f in Ok (1 / a)%R).

(** ** tangent vectors *)
Definition neg2 (v : V2) : V2 := mk2 (- px v) (- py v).
(** computeHalfedgeVectorsInFace, iface:291-336. Exterior halfedges get Vector2::undefined() (NaN): here they are left at the
    initial (0, 0) and no theorem speaks about them. *)
Definition layoutFace (lAB lBC lCA area : R) : V2 * V2 * V2 :=
  let pB := mk2 lAB 0 in
  let h := (2 * area / lAB)%R in
  let w := sqrt (Rmax 0 (lCA * lCA - h * h)) in
  let w := (if Rgt_dec (lBC * lBC) (lAB * lAB + lCA * lCA) then w * -1 else w)%R in
  let pC := mk2 w h in (pB, sub2 pC pB, neg2 pC).
Definition halfedgeVectorsInFace (m : mesh) (len areas : mdata R) : res (mdata V2) :=
  let* fs := elements m EFace in
  forEach fs (newData m EHalfedge (mk2 0 0)) (fun d f =>
    let* h := fHe m f in let* (a, b, c) := triLengths m len h in let* h1 := next m h in let* h2 := next m h1 in
    let* A := dataAt areas f in
    let '(u, v, w) := layoutFace a b c A in
    let* d := setAt d h u in let* d := setAt d h1 v in setAt d h2 w).
(** computeTransportVectorsAcrossHalfedge, iface:341-359; unit() is Vector2's normalize *)
Definition transportOf (a b : V2) : V2 := normalize2 (cdiv (neg2 b) a).
Definition transportAcross (m : mesh) (vecs : mdata V2) : res (mdata V2) :=
  let* es := elements m EEdge in
  forEach es (newData m EHalfedge (mk2 0 0)) (fun d e =>
    let* b := eIsBoundary m e in
    if b then Ok d
    else let* u := dataAt vecs (eHe e) in let* v := dataAt vecs (tw (eHe e)) in
         let r := transportOf u v in let* d := setAt d (eHe e) r in setAt d (tw (eHe e)) (inv2 r)).
(** computeHalfedgeVectorsInVertex, iface:367-391: the loop orbits counterclockwise and stops at an exterior halfedge *)
Fixpoint vertexVectors_loop (fuel : nat) (m : mesh) (len scaled : mdata R) (first curr : Z) (coord : R) (d : mdata V2) : res (mdata V2) :=
  match fuel with
  | O => UB
  | S k =>
      let* l := dataAt len (edge curr) in let* d := setAt d curr (mul2 (fromAngle coord) l) in
      let* a := dataAt scaled curr in let coord := (coord + a)%R in
      let* b := isInterior m curr in
      if negb b then Ok d
      else let* n := next m curr in let* n := next m n in let curr := tw n in
           if curr =? first then Ok d else vertexVectors_loop k m len scaled first curr coord d
  end.
Definition halfedgeVectorsInVertex (m : mesh) (len scaled : mdata R) : res (mdata V2) :=
  let* vs := elements m EVertex in
  forEach vs (newData m EHalfedge (mk2 0 0)) (fun d v => let* h := vHe m v in vertexVectors_loop (loopFuel m) m len scaled h h 0%R d).
(** computeTransportVectorsAlongHalfedge, iface:397-414 *)
Definition transportAlong (m : mesh) (vecs : mdata V2) : res (mdata V2) :=
  let* es := elements m EEdge in
  forEach es (newData m EHalfedge (mk2 0 0)) (fun d e =>
    let* u := dataAt vecs (eHe e) in let* v := dataAt vecs (tw (eHe e)) in
    let r := transportOf u v in let* d := setAt d (eHe e) r in setAt d (tw (eHe e)) (inv2 r)).
(** computeVertexConnectionLaplacian, iface:525-545 *)
Definition vertexConnectionLaplacian (m : mesh) (w : mdata R) (tr : mdata V2) : res (smat V2) :=
  let* vi := indicesOf m EVertex in let* hs := elements m EHalfedge in
  let* trips := forEach hs [] (fun l h =>
    let* a := tailOf m h in let* i := dataAt vi a in let* b := headOf m h in let* j := dataAt vi b in
    let* x := dataAt w (edge h) in let* r := dataAt tr (tw h) in
    Ok (l ++ [(i, i, mk2 x 0); (i, j, mul2 r (- x)%R)])) in
  fromTriplets add2 (Z.to_nat (nVertices m)) (Z.to_nat (nVertices m)) trips.
(** computeFaceConnectionLaplacian, iface:550-580 *)
Definition faceConnectionLaplacian (m : mesh) (tr : mdata V2) : res (smat V2) :=
  let* fi := indicesOf m EFace in let* fs := elements m EFace in
  let* trips := forEach fs [] (fun l f =>
    let* i := dataAt fi f in let* hs := faceHalfedges m f in
    let* (l, s) := foldM (fun (st : list (nat * nat * V2) * R) h => let (l, s) := st in
      let* b := isInterior m (tw h) in
      if negb b then Ok (l, s)
      else let* g := faceOf m (tw h) in let* j := dataAt fi g in let* r := dataAt tr (tw h) in
           Ok (l ++ [(i, j, mul2 r (-1))], (s + 1)%R)) hs (l, 0%R) in
    Ok (l ++ [(i, i, mk2 s 0)])) in
  fromTriplets add2 (Z.to_nat (nFaces m)) (Z.to_nat (nFaces m)) trips.
