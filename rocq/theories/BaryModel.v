(** BarycentricVector, include/geometrycentral/surface/barycentric_vector.ipp and src/surface/barycentric_vector.cpp, on a
    ManifoldSurfaceMesh. double is modelled by the reals (see GeoModel.v). geom.edgeLengths is a function from edges to
    reals; the calls to requireEdgeLengths() and unrequireEdgeLengths(), which come in pairs, are left out. *)
From Verif Require Import Base MeshModel PointModel GeoModel.
From Coq Require Import Reals.
Open Scope Z_scope.

(** barycentric_vector.h:29-38; the fields not used by the type of the vector are left out *)
Inductive bvec := BVertex (v : Z) | BEdge (e : Z) (x y : R) | BFace (f : Z) (x y z : R).
Definition elemOfV (b : bvec) : elem := match b with BVertex v => EV v | BEdge e _ _ => EE e | BFace f _ _ _ => EF f end.

Open Scope R_scope.
(** BarycentricVector(SurfacePoint, SurfacePoint), .ipp:14-46. inEdge only returns edge points and inFace only face
    points. *)
Definition bvBetween (m : mesh) (pA pB : point) : res bvec :=
  let viaEdge :=
    let* e := sharedEdge m (elemOf pA) (elemOf pB) in
    match e with
    | Some e =>
      let* qA := inEdge m pA e in
      let* qB := inEdge m pB e in
      match qA, qB with PEdge _ a, PEdge _ b => Ok (BEdge e (b - a) (a - b)) | _, _ => UB end
    | None =>
      let* f := sharedFace m (elemOf pA) (elemOf pB) in
      match f with
      | None => Throw
      | Some f =>
        let* qA := inFace m pA f in
        let* qB := inFace m pB f in
        match qA, qB with PFace _ x y z, PFace _ x' y' z' => Ok (BFace f (x' - x) (y' - y) (z' - z)) | _, _ => UB end
      end
    end in
  match pA, pB with
  | PVertex a, PVertex b => if (a =? b)%Z then Ok (BVertex a) else viaEdge
  | _, _ => viaEdge
  end.

(** first halfedge of the list on the given edge, with its position *)
Fixpoint firstOnEdge (e : Z) (i : nat) (hs : list Z) : option (Z * nat) :=
  match hs with [] => None | h :: r => if (edge h =? e)%Z then Some (h, i) else firstOnEdge e (S i) r end.
(** BarycentricVector(Halfedge, Face), .ipp:48-64. When the edge of the halfedge is not in the face, or the face is not a
    triangle, faceCoords is written out of range. The writes are made in the order of the code. *)
Definition bvHalfedge (m : mesh) (h f : Z) : res bvec :=
  let* hs := faceHalfedges m f in
  match firstOnEdge (edge h) 0 hs with
  | None => UB
  | Some (g, i) =>
    let* gt := vertexOf m g in let* ht := vertexOf m h in
    let* gn := next m g in let* gp := vertexOf m gn in
    let* hn := next m h in let* hp := vertexOf m hn in
    let sign := if ((gt =? ht) && (gp =? hp))%Z then 1 else -1 in
    if (i <? 3)%nat then
      let c := setComp (setComp (mk3 0 0 0) ((i + 1) mod 3) 1) i (-1) in
      Ok (BFace f (qx c * sign) (qy c * sign) (qz c * sign))
    else UB
  end.

(** inSomeFace, .ipp:68-99 *)
Definition bvInSomeFace (m : mesh) (b : bvec) : res bvec :=
  match b with
  | BFace _ _ _ _ => Ok b
  | BEdge e x y =>
    let target := eHe e in
    let* f := faceOf m target in
    let* he := fHe m f in
    if (target =? he)%Z then Ok (BFace f x y 0) else
    let* he := next m he in
    if (target =? he)%Z then Ok (BFace f 0 x y) else Ok (BFace f y 0 x)
  | BVertex v =>
    let* he := vHe m v in
    let* f := faceOf m he in
    Ok (BFace f 0 0 0)
  end.
(** he.orientation() of an implicit-twin mesh, surface_mesh.ipp:51 *)
Definition orientation (h : Z) : bool := (h mod 2 =? 0)%Z.
(** FaceAdjacentVertexNavigator, FaceAdjacentEdgeNavigator: vertices and edges of the halfedges of the face *)
Definition faceHasVertex (m : mesh) (f v : Z) : res bool := let* hs := faceHalfedges m f in anyM (fun h => let* u := vertexOf m h in Ok (u =? v)%Z) hs.
Definition faceHasEdge (m : mesh) (f e : Z) : res bool := let* hs := faceHalfedges m f in anyM (fun h => Ok (edge h =? e)%Z) hs.
(** Edge::adjacentVertices, halfedge_element_types.ipp:382-385 *)
Definition edgeHasVertex (m : mesh) (e v : Z) : res bool :=
  let* a := vertexOf m (eHe e) in
  let* n := next m (eHe e) in
  let* b := vertexOf m n in
  Ok ((a =? v)%Z || (b =? v)%Z).
(** inFace, .ipp:101-137 *)
Definition bvInFace (m : mesh) (b : bvec) (f : Z) : res bvec :=
  match b with
  | BFace g _ _ _ => if (g =? f)%Z then Ok b else Throw
  | BEdge e x y =>
    let* he := fHe m f in
    if (e =? edge he)%Z then Ok (if orientation he then BFace f x y 0 else BFace f y x 0) else
    let* he := next m he in
    if (e =? edge he)%Z then Ok (if orientation he then BFace f 0 x y else BFace f 0 y x) else
    let* he := next m he in
    Ok (if orientation he then BFace f y 0 x else BFace f x 0 y)
  | BVertex v => let* c := faceHasVertex m f v in if c then Ok (BFace f 0 0 0) else Throw
  end.
(** inEdge, .ipp:139-160 *)
Definition bvInEdge (m : mesh) (b : bvec) (e : Z) : res bvec :=
  match b with
  | BFace _ _ _ _ => Throw
  | BEdge e' _ _ => if (e' =? e)%Z then Ok b else Throw
  | BVertex v => let* c := edgeHasVertex m e v in if c then Ok (BEdge e 0 0) else Throw
  end.

(** sharedFace, .ipp:518-591; None is the null face *)
Definition bvSharedFace (m : mesh) (a b : elem) : res (option Z) :=
  let keep f (t : res bool) := let* c := t in Ok (if c then Some f else None) in
  match a, b with
  | EF f, EF g => Ok (if (f =? g)%Z then Some f else None)
  | EF f, EE e => keep f (faceHasEdge m f e)
  | EF f, EV v => keep f (faceHasVertex m f v)
  | EE e, EF f => keep f (faceHasEdge m f e)
  | EE e, EE e' => let* fs := edgeFaces m e in firstM (fun f => faceHasEdge m f e') fs
  | EE e, EV v => let* fs := edgeFaces m e in firstM (fun f => faceHasVertex m f v) fs
  | EV v, EF f => keep f (faceHasVertex m f v)
  | EV v, EE e => let* fs := edgeFaces m e in firstM (fun f => faceHasVertex m f v) fs
  | EV v, EV w => let* fs := adjFaces m v in firstM (fun f => faceHasVertex m f w) fs
  end.
(** sharedEdge, .ipp:593-623 *)
Definition bvSharedEdge (m : mesh) (a b : elem) : res (option Z) :=
  match a, b with
  | EE e, EE e' => Ok (if (e =? e')%Z then Some e else None)
  | EE e, EV v => let* c := edgeHasVertex m e v in Ok (if c then Some e else None)
  | EV v, EE e => let* c := edgeHasVertex m e v in Ok (if c then Some e else None)
  | EV v, EV w =>
    let* hs := vertHalfedges m v in
    let* r := firstM (fun h => let* n := next m h in let* u := vertexOf m n in Ok (u =? w)%Z) hs in Ok (option_map edge r)
  | _, _ => Ok None
  end.

(** operator+ (.ipp:272-295), operator- (:297-320); += and -= (:377-423) are the same code. [op] is the operation on
    coordinates. *)
Definition bvCombine (op : R -> R -> R) (m : mesh) (a b : bvec) : res bvec :=
  let rest :=
    let* e := bvSharedEdge m (elemOfV a) (elemOfV b) in
    match e with
    | Some e =>
      let* u := bvInEdge m a e in
      let* w := bvInEdge m b e in
      match u, w with BEdge _ x y, BEdge _ x' y' => Ok (BEdge e (op x x') (op y y')) | _, _ => UB end
    | None =>
      let* f := bvSharedFace m (elemOfV a) (elemOfV b) in
      match f with
      | None => Throw
      | Some f =>
        let* u := bvInFace m a f in
        let* w := bvInFace m b f in
        match u, w with BFace _ x y z, BFace _ x' y' z' => Ok (BFace f (op x x') (op y y') (op z z')) | _, _ => UB end
      end
    end in
  match a, b with
  | BVertex v, BVertex w => if (v =? w)%Z then Ok a else rest
  | _, _ => rest
  end.
Definition bvAdd := bvCombine Rplus.
Definition bvSub := bvCombine Rminus.
(** operator* (:322-334, and the template at :362-375), operator/ (:336-348; division of a Vector is multiplication by the
    inverse), unary minus (:350-361) *)
Definition bvScale (s : R) (b : bvec) : bvec :=
  match b with BVertex _ => b | BEdge e x y => BEdge e (x * s) (y * s) | BFace f x y z => BFace f (x * s) (y * s) (z * s) end.
Definition bvDiv (b : bvec) (s : R) : bvec :=
  let r := 1 / s in
  match b with BVertex _ => b | BEdge e x y => BEdge e (x * r) (y * r) | BFace f x y z => BFace f (x * r) (y * r) (z * r) end.
Definition bvNeg (b : bvec) : bvec :=
  match b with BVertex _ => b | BEdge e x y => BEdge e (- x) (- y) | BFace f x y z => BFace f (- x) (- y) (- z) end.
(** normalizedDisplacement, :207-219 *)
Definition bvNormalized (b : bvec) : bvec :=
  match b with
  | BVertex _ => b
  | BEdge e x y => let s := (x + y) / 2 in BEdge e (x - s) (y - s)
  | BFace f x y z => let s := (x + y + z) / 3 in BFace f (x - s) (y - s) (z - s)
  end.

(** the lengths of the sides of a face, from f.halfedge() on *)
Definition sides (m : mesh) (len : Z -> R) (f : Z) : res V3 :=
  let* h := fHe m f in
  let* h1 := next m h in
  let* h2 := next m h1 in
  Ok (mk3 (len (edge h)) (len (edge h1)) (len (edge h2))).
(** norm2, .ipp:488-516, norm, :458-486 *)
Definition bvNorm2 (m : mesh) (len : Z -> R) (b : bvec) : res R :=
  match b with
  | BFace f ui uj uk =>
    let* l := sides m len f in
    Ok (- ((qx l * qx l * ui * uj) + (qy l * qy l * uj * uk) + (qz l * qz l * uk * ui)))
  | BEdge e x y => Ok (- len e * len e * x * y)
  | BVertex _ => Ok 0
  end.
Definition bvNorm (m : mesh) (len : Z -> R) (b : bvec) : res R :=
  match b with BVertex _ => Ok 0 | _ => let* v := bvNorm2 m len b in Ok (sqrt v) end.
(** dot, .ipp:632-665 *)
Definition bvDot (m : mesh) (len : Z -> R) (u v : bvec) : res R :=
  let* f := bvSharedFace m (elemOfV u) (elemOfV v) in
  match f with
  | None => Throw
  | Some f =>
    let* uf := bvInFace m u f in
    let* vf := bvInFace m v f in
    match uf, vf with
    | BFace _ ui uj uk, BFace _ vi vj vk =>
      let* l := sides m len f in
      let term1 := (uj * vi + ui * vj) * qx l * qx l in
      let term2 := (uk * vj + uj * vk) * qy l * qy l in
      let term3 := (uk * vi + ui * vk) * qz l * qz l in
      Ok (- (1/2) * (term1 + term2 + term3))
    | _, _ => UB
    end
  end.

(** faceVectorRotate90, barycentric_vector.cpp:7-29; only applied to vectors of type Face *)
Definition faceRotate90 (m : mesh) (len : Z -> R) (w : bvec) : res bvec :=
  match w with
  | BFace f ui uj uk =>
    let* l := sides m len f in
    let lij := qx l in let ljk := qy l in let lki := qz l in
    let ai := lij * lij - ljk * ljk + lki * lki in
    let aj := ljk * ljk - lki * lki + lij * lij in
    let ak := lki * lki - lij * lij + ljk * ljk in
    let s := 1/2 * (lij + ljk + lki) in
    let A := sqrt (s * (s - lij) * (s - ljk) * (s - lki)) in
    let c := div3 (mk3 (ak * uk - aj * uj) (ai * ui - ak * uk) (aj * uj - ai * ui)) (4 * A) in
    Ok (BFace f (qx c) (qy c) (qz c))
  | _ => UB
  end.
(** faceVectorRotate, barycentric_vector.cpp:31-70 *)
Definition faceRotate (m : mesh) (len : Z -> R) (w : bvec) (angle : R) : res bvec :=
  match w with
  | BFace f ui uj uk =>
    let* l := sides m len f in
    let lij := qx l in let ljk := qy l in let lki := qz l in
    let lij2 := lij * lij in let ljk2 := ljk * ljk in let lki2 := lki * lki in
    let A2 := - (lij - ljk - lki) * (lij + ljk - lki) * (lij - ljk + lki) * (lij + ljk + lki) / 16 in
    let bA := 2 * sqrt A2 in
    let qA2 := 4 * A2 in
    let ai2 := 1/2 * (lij2 - ljk2 + lki2) in
    let aj2 := 1/2 * (ljk2 - lki2 + lij2) in
    let ak2 := 1/2 * (lki2 - lij2 + ljk2) in
    let cosT := cos angle in
    let sinT := sin angle in
    let oneMinusCos := 1 - cosT in
    let aj2ak2 := aj2 * ak2 in let ai2ak2 := ai2 * ak2 in let ai2aj2 := ai2 * aj2 in
    let xi := (qA2 * cosT + oneMinusCos * aj2ak2) * ui in
    let xj := (oneMinusCos * aj2ak2 - bA * sinT * aj2) * uj in
    let xk := (oneMinusCos * aj2ak2 + bA * sinT * ak2) * uk in
    let yi := (oneMinusCos * ai2ak2 + bA * sinT * ai2) * ui in
    let yj := (qA2 * cosT + oneMinusCos * ai2ak2) * uj in
    let yk := (oneMinusCos * ai2ak2 - bA * sinT * ak2) * uk in
    let zi := (oneMinusCos * ai2aj2 - bA * sinT * ai2) * ui in
    let zj := (oneMinusCos * ai2aj2 + bA * sinT * aj2) * uj in
    let zk := (qA2 * cosT + oneMinusCos * ai2aj2) * uk in
    let c := div3 (mk3 (xi + xj + xk) (yi + yj + yk) (zi + zj + zk)) qA2 in
    Ok (BFace f (qx c) (qy c) (qz c))
  | _ => UB
  end.
(** rotate90, .ipp:222-243 *)
Definition bvRotate90 (m : mesh) (len : Z -> R) (b : bvec) : res bvec :=
  match b with
  | BFace _ _ _ _ => faceRotate90 m len b
  | BEdge e x y =>
    let he := if Rlt_dec x 0 then eHe e else tw (eHe e) in
    let* i := isInterior m he in
    let he := if i then he else tw he in
    let* f := faceOf m he in
    let* w := bvInFace m b f in
    faceRotate90 m len w
  | BVertex _ => Ok b
  end.
(** rotate, .ipp:245-273 *)
Definition bvRotate (m : mesh) (len : Z -> R) (b : bvec) (angle : R) : res bvec :=
  match b with
  | BFace _ _ _ _ => faceRotate m len b angle
  | BEdge e x y =>
    let theta := regularizeAngle angle in
    if Req_EM_T theta PI then Ok (BEdge e (- x) (- y)) else
    if Req_EM_T theta (- PI) then Ok (BEdge e (- x) (- y)) else
    let he := if Rlt_dec x 0 then eHe e else tw (eHe e) in
    let* i := isInterior m he in
    let* bd := eIsBoundary m e in
    let he :=
      if negb i && (if Rlt_dec theta PI then true else false) then eHe e
      else if bd && i && (if Rgt_dec theta PI then true else false) then eHe e
      else if Rgt_dec theta PI then tw he else he in
    let* f := faceOf m he in
    let* w := bvInFace m b f in
    faceRotate m len w angle
  | BVertex _ => Ok b
  end.
