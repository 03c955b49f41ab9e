(** Operations that open a mesh with implicit twins along its boundary: src/surface/manifold_surface_mesh.cpp (cited by line). *)
From Verif Require Import Base MeshModel.
Open Scope Z_scope.

(** ensureVertexHasBoundaryHalfedge, 1627-1636 *)
Fixpoint ensureVertex_loop (fuel : nat) (m : mesh) (v : Z) : res mesh :=
  match fuel with
  | O => UB
  | S k => let* h := vHe m v in let heT := tw h in let* b := isInterior m heT in
           if b then let* n := next m heT in let* m := setVHe m v n in ensureVertex_loop k m v else Ok m
  end.
Definition ensureVertexHasBoundaryHalfedge (m : mesh) (v : Z) : res mesh := ensureVertex_loop (loopFuel m) m v.
(** ensureEdgeHasInteriorHalfedge, 872-879 *)
Definition ensureEdgeHasInteriorHalfedge (m : mesh) (e : Z) : res mesh :=
  let* b := isInterior m (eHe e) in if b then Ok m else switchHalfedgeSides m e.

(** the loop at 1335-1340: the last halfedge of the face whose twin is on the boundary, and how many there are *)
Definition boundarySides (m : mesh) (hs : list Z) : res (nat * Z) :=
  foldM (fun (s : nat * Z) he => let* b := isInterior m (tw he) in Ok (if b then s else (S (fst s), he))) hs (0%nat, INVALID).
(** the loop at 1381-1386 *)
Fixpoint ensureEdges_loop (fuel : nat) (m : mesh) (curr stop : Z) : res mesh :=
  match fuel with
  | O => UB
  | S k => let* n := next m curr in let* m := ensureEdgeHasInteriorHalfedge m (edge curr) in if n =? stop then Ok m else ensureEdges_loop k m n stop
  end.
(** removeFaceAlongBoundary, 1330-1570. More than one boundary edge is "not supported yet" and returns false. *)
Definition removeFaceAlongBoundary (m : mesh) (f : Z) : res (mesh * bool) :=
  let* hs := faceHalfedges m f in
  let* (bCount, heB) := boundarySides m hs in
  match bCount with
  | O => Throw
  | S O =>
    let* heBNext := next m heB in let* heBPrev := prevOrbitFace m heB in
    let heT := tw heB in let* heTNext := next m heT in let* heTPrev := prevOrbitVertex m heT in
    let* bLoop := faceOf m heT in
    let* v := vertexOf m heBPrev in let* b := vIsBoundary m v in
    if b then Ok (m, false)
    else
      let* hs := faceHalfedges m f in
      let* m := foldM (fun m he => setFace m he bLoop) hs m in
      let* m := setNext m heBPrev heTNext in let* m := setNext m heTPrev heBNext in
      let* u := vertexOf m heTNext in let* m := setVHe m u (tw heBPrev) in
      let* w := vertexOf m heBPrev in let* m := ensureVertexHasBoundaryHalfedge m w in
      let* m := setFHe m bLoop heTNext in
      let* m := ensureEdges_loop (loopFuel m) m heBNext heTNext in
      let* m := deleteFace m f in
      let* m := deleteEdgeBundle m (edge heB) in
      Ok (m, true)
  | _ => Ok (m, false)
  end.

(** the loop at 766-770, and the assignment after it *)
Fixpoint moveFan_loop (fuel : nat) (m : mesh) (vN curr stop : Z) : res mesh :=
  match fuel with
  | O => UB
  | S k => let* m := setVertex m curr vN in let* a := next m curr in let* b := next m a in let curr := tw b in
           if curr =? stop then setVertex m curr vN else moveFan_loop k m vN curr stop
  end.
(** separateEdge, 675-823 *)
Definition separateEdge (m : mesh) (e : Z) : res (mesh * (Z * Z)) :=
  let* bd := eIsBoundary m e in
  let* _ := guard (negb bd) in
  let he0 := eHe e in
  let* v1 := vertexOf m he0 in let* b1 := vIsBoundary m v1 in
  let* v2 := vertexOf m (tw he0) in let* b2 := vIsBoundary m v2 in
  let swapAB := b2 && negb b1 in
  let he := if swapAB then tw he0 else he0 in
  let vA := if swapAB then v2 else v1 in let vB := if swapAB then v1 else v2 in
  let aB := if swapAB then b2 else b1 in let bB := if swapAB then b1 else b2 in
  let heT := tw he in
  let* heTNext := next m heT in let* heTPrev := prevOrbitFace m heT in
  let* fA := faceOf m he in let* fB := faceOf m heT in
  if negb aB && negb bB then
    let* (m, heN1) := getNewEdgeTriple m true in let heN2 := tw heN1 in
    let* (m, blN) := getNewBoundaryLoop m in
    let* m := setNext m heT heN2 in let* m := setNext m heN2 heT in let* m := setNext m heN1 heTNext in let* m := setNext m heTPrev heN1 in
    let* m := setVertex m heN1 vB in let* m := setVertex m heN2 vA in
    let* m := setFace m heT blN in let* m := setFace m heN1 fB in let* m := setFace m heN2 blN in
    let* m := setFHe m fB heN1 in let* m := setFHe m blN heT in
    let* m := setVHe m vA he in let* m := setVHe m vB heN1 in
    Ok (m, (he, heN1))
  else if aB && negb bB then
    let* h := vHe m vA in let heB := tw h in let* heBN := next m heB in
    let* bl := faceOf m heB in
    let* (m, heN1) := getNewEdgeTriple m true in let heN2 := tw heN1 in
    let (m, vN) := getNewVertex m in
    let* m := setNext m heT heBN in let* m := setNext m heN2 heT in let* m := setNext m heN1 heTNext in let* m := setNext m heTPrev heN1 in
    let* m := setNext m heB heN2 in
    let* m := setVertex m heN1 vB in let* m := setVertex m heN2 vA in
    let* m := moveFan_loop (loopFuel m) m vN he heBN in
    let* m := setFace m heT bl in let* m := setFace m heN1 fB in let* m := setFace m heN2 bl in
    let* m := setFHe m fB heN1 in
    let* m := setVHe m vB heN1 in let* m := setVHe m vN he in
    let* m := ensureEdgeHasInteriorHalfedge m (edge he) in
    let r := eHe (edge he) in
    Ok (m, if swapAB then (heN1, r) else (r, heN1))
  else Throw.
