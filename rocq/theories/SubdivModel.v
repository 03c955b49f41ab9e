(** Subdivision, src/surface/subdivide.cpp (sub below), on meshes with implicit twins. double is R: rounding is not modelled. The containers of the
    functions (positions and markers) are functions of the element: they grow with the mesh and give new elements their default (C05). *)
From Coq Require Import Reals.
From Verif Require Import Base MeshModel MeshModel2 MeshCompressModel MeshDataModel CollapseModel GeoModel IntrinsicModel FastModel.
Open Scope Z_scope.

(** Vector3::zero(), and the default of a FaceData<Vector3> or EdgeData<Vector3> *)
Definition zero : V3 := mk3 0%R 0%R 0%R.
(** a container filled in a loop over elements *)
Definition tabulate (l : list nat) (f : Z -> res V3) (d : Z -> V3) : res (Z -> V3) := foldM (fun d i => let* x := f (Z.of_nat i) in Ok (setf d (Z.of_nat i) x)) l d.
(** sub:15-19 and 95-99: the average of the corners of a face *)
Definition facePoint (m : mesh) (pos : Z -> V3) (f : Z) : res V3 :=
  let* hs := faceHalfedges m f in let D := IZR (zlen hs) in
  foldM (fun s h => let* v := vertexOf m h in Ok (add3 s (div3 (pos v) D))) hs zero.
(** sub:22-25 *)
Definition midPoint (m : mesh) (pos : Z -> V3) (e : Z) : res V3 :=
  let* a := vertexOf m (eHe e) in let* b := vertexOf m (tw (eHe e)) in Ok (div3 (add3 (pos a) (pos b)) 2%R).
(** sub:101-105 *)
Definition ccEdgePoint (m : mesh) (facePt : Z -> V3) (e : Z) : res V3 :=
  let* f := faceOf m (eHe e) in let* g := faceOf m (tw (eHe e)) in Ok (div3 (add3 (facePt f) (facePt g)) 2%R).
(** sub:107-119; adjacentEdges() visits the edges of the outgoing halfedges, adjacentFaces() the faces of the interior ones *)
Definition ccVertexPoint (m : mesh) (pos facePt edgePt : Z -> V3) (v : Z) : res V3 :=
  let* hs := vertHalfedges m v in let D := IZR (zlen hs) in
  let Rs := fold_left (fun s h => add3 s (div3 (edgePt (edge h)) D)) hs zero in
  let* is := interiorOf m hs in
  let* Q := foldM (fun s h => let* f := faceOf m h in Ok (add3 s (div3 (facePt f) D))) is zero in
  Ok (div3 (add3 (add3 Q (mul3 Rs 2%R)) (mul3 (pos v) (D - 3)%R)) D).

(** the mesh, isOrigVert, isOrigEdge, isOrigFace and newPositions *)
Record refine := mkRefine { rM : mesh; rV : Z -> bool; rE : Z -> bool; rF : Z -> bool; rP : Z -> V3 }.
(** a range-for over the elements of kind k while the mesh changes: the end is fixed at the start, dead elements are skipped when they are reached,
    element_iterators.ipp:8-40 *)
Definition visitAll (k : ekind) (body : refine -> Z -> res refine) (r : refine) : res refine :=
  foldM (fun r i => if okayAt (rM r) k i then body r (Z.of_nat i) else Ok r) (seq 0 (Z.to_nat (fillOf (rM r) k))) r.
(** sub:31-47 and 125-140 *)
Definition splitSide (edgePt : Z -> V3) (r : refine) (e : Z) : res refine :=
  if negb (rE r e) then Ok r else
  let* (m, newHe) := insertVertexAlongEdge (rM r) e in
  let* newV := vertexOf m newHe in let ov := setf (rV r) newV false in
  let* t := next m (tw newHe) in let oe := setf (setf (rE r) (edge newHe) false) (edge t) false in
  let* a := vertexOf m (tw newHe) in let* b := vertexOf m (tw t) in
  let* _ := guard (ov a && ov b) in
  Ok (mkRefine m ov oe (rF r) (setf (rP r) newV (edgePt e))).
(** sub:67-77 and 160-170: merge the two triangles at an original vertex *)
Definition mergeAt (r : refine) (he : Z) : res refine :=
  let* v := vertexOf (rM r) he in
  if rV r v then
    let* (m, merged) := removeEdge (rM r) (edge he) in
    Ok (mkRefine m (rV r) (rE r) (match merged with None => rF r | Some f => setf (rF r) f false end) (rP r))
  else Ok r.
(** sub:51-78 and 144-171 *)
Definition splitFace (facePt : Z -> V3) (r : refine) (f : Z) : res refine :=
  if negb (rF r f) then Ok r else
  let* (m, newV) := insertVertex (rM r) f in
  let* hs := vertHalfedges m newV in let* is := interiorOf m hs in
  let* fo := foldM (fun fo h => let* g := faceOf m h in Ok (setf fo g false)) is (rF r) in
  let* inc := incoming m newV in
  foldM mergeAt inc (mkRefine m (setf (rV r) newV false) (rE r) fo (setf (rP r) newV (facePt f))).
(** the permute callback of a VertexData during compress() (C06), applied to a function *)
Definition afterCompress (m m' : mesh) (pos : Z -> V3) : Z -> V3 :=
  fold_left (fun p cb => match cb with CbPermute KVertex pv => fun v => p (getZ pv v) | _ => p end) (issued m m') pos.
(** sub:27-82 and 121-175, the same in both functions: split the edges, then the faces, and compress *)
Definition quadSplit (m : mesh) (pos edgePt facePt : Z -> V3) : res (mesh * (Z -> V3)) :=
  let all := fun _ : Z => true in
  let* r := visitAll EEdge (splitSide edgePt) (mkRefine m all all all pos) in
  let* r := visitAll EFace (splitFace facePt) (mkRefine (rM r) (rV r) (rE r) all (rP r)) in
  let* m' := compress (rM r) in Ok (m', afterCompress (rM r) m' (rP r)).
(** linearSubdivide, sub:6-83 *)
Definition linearSubdivide (m : mesh) (pos : Z -> V3) : res (mesh * (Z -> V3)) :=
  let* fs := elements m EFace in let* facePt := tabulate fs (facePoint m pos) (fun _ => zero) in
  let* es := elements m EEdge in let* edgePt := tabulate es (midPoint m pos) (fun _ => zero) in
  quadSplit m pos edgePt facePt.
(** catmullClarkSubdivide, sub:85-176 *)
Definition catmullClarkSubdivide (m : mesh) (pos : Z -> V3) : res (mesh * (Z -> V3)) :=
  let* fs := elements m EFace in let* facePt := tabulate fs (facePoint m pos) (fun _ => zero) in
  let* es := elements m EEdge in let* edgePt := tabulate es (ccEdgePoint m facePt) (fun _ => zero) in
  let* vs := elements m EVertex in let* newPos := tabulate vs (ccVertexPoint m pos facePt edgePt) (fun _ => zero) in
  quadSplit m newPos edgePt facePt.
