(** ManifoldSurfaceMesh::collapseEdgeTriangular, src/surface/manifold_surface_mesh.cpp:1040-1268. *)
From Verif Require Import Base MeshModel MeshModel2.
Open Scope Z_scope.

(** Vertex::degree(), halfedge_element_types.ipp:95-99, implicit twin: one edge per outgoing halfedge *)
Definition vDegree (m : mesh) (v : Z) : res Z := let* l := vertHalfedges m v in Ok (Z.of_nat (length l)).
(** he.tipVertex() = he.next().vertex() in the walks below: tipVertex(), halfedge_element_types.ipp:211, is the vertex of the twin *)
Definition tipVertex (m : mesh) (h : Z) : res Z := vertexOf m (tw h).
(** a range-for over v.incomingHalfedges(), halfedge_element_types.ipp:107-109: starts at halfedge().prevOrbitFace(), advances
    with nextIncomingNeighbor = twin of next (surface_mesh.ipp:47) *)
Definition incoming (m : mesh) (v : Z) : res (list Z) :=
  let* h := vHe m v in let* s := prevOrbitFace m h in
  orbit_loop (loopFuel m) (fun c => let* n := next m c in Ok (tw n)) s s.
(** the first incoming halfedge on the boundary; the null halfedge if there is none, :1095-1101 *)
Fixpoint firstExterior (m : mesh) (l : list Z) : res Z :=
  match l with
  | [] => Ok INVALID
  | h :: t => let* b := isInterior m h in if (b : bool) then firstExterior m t else Ok h
  end.
(** the inner test of the two nested loops, :1071-1078, 1141-1149: the path heA0, he1, he2 closes up, and is not a face *)
Definition pinch2 (m : mesh) (heA0 he1 : Z) (he2 : Z) : res bool :=
  let* n0 := next m heA0 in let* n1 := next m he1 in
  let* t1 := next m (tw he1) in let* t2 := next m (tw he2) in
  if negb ((n0 =? he1) && (n1 =? he2)) && negb ((tw t1 =? heA0) && (tw t2 =? he1))
  then let* tip := tipVertex m he2 in let* v := vertexOf m heA0 in Ok (tip =? v) else Ok false.
Fixpoint anyM {A} (f : A -> res bool) (l : list A) : res bool :=
  match l with [] => Ok false | x :: t => let* b := f x in if (b : bool) then Ok true else anyM f t end.
Definition pinched (m : mesh) (heA0 : Z) : res bool :=
  let* v := tipVertex m heA0 in let* l1 := vertHalfedges m v in
  anyM (fun he1 => let* w := tipVertex m he1 in let* l2 := vertHalfedges m w in anyM (pinch2 m heA0 he1) l2) l1.
(** :1107-1113, 1184-1190 *)
Definition moveVertex (m : mesh) (vA vB : Z) : res mesh :=
  let* l := vertHalfedges m vA in foldM (fun m h => setVertex m h vB) l m.
(** if (!v.isBoundary()) vHalfedgeArr[v] = h *)
Definition setVHeUnlessBoundary (m : mesh) (v h : Z) : res mesh :=
  let* b := vIsBoundary m v in if (b : bool) then Ok m else setVHe m v h.

(** e on the boundary, :1057-1130 *)
Definition collapseBoundary (m : mesh) (e : Z) : res (mesh * option Z) :=
  let heA0 := eHe e in
  let* v := vertexOf m heA0 in let* d := vDegree m v in
  let* heA0 := (if d =? 2 then let* a := next m heA0 in next m a else Ok heA0) in
  let e := edge heA0 in
  let* t1 := next m (tw heA0) in let* t2 := next m t1 in let* t3 := next m t2 in
  if t3 =? tw heA0 then Ok (m, None) else
  let* p := pinched m heA0 in
  if (p : bool) then Ok (m, None) else
  let* heA1 := next m heA0 in let* heA2 := next m heA1 in
  let heC2 := tw heA2 in let* heC0 := next m heC2 in let* heC1 := next m heC0 in
  let* fA := faceOf m heA0 in let* fC := faceOf m heC0 in
  let* vA := vertexOf m heA0 in let* vB := vertexOf m heA1 in let* vC := vertexOf m heC0 in
  let heB0 := tw heA0 in
  let* inc := incoming m vB in let* heB0prev := firstExterior m inc in
  let* heB0next := next m heB0 in let* fB := faceOf m heB0 in
  let* m := moveVertex m vA vB in
  let* m := setNext m heC1 heA1 in let* m := setNext m heA1 heC0 in let* m := setNext m heB0prev heB0next in
  let* m := setFace m heA1 fC in
  let* m := setVHeUnlessBoundary m vC heC0 in
  let* m := setFHe m fC heC0 in let* m := setFHe m fB heB0next in
  let* m := deleteEdgeBundle m e in let* m := deleteEdgeBundle m (edge heA2) in
  let* m := deleteVertex m vA in let* m := deleteFace m fA in
  Ok (m, Some vB).

(** an interior edge, the first vertex of degree more than three, :1152-1215 *)
Definition collapseInterior (m : mesh) (e heA0 : Z) : res (mesh * option Z) :=
  let* heA1 := next m heA0 in let* heA2 := next m heA1 in
  let heB0 := tw heA0 in let* heB1 := next m heB0 in let* heB2 := next m heB1 in
  let heC2 := tw heA2 in let* heC0 := next m heC2 in let* heC1 := next m heC0 in
  let heD1 := tw heB1 in let* heD2 := next m heD1 in let* heD0 := next m heD2 in
  let* fA := faceOf m heA0 in let* fB := faceOf m heB0 in let* fC := faceOf m heC0 in let* fD := faceOf m heD0 in
  let* vA := vertexOf m heA0 in let* vB := vertexOf m heB0 in let* vC := vertexOf m heC0 in let* vD := vertexOf m heD1 in
  let* m := moveVertex m vA vB in
  let* m := setNext m heD0 heB2 in let* m := setNext m heB2 heD2 in let* m := setNext m heC1 heA1 in let* m := setNext m heA1 heC0 in
  let* m := setFace m heB2 fD in let* m := setFace m heA1 fC in
  let* m := setFHe m fC heC0 in let* m := setFHe m fD heD0 in
  let* m := setVHeUnlessBoundary m vB heA1 in let* m := setVHeUnlessBoundary m vC heC0 in let* m := setVHeUnlessBoundary m vD heB2 in
  let* m := deleteEdgeBundle m e in let* m := deleteEdgeBundle m (edge heB1) in let* m := deleteEdgeBundle m (edge heA2) in
  let* m := deleteVertex m vA in let* m := deleteFace m fA in let* m := deleteFace m fB in
  Ok (m, Some vB).
(** degree three, :1217-1258 *)
Definition collapseDegree3 (m : mesh) (e heA0 : Z) : res (mesh * option Z) :=
  let* heA1 := next m heA0 in let* heA2 := next m heA1 in
  let heB0 := tw heA0 in let* heB1 := next m heB0 in let* heB2 := next m heB1 in
  let heC2 := tw heA2 in let* heC0 := next m heC2 in let* heC1 := next m heC0 in
  let* fA := faceOf m heA0 in let* fB := faceOf m heB0 in let* fC := faceOf m heC0 in
  let* vA := vertexOf m heA0 in let* vB := vertexOf m heB0 in let* vC := vertexOf m heC0 in let* vD := vertexOf m heC1 in
  let* m := setNext m heA1 heC0 in let* m := setNext m heC0 heB2 in let* m := setNext m heB2 heA1 in
  let* m := setFace m heB2 fC in let* m := setFace m heA1 fC in
  let* m := setFHe m fC heC0 in
  let* m := setVHeUnlessBoundary m vB heA1 in let* m := setVHeUnlessBoundary m vC heC0 in let* m := setVHeUnlessBoundary m vD heB2 in
  let* m := deleteEdgeBundle m e in let* m := deleteEdgeBundle m (edge heB1) in let* m := deleteEdgeBundle m (edge heA2) in
  let* m := deleteVertex m vA in let* m := deleteFace m fA in let* m := deleteFace m fB in
  Ok (m, Some vB).

(** :1040-1268; [None] is the null vertex. [modificationTick] is not modelled *)
Definition collapseEdgeTriangular (m : mesh) (e : Z) : res (mesh * option Z) :=
  let* f := faceOf m (eHe e) in let* t := isTriangle m f in let* _ := guard t in
  let* bd := eIsBoundary m e in
  let* _ := (if (bd : bool) then Ok tt else let* g := faceOf m (tw (eHe e)) in let* t := isTriangle m g in guard t) in
  if (bd : bool) then collapseBoundary m e else
  let heA0 := eHe e in
  let* v := vertexOf m heA0 in let* w := vertexOf m (tw heA0) in
  let* bv := vIsBoundary m v in let* bw := (if (bv : bool) then vIsBoundary m w else Ok false) in
  if (bw : bool) then Ok (m, None) else
  let heA0 := if (bv : bool) then tw heA0 else heA0 in
  let* p := pinched m heA0 in
  if (p : bool) then Ok (m, None) else
  let* v := vertexOf m heA0 in let* d := vDegree m v in
  if 3 <? d then collapseInterior m e heA0 else
  if d =? 3 then collapseDegree3 m e heA0 else Throw.
