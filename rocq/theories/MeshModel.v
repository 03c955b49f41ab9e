(** Model of the implicit-twin halfedge mesh: SurfaceMesh with useImplicitTwinFlag = true, as used by
    ManifoldSurfaceMesh (surface_mesh.{h,ipp,cpp}, manifold_surface_mesh.cpp).
    Arrays of size_t are [list Z]; INVALID_IND is -1. Reading or writing an array out of bounds is UB.
    modificationTick is not modelled. *)
From Verif Require Import Base.
Open Scope Z_scope.

Definition INVALID : Z := -1.

(** ** arrays *)
Definition zlen (l : list Z) : Z := Z.of_nat (length l).
(** total read used in specifications; INVALID outside the array *)
Definition getZ (l : list Z) (i : Z) : Z := if i <? 0 then INVALID else nth (Z.to_nat i) l INVALID.
Definition inb (l : list Z) (i : Z) : bool := (0 <=? i) && (i <? zlen l).
Definition rdZ (l : list Z) (i : Z) : res Z := if inb l i then Ok (getZ l i) else UB.
Definition wrZ (l : list Z) (i v : Z) : res (list Z) := if inb l i then Ok (upd l (Z.to_nat i) v) else UB.
(** std::vector<size_t>::resize: new entries are value-initialised, i.e. 0 *)
Definition resizeZ (l : list Z) (n : Z) : list Z := firstn (Z.to_nat n) l ++ repeat 0 (Z.to_nat n - length l).
(** 0, 1, ..., n-1 *)
Definition zseq (n : Z) : list Z := map Z.of_nat (seq 0 (Z.to_nat n)).

(** ** callbacks observed by containers (mesh_data.ipp:83-122): sizes after growth, new->old maps at compress.
    Corner containers listen to the halfedge callbacks; BoundaryLoop containers listen to the face *expand* callback and
    to the boundary-loop *permute* callback (halfedge_logic_templates.ipp:37-49). *)
Inductive kind := KVertex | KHalfedge | KEdge | KFace | KLoop.
Inductive callback := CbExpand (k : kind) (newSize : Z) | CbPermute (k : kind) (newToOld : list Z).

(** ** state, surface_mesh.h:215-270 *)
Record mesh := mkMesh {
  heNext : list Z; heVertex : list Z; heFace : list Z; vHalfedge : list Z; fHalfedge : list Z;
  nHalfedges : Z; nInterior : Z; nEdges : Z; nVertices : Z; nFaces : Z; nLoops : Z;
  heFill : Z; eFill : Z; vFill : Z; fFill : Z; bFill : Z;
  heCap : Z; eCap : Z; vCap : Z; fCap : Z;
  compressed : bool;
  cblog : list callback (* history variable: the callbacks issued so far, latest first *) }.

Definition set_heNext m x := mkMesh x (heVertex m) (heFace m) (vHalfedge m) (fHalfedge m) (nHalfedges m) (nInterior m) (nEdges m) (nVertices m) (nFaces m) (nLoops m) (heFill m) (eFill m) (vFill m) (fFill m) (bFill m) (heCap m) (eCap m) (vCap m) (fCap m) (compressed m) (cblog m).
Definition set_heVertex m x := mkMesh (heNext m) x (heFace m) (vHalfedge m) (fHalfedge m) (nHalfedges m) (nInterior m) (nEdges m) (nVertices m) (nFaces m) (nLoops m) (heFill m) (eFill m) (vFill m) (fFill m) (bFill m) (heCap m) (eCap m) (vCap m) (fCap m) (compressed m) (cblog m).
Definition set_heFace m x := mkMesh (heNext m) (heVertex m) x (vHalfedge m) (fHalfedge m) (nHalfedges m) (nInterior m) (nEdges m) (nVertices m) (nFaces m) (nLoops m) (heFill m) (eFill m) (vFill m) (fFill m) (bFill m) (heCap m) (eCap m) (vCap m) (fCap m) (compressed m) (cblog m).
Definition set_vHalfedge m x := mkMesh (heNext m) (heVertex m) (heFace m) x (fHalfedge m) (nHalfedges m) (nInterior m) (nEdges m) (nVertices m) (nFaces m) (nLoops m) (heFill m) (eFill m) (vFill m) (fFill m) (bFill m) (heCap m) (eCap m) (vCap m) (fCap m) (compressed m) (cblog m).
Definition set_fHalfedge m x := mkMesh (heNext m) (heVertex m) (heFace m) (vHalfedge m) x (nHalfedges m) (nInterior m) (nEdges m) (nVertices m) (nFaces m) (nLoops m) (heFill m) (eFill m) (vFill m) (fFill m) (bFill m) (heCap m) (eCap m) (vCap m) (fCap m) (compressed m) (cblog m).

(** ** queries *)
(** heTwinImplicit: iHe ^ 1, surface_mesh.ipp:57 *)
Definition tw (h : Z) : Z := h + 1 - 2 * (h mod 2).
(** heEdgeImplicit, eHalfedgeImplicit, surface_mesh.ipp:58-59 *)
Definition edge (h : Z) : Z := h / 2.
Definition eHe (e : Z) : Z := 2 * e.
Definition next (m : mesh) (h : Z) : res Z := rdZ (heNext m) h.
Definition vertexOf (m : mesh) (h : Z) : res Z := rdZ (heVertex m) h.
Definition faceOf (m : mesh) (h : Z) : res Z := rdZ (heFace m) h.
Definition vHe (m : mesh) (v : Z) : res Z := rdZ (vHalfedge m) v.
Definition fHe (m : mesh) (f : Z) : res Z := rdZ (fHalfedge m) f.
(** faceIsBoundaryLoop, surface_mesh.ipp:63: iF >= nFacesFillCount; INVALID_IND is the largest size_t *)
Definition isLoop (m : mesh) (f : Z) : bool := (f <? 0) || (fFill m <=? f).
(** heIsInterior, surface_mesh.ipp:62 *)
Definition isInterior (m : mesh) (h : Z) : res bool := let* f := faceOf m h in Ok (negb (isLoop m f)).
(** Edge::isBoundary, halfedge_element_types.ipp:330 (implicit twin) *)
Definition eIsBoundary (m : mesh) (e : Z) : res bool := let* b := isInterior m (tw (eHe e)) in Ok (negb b).
(** Vertex::isBoundary, halfedge_element_types.ipp:38 (implicit twin) *)
Definition vIsBoundary (m : mesh) (v : Z) : res bool :=
  let* h := vHe m v in let* b := isInterior m (tw h) in Ok (negb b).
(** Face::isTriangle, halfedge_element_types.ipp:406 *)
Definition isTriangle (m : mesh) (f : Z) : res bool :=
  let* h := fHe m f in let* a := next m h in let* b := next m a in let* c := next m b in Ok (h =? c).
(** dead elements, surface_mesh.ipp:68-71 *)
Definition heIsDead (m : mesh) (h : Z) : res bool := let* n := next m h in Ok (n =? INVALID).

(** loops around a face or a vertex end after at most this many steps, or never *)
Definition loopFuel (m : mesh) : nat := S (length (heNext m)).

(** prevOrbitFace, halfedge_element_types.ipp:235 *)
Fixpoint prevFace_loop (fuel : nat) (m : mesh) (h curr : Z) : res Z :=
  match fuel with
  | O => UB
  | S k => let* n := next m curr in if n =? h then Ok curr else prevFace_loop k m h n
  end.
Definition prevOrbitFace (m : mesh) (h : Z) : res Z := prevFace_loop (loopFuel m) m h h.
(** prevOrbitVertex, halfedge_element_types.ipp:244 *)
Fixpoint prevVert_loop (fuel : nat) (m : mesh) (h curr : Z) : res Z :=
  match fuel with
  | O => UB
  | S k => let* n := next m curr in if n =? h then Ok curr else prevVert_loop k m h (tw n)
  end.
Definition prevOrbitVertex (m : mesh) (h : Z) : res Z := prevVert_loop (loopFuel m) m h (tw h).

(** A range-for over f.adjacentHalfedges() / v.outgoingHalfedges() (element_iterators.ipp:64-120 with navigators whose
    isValid() is always true): yields the start, advances, stops when back at the start. *)
Fixpoint orbit_loop (fuel : nat) (adv : Z -> res Z) (start curr : Z) : res (list Z) :=
  match fuel with
  | O => UB
  | S k => let* n := adv curr in
           if n =? start then Ok [curr] else let* t := orbit_loop k adv start n in Ok (curr :: t)
  end.
Definition faceHalfedges (m : mesh) (f : Z) : res (list Z) :=
  let* h := fHe m f in orbit_loop (loopFuel m) (next m) h h.
(** nextOutgoingNeighbor = heNext[twin], surface_mesh.ipp:46 *)
Definition rot (m : mesh) (h : Z) : res Z := next m (tw h).
Definition vertHalfedges (m : mesh) (v : Z) : res (list Z) :=
  let* h := vHe m v in orbit_loop (loopFuel m) (rot m) h h.

(** ** array writes *)
Definition setNext m h x := let* l := wrZ (heNext m) h x in Ok (set_heNext m l).
Definition setVertex m h x := let* l := wrZ (heVertex m) h x in Ok (set_heVertex m l).
Definition setFace m h x := let* l := wrZ (heFace m) h x in Ok (set_heFace m l).
Definition setVHe m v x := let* l := wrZ (vHalfedge m) v x in Ok (set_vHalfedge m l).
Definition setFHe m f x := let* l := wrZ (fHalfedge m) f x in Ok (set_fHalfedge m l).

(** ** allocation *)
(** getNewVertex, surface_mesh.cpp:1371-1403 *)
Definition growVertices (m : mesh) : mesh :=
  if vFill m <? vCap m then m
  else
    let n := vCap m * 2 in
    mkMesh (heNext m) (heVertex m) (heFace m) (resizeZ (vHalfedge m) n) (fHalfedge m)
      (nHalfedges m) (nInterior m) (nEdges m) (nVertices m) (nFaces m) (nLoops m)
      (heFill m) (eFill m) (vFill m) (fFill m) (bFill m) (heCap m) (eCap m) n (fCap m) (compressed m)
      (CbExpand KVertex n :: cblog m).
Definition getNewVertex (m : mesh) : mesh * Z :=
  let m := growVertices m in
  (mkMesh (heNext m) (heVertex m) (heFace m) (vHalfedge m) (fHalfedge m)
      (nHalfedges m) (nInterior m) (nEdges m) (nVertices m + 1) (nFaces m) (nLoops m)
      (heFill m) (eFill m) (vFill m + 1) (fFill m) (bFill m) (heCap m) (eCap m) (vCap m) (fCap m) false (cblog m),
   vFill m).

(** getNewEdgeTriple, surface_mesh.cpp:1486-1564. The GC_SAFETY_ASSERT on the edge capacity throws. *)
Definition growEdges (m : mesh) : res mesh :=
  if heFill m + 1 <? heCap m then let* _ := guard (eFill m <? eCap m) in Ok m
  else
    let nh := Z.max (heCap m * 2) 2 in
    let ne := Z.max (eCap m * 2) 1 in
    Ok (mkMesh (resizeZ (heNext m) nh) (resizeZ (heVertex m) nh) (resizeZ (heFace m) nh) (vHalfedge m) (fHalfedge m)
      (nHalfedges m) (nInterior m) (nEdges m) (nVertices m) (nFaces m) (nLoops m)
      (heFill m) (eFill m) (vFill m) (fFill m) (bFill m) nh ne (vCap m) (fCap m) (compressed m)
      (CbExpand KEdge ne :: CbExpand KHalfedge nh :: cblog m)).
Definition getNewEdgeTriple (m : mesh) (onBoundary : bool) : res (mesh * Z) :=
  let* m := growEdges m in
  Ok (mkMesh (heNext m) (heVertex m) (heFace m) (vHalfedge m) (fHalfedge m)
      (nHalfedges m + 2) (nInterior m + (if onBoundary then 1 else 2)) (nEdges m + 1) (nVertices m) (nFaces m) (nLoops m)
      (heFill m + 2) (eFill m + 1) (vFill m) (fFill m) (bFill m) (heCap m) (eCap m) (vCap m) (fCap m) false (cblog m),
      heFill m).

(** expandFaceStorage, surface_mesh.cpp:1605-1637 *)
Definition scoochLoops (oldCap newCap nb : Z) (l : list Z) : res (list Z) :=
  foldM (fun l iBack =>
           let iOld := oldCap - iBack - 1 in let iNew := newCap - iBack - 1 in
           let* x := rdZ l iOld in let* l := wrZ l iNew x in wrZ l iOld INVALID) (zseq nb) l.
Definition scoochFaces (m : mesh) (shift : Z) : res (list Z) :=
  foldM (fun l iHe =>
           let* dead := heIsDead m iHe in
           if dead then Ok l
           else let* f := rdZ l iHe in
                if isLoop m f then wrZ l iHe (f + shift) else Ok l) (zseq (heFill m)) (heFace m).
Definition expandFaceStorage (m : mesh) : res mesh :=
  let n := fCap m * 2 in
  let* fh := scoochLoops (fCap m) n (bFill m) (resizeZ (fHalfedge m) n) in
  let* hf := scoochFaces m (n - fCap m) in
  Ok (mkMesh (heNext m) (heVertex m) hf (vHalfedge m) fh
      (nHalfedges m) (nInterior m) (nEdges m) (nVertices m) (nFaces m) (nLoops m)
      (heFill m) (eFill m) (vFill m) (fFill m) (bFill m) (heCap m) (eCap m) (vCap m) n (compressed m)
      (CbExpand KFace n :: cblog m)).

(** getNewFace, surface_mesh.cpp:1567-1584 (the room test uses nBoundaryLoopsCount, not its fill count) *)
Definition getNewFace (m : mesh) : res (mesh * Z) :=
  let* m := (if fFill m + nLoops m <? fCap m then Ok m else expandFaceStorage m) in
  Ok (mkMesh (heNext m) (heVertex m) (heFace m) (vHalfedge m) (fHalfedge m)
      (nHalfedges m) (nInterior m) (nEdges m) (nVertices m) (nFaces m + 1) (nLoops m)
      (heFill m) (eFill m) (vFill m) (fFill m + 1) (bFill m) (heCap m) (eCap m) (vCap m) (fCap m) false (cblog m),
      fFill m).
(** getNewBoundaryLoop, surface_mesh.cpp:1586-1603. The C++ function wraps the *face* index in a BoundaryLoop handle and
    its caller writes through getIndex() as a face index; the model returns that index. *)
Definition getNewBoundaryLoop (m : mesh) : res (mesh * Z) :=
  let* m := (if fFill m + nLoops m <? fCap m then Ok m else expandFaceStorage m) in
  Ok (mkMesh (heNext m) (heVertex m) (heFace m) (vHalfedge m) (fHalfedge m)
      (nHalfedges m) (nInterior m) (nEdges m) (nVertices m) (nFaces m) (nLoops m + 1)
      (heFill m) (eFill m) (vFill m) (fFill m) (bFill m + 1) (heCap m) (eCap m) (vCap m) (fCap m) false (cblog m),
      fCap m - (bFill m + 1)).

(** ** deletion *)
(** body of the loop in deleteEdgeBundle, surface_mesh.cpp:1653-1660 *)
Definition deleteHalfedge (m : mesh) (i : Z) : res mesh :=
  let* b := isInterior m i in
  let* m := setNext m i INVALID in let* m := setVertex m i INVALID in let* m := setFace m i INVALID in
  Ok (mkMesh (heNext m) (heVertex m) (heFace m) (vHalfedge m) (fHalfedge m)
      (nHalfedges m - 1) (if b then nInterior m - 1 else nInterior m) (nEdges m) (nVertices m) (nFaces m) (nLoops m)
      (heFill m) (eFill m) (vFill m) (fFill m) (bFill m) (heCap m) (eCap m) (vCap m) (fCap m) (compressed m) (cblog m)).
(** deleteEdgeBundle, surface_mesh.cpp:1640-1680; e.adjacentHalfedges() is e.halfedge(), then its sibling *)
Definition deleteEdgeBundle (m : mesh) (e : Z) : res mesh :=
  let* m := deleteHalfedge m (eHe e) in
  let* m := deleteHalfedge m (tw (eHe e)) in
  Ok (mkMesh (heNext m) (heVertex m) (heFace m) (vHalfedge m) (fHalfedge m)
      (nHalfedges m) (nInterior m) (nEdges m - 1) (nVertices m) (nFaces m) (nLoops m)
      (heFill m) (eFill m) (vFill m) (fFill m) (bFill m) (heCap m) (eCap m) (vCap m) (fCap m) false (cblog m)).
(** deleteElement(Vertex), surface_mesh.cpp:1717-1725 *)
Definition deleteVertex (m : mesh) (v : Z) : res mesh :=
  let* m := setVHe m v INVALID in
  Ok (mkMesh (heNext m) (heVertex m) (heFace m) (vHalfedge m) (fHalfedge m)
      (nHalfedges m) (nInterior m) (nEdges m) (nVertices m - 1) (nFaces m) (nLoops m)
      (heFill m) (eFill m) (vFill m) (fFill m) (bFill m) (heCap m) (eCap m) (vCap m) (fCap m) false (cblog m)).
(** deleteElement(Face), surface_mesh.cpp:1727-1735 *)
Definition deleteFace (m : mesh) (f : Z) : res mesh :=
  let* m := setFHe m f INVALID in
  Ok (mkMesh (heNext m) (heVertex m) (heFace m) (vHalfedge m) (fHalfedge m)
      (nHalfedges m) (nInterior m) (nEdges m) (nVertices m) (nFaces m - 1) (nLoops m)
      (heFill m) (eFill m) (vFill m) (fFill m) (bFill m) (heCap m) (eCap m) (vCap m) (fCap m) false (cblog m)).
(** deleteElement(BoundaryLoop), surface_mesh.cpp:1737-1745, given the loop's face index *)
Definition deleteLoop (m : mesh) (f : Z) : res mesh :=
  let* m := setFHe m f INVALID in
  Ok (mkMesh (heNext m) (heVertex m) (heFace m) (vHalfedge m) (fHalfedge m)
      (nHalfedges m) (nInterior m) (nEdges m) (nVertices m) (nFaces m) (nLoops m - 1)
      (heFill m) (eFill m) (vFill m) (fFill m) (bFill m) (heCap m) (eCap m) (vCap m) (fCap m) false (cblog m)).

(** ** mutations *)
(** SurfaceMesh::flip, surface_mesh.cpp:848-928, with implicit twins: orientation() of the two sides always differs, so
    the re-orientation branch and the vertex-list maintenance are never taken; hb1.sibling() is always ha1.
    The scan "for (Vertex v : vc.adjacentVertices()) if (v == vd) return false" visits currHe.next().vertex(). *)
Definition adjVertices (m : mesh) (v : Z) : res (list Z) :=
  let* hs := vertHalfedges m v in mapM (fun h => let* n := next m h in vertexOf m n) hs.
Definition flip (m : mesh) (e : Z) (preventSelfEdges : bool) : res (mesh * bool) :=
  let* bd := eIsBoundary m e in
  if bd then Ok (m, false) else
  let ha1 := eHe e in
  let* ha2 := next m ha1 in let* ha3 := next m ha2 in let* ha4 := next m ha3 in
  if negb (ha4 =? ha1) then Ok (m, false) else
  let hb1 := tw ha1 in
  let* hb2 := next m hb1 in let* hb3 := next m hb2 in let* hb4 := next m hb3 in
  if negb (hb4 =? hb1) then Ok (m, false) else
  if (ha2 =? hb1) || (hb2 =? ha1) then Ok (m, false) else
  let* va := vertexOf m ha1 in let* vb := vertexOf m hb1 in let* vc := vertexOf m ha3 in let* vd := vertexOf m hb3 in
  let* dup := (if preventSelfEdges then let* l := adjVertices m vc in Ok (existsb (Z.eqb vd) l) else Ok false) in
  if (dup : bool) then Ok (m, false) else
  let* fa := faceOf m ha1 in let* fb := faceOf m hb1 in
  let* x := vHe m va in let* m := (if x =? ha1 then setVHe m va hb2 else Ok m) in
  let* x := vHe m vb in let* m := (if x =? hb1 then setVHe m vb ha2 else Ok m) in
  let* m := setFHe m fa ha1 in let* m := setFHe m fb hb1 in
  let* m := setNext m ha1 hb3 in let* m := setNext m hb3 ha2 in let* m := setNext m ha2 ha1 in
  let* m := setNext m hb1 ha3 in let* m := setNext m ha3 hb2 in let* m := setNext m hb2 hb1 in
  let* m := setVertex m ha1 vc in let* m := setVertex m hb1 vd in
  let* m := setFace m ha3 fb in let* m := setFace m hb3 fa in
  Ok (m, true).

(** insertVertexAlongEdge, manifold_surface_mesh.cpp:544-594 *)
Definition insertVertexAlongEdge (m : mesh) (e : Z) : res (mesh * Z) :=
  let* isBd := eIsBoundary m e in
  let (m, newV) := getNewVertex m in
  let* (m, heANew) := getNewEdgeTriple m isBd in
  let heBNew := tw heANew in
  let heACenter := eHe e in let heBCenter := tw heACenter in
  let* _heANext := next m heACenter in
  let* heBNext := next m heBCenter in
  let* heAPrev := prevOrbitFace m heACenter in
  let* fA := faceOf m heACenter in let* fB := faceOf m heBCenter in
  let* oldVBottom := vertexOf m heACenter in
  let* m := setVHe m newV heACenter in
  let* m := setNext m heANew heACenter in let* m := setVertex m heANew oldVBottom in let* m := setFace m heANew fA in
  let* m := setNext m heBNew heBNext in let* m := setVertex m heBNew newV in let* m := setFace m heBNew fB in
  let* m := setNext m heBCenter heBNew in let* m := setNext m heAPrev heANew in
  let* m := setVertex m heACenter newV in
  let* x := vHe m oldVBottom in
  let* m := (if x =? heACenter then setVHe m oldVBottom heANew else Ok m) in
  Ok (m, heACenter).

(** connectVertices, manifold_surface_mesh.cpp:623-672; the while loop first *)
Fixpoint relabelFace (fuel : nat) (m : mesh) (curr stop f : Z) : res mesh :=
  if curr =? stop then Ok m
  else match fuel with
  | O => UB
  | S k => let* m := setFace m curr f in let* n := next m curr in relabelFace k m n stop f
  end.
Definition connectVertices (m : mesh) (heA heB : Z) : res (mesh * Z) :=
  let* heAPrev := prevOrbitVertex m heA in let* heBPrev := prevOrbitVertex m heB in
  let* vA := vertexOf m heA in let* vB := vertexOf m heB in
  let* fA := faceOf m heA in let* fB' := faceOf m heB in
  let* _ := guard (fA =? fB') in
  let* _ := guard (negb (heA =? heBPrev) && negb (heAPrev =? heB)) in
  let* _ := guard (negb (heA =? heB)) in
  let* (m, heANew) := getNewEdgeTriple m false in
  let heBNew := tw heANew in
  let* (m, fB) := getNewFace m in
  let* m := setFHe m fA heANew in let* m := setFHe m fB heBNew in
  let* m := setNext m heANew heB in let* m := setVertex m heANew vA in let* m := setFace m heANew fA in
  let* m := setNext m heBNew heA in let* m := setVertex m heBNew vB in let* m := setFace m heBNew fB in
  let* m := setNext m heAPrev heANew in let* m := setNext m heBPrev heBNew in
  let* m := relabelFace (loopFuel m) m heA heBNew fB in
  Ok (m, heANew).

(** splitEdgeTriangular, manifold_surface_mesh.cpp:597-620 *)
Definition splitEdgeTriangular (m : mesh) (e : Z) : res (mesh * Z) :=
  let* f := faceOf m (eHe e) in let* t := isTriangle m f in let* _ := guard t in
  let* bd := eIsBoundary m e in
  let* _ := (if bd then Ok tt else let* g := faceOf m (tw (eHe e)) in let* t := isTriangle m g in guard t) in
  let* (m, he) := insertVertexAlongEdge m e in
  let* a := next m he in let* heOther := next m a in
  let* (m, _) := connectVertices m he heOther in
  let* b := isInterior m (tw he) in
  let* m := (if b then
               let* heFirst := next m (tw he) in let* c := next m heFirst in let* heOther := next m c in
               let* (m, _) := connectVertices m heFirst heOther in Ok m
             else Ok m) in
  Ok (m, he).

(** switchHalfedgeSides, manifold_surface_mesh.cpp:826-870 *)
Definition switchHalfedgeSides (m : mesh) (e : Z) : res mesh :=
  let he := eHe e in
  let* heN := next m he in let* heP := prevOrbitVertex m he in
  let heT := tw he in
  let* heTN := next m heT in let* heTP := prevOrbitVertex m heT in
  let* fA := faceOf m he in let* fB := faceOf m heT in
  let* vA := vertexOf m he in let* vB := vertexOf m heT in
  let* m := setNext m he heTN in let* m := setNext m heTP he in
  let* m := setNext m heT heN in let* m := setNext m heP heT in
  let* m := setFace m he fB in let* m := setFace m heT fA in
  let* m := setVertex m he vB in let* m := setVertex m heT vA in
  let* m := setFHe m fB he in let* m := setFHe m fA heT in
  let* x := vHe m vB in
  let* m := (if isLoop m fA || (x =? heT) then setVHe m vB he else Ok m) in
  let* x := vHe m vA in
  let* m := (if isLoop m fB || (x =? he) then setVHe m vA heT else Ok m) in
  Ok m.

(** removeEdge, manifold_surface_mesh.cpp:1270-1327. [None] = the null Face. *)
Fixpoint ring_loop (fuel : nat) (m : mesh) (e heStart he : Z) (acc : list Z) : res (option (list Z)) :=
  if he =? heStart then Ok (Some acc)
  else match fuel with
  | O => UB
  | S k => if edge he =? e then Ok None
           else let* n := next m he in ring_loop k m e heStart n (acc ++ [he])
  end.
(** heNext[r[i]] = r[(i+1)%N]; heFace[r[i]] = f *)
Fixpoint link_ring (m : mesh) (r : list Z) (first f : Z) : res mesh :=
  match r with
  | [] => Ok m
  | x :: t => let* m := setNext m x (match t with [] => first | y :: _ => y end) in
              let* m := setFace m x f in link_ring m t first f
  end.
Definition removeEdge (m : mesh) (e : Z) : res (mesh * option Z) :=
  let* bd := eIsBoundary m e in
  let* _ := guard (negb bd) in
  let h0 := eHe e in let h1 := tw h0 in
  let* n0 := next m h0 in let* r0 := ring_loop (loopFuel m) m e h0 n0 [] in
  match r0 with None => Ok (m, None) | Some r0 =>
  let* n1 := next m h1 in let* r1 := ring_loop (loopFuel m) m e h1 n1 r0 in
  match r1 with None => Ok (m, None) | Some ring =>
  let* f0 := faceOf m h0 in let* f1 := faceOf m h1 in
  if f0 =? f1 then Ok (m, None) else
  let* src := vertexOf m h0 in let* dst := vertexOf m h1 in
  let* altSrc := next m h1 in let* altDst := next m h0 in
  let* m := link_ring m ring (hd INVALID ring) f0 in
  let* x := vHe m src in let* m := (if edge x =? e then setVHe m src altSrc else Ok m) in
  let* x := vHe m dst in let* m := (if edge x =? e then setVHe m dst altDst else Ok m) in
  let* first := match ring with [] => UB | x :: _ => Ok x end in
  let* m := setFHe m f0 first in
  let* m := deleteFace m f1 in
  let* m := deleteEdgeBundle m e in
  Ok (m, Some f0)
  end end.
