(** ManifoldSurfaceMesh(polygons), manifold_surface_mesh.cpp:48-260, with GC_SAFETY_CHECKS on (the default), so that each
    failed GC_SAFETY_ASSERT throws. *)
From Verif Require Import Base MeshModel.
Open Scope Z_scope.

(** the empty mesh of SurfaceMesh(true), surface_mesh.cpp:58-60 *)
Definition emptyMesh : mesh := mkMesh [] [] [] [] [] 0 0 0 0 0 0 0 0 0 0 0 0 0 0 0 true [].

(** createdHalfedges: unordered_map<tuple, size_t> as an association list, latest binding first; a missing key reads as
    INVALID_IND (createdHeLookup inserts it with that value) *)
Definition dict := list (Z * Z * Z).
Fixpoint lookup (d : dict) (a b : Z) : Z :=
  match d with
  | [] => INVALID
  | (x, y, i) :: t => if (x =? a) && (y =? b) then i else lookup t a b
  end.

(** one more than the largest index, :56-64; a polygon with fewer than 3 corners throws *)
Definition checkDegrees (polys : list (list Z)) : res unit :=
  foldM (fun _ p => guard (3 <=? zlen p)) polys tt.
Definition maxIndex (polys : list (list Z)) : Z := fold_left (fun acc p => fold_left Z.max p acc) polys 0.

(** the pairs (poly[i], poly[(i+1) % degree]) in order *)
Definition sides (p : list Z) : list (Z * Z) :=
  match p with
  | [] => []
  | x :: t => combine p (t ++ [x])
  end.

(** state of the construction: the mesh under construction, createdHalfedges, vertUsed *)
Definition bstate : Type := mesh * dict * list Z.

(** heNextArr, heVertexArr, heFaceArr, vHalfedgeArr, fHalfedgeArr writes are those of MeshModel.v *)
(** body of the loop over the corners of a face, :86-138. [prev] is prevHeInd and [first] firstHeInd *)
Definition addSide (iFace : Z) (st : bstate * Z * Z) (side : Z * Z) : res (bstate * Z * Z) :=
  let '(m, d, used, prev, first) := st in
  let (tail, tip) := side in
  let* used := wrZ used tail 1 in
  let* _ := guard (negb (tail =? tip)) in
  let* _ := guard (lookup d tail tip =? INVALID) in
  let twin := lookup d tip tail in
  let* (m, h) :=
    (if twin =? INVALID then
       let* (m, h) := getNewEdgeTriple m false in
       let* m := setNext m h INVALID in let* m := setNext m (tw h) INVALID in
       let* m := setVertex m h tail in let* m := setVertex m (tw h) tip in
       let* m := setFace m h INVALID in let* m := setFace m (tw h) INVALID in
       Ok (m, h)
     else Ok (m, tw twin)) in
  let* m := setFace m h iFace in
  let* m := setVHe m tail h in
  let* m := (if first =? INVALID then setFHe m iFace h else setNext m prev h) in
  Ok (m, (tail, tip, h) :: d, used, h, if first =? INVALID then h else first).

(** body of the loop over the faces, :78-142 *)
Definition addFace (st : bstate * Z) (p : list Z) : res (bstate * Z) :=
  let '(m, d, used, iFace) := st in
  let* (m, d, used, prev, first) := foldM (addSide iFace) (sides p) (m, d, used, INVALID, INVALID) in
  let* m := setNext m prev first in
  Ok (m, d, used, iFace + 1).

(** the loop at :153-163: each vertex is the tail of at most one halfedge that has no next yet *)
Definition checkBoundaryVertices (m : mesh) (nV : Z) : res unit :=
  let* _ := foldM (fun seen h =>
      let* n := next m h in
      if n =? INVALID then
        let* v := vertexOf m h in let* s := rdZ seen v in
        let* _ := guard (s =? 0) in wrZ seen v 1
      else Ok seen) (zseq (nHalfedges m)) (repeat 0 (Z.to_nat nV)) in
  Ok tt.

(** the while loop at :194-200; [cnt] is loopCountInnter *)
Fixpoint walkInner (fuel : nat) (m : mesh) (iHe curr : Z) : res Z :=
  let* f := faceOf m curr in
  if f =? INVALID then Ok curr
  else if curr =? iHe then Ok curr
  else match fuel with
       | O => Throw (* loopCountInnter reached nHalfedgesCount *)
       | S k => let* n := next m curr in walkInner k m iHe (tw n)
       end.
(** the do-while loop at :178-210 *)
Fixpoint walkLoop (fuel : nat) (m : mesh) (bl iHe curr : Z) : res mesh :=
  let* m := setFace m curr bl in
  let currT := tw curr in
  let* v := vertexOf m currT in
  let* m := setVHe m v currT in
  let m := mkMesh (heNext m) (heVertex m) (heFace m) (vHalfedge m) (fHalfedge m) (nHalfedges m) (nInterior m - 1) (nEdges m) (nVertices m) (nFaces m) (nLoops m)
     (heFill m) (eFill m) (vFill m) (fFill m) (bFill m) (heCap m) (eCap m) (vCap m) (fCap m) (compressed m) (cblog m) in
  let* n := next m currT in
  let* c := walkInner (Z.to_nat (nHalfedges m) - 1) m iHe (tw n) in
  let* m := setNext m c curr in
  match fuel with
  | O => Throw (* loopCount reached nHalfedgesCount *)
  | S k => if c =? iHe then Ok m else walkLoop k m bl iHe c
  end.
(** body of the loop at :168-211 *)
Definition addLoop (m : mesh) (iHe : Z) : res mesh :=
  let* f := faceOf m iHe in
  if negb (f =? INVALID) then Ok m
  else
    let bl := nFaces m + nLoops m in
    let m := mkMesh (heNext m) (heVertex m) (heFace m) (vHalfedge m) (fHalfedge m ++ [iHe]) (nHalfedges m) (nInterior m) (nEdges m) (nVertices m) (nFaces m) (nLoops m + 1)
     (heFill m) (eFill m) (vFill m) (fFill m) (bFill m) (heCap m) (eCap m) (vCap m) (fCap m) (compressed m) (cblog m) in
    walkLoop (Z.to_nat (nHalfedges m) - 1) m bl iHe iHe.

(** the manifoldness test at :229-253. The do-while throws on the second visit of a halfedge, so it ends. *)
Fixpoint orbitSeen (fuel : nat) (m : mesh) (first curr : Z) (seen : list Z) : res (list Z) :=
  match fuel with
  | O => UB
  | S k =>
    let* s := rdZ seen curr in
    let* _ := guard (s =? 0) in
    let* seen := wrZ seen curr 1 in
    let* n := next m (tw curr) in
    if n =? first then Ok seen else orbitSeen k m first n seen
  end.
Definition checkStars (m : mesh) : res unit :=
  let* seen := foldM (fun seen v => let* h := vHe m v in orbitSeen (S (Z.to_nat (nHalfedges m))) m h h seen)
                 (zseq (nVertices m)) (repeat 0 (Z.to_nat (nHalfedges m))) in
  foldM (fun _ h => let* s := rdZ seen h in guard (negb (s =? 0))) (zseq (nHalfedges m)) tt.

Definition buildMesh (polys : list (list Z)) : res mesh :=
  let* _ := checkDegrees polys in
  let nF := zlen (map zlen polys) in
  let nV := maxIndex polys + 1 in
  let m := mkMesh [] [] [] (repeat INVALID (Z.to_nat nV)) (repeat INVALID (Z.to_nat nF)) 0 0 0 nV nF 0 0 0 0 0 0 0 0 0 0 true [] in
  let* (m, _, used, _) := foldM addFace polys (m, [], repeat 0 (Z.to_nat nV), 0) in
  let* _ := foldM (fun _ v => let* u := rdZ used v in guard (negb (u =? 0))) (zseq nV) tt in
  let* _ := checkBoundaryVertices m nV in
  let m := mkMesh (heNext m) (heVertex m) (heFace m) (vHalfedge m) (fHalfedge m) (nHalfedges m) (nHalfedges m) (nEdges m) (nVertices m) (nFaces m) (nLoops m)
     (heFill m) (eFill m) (vFill m) (fFill m) (bFill m) (heCap m) (eCap m) (vCap m) (fCap m) (compressed m) (cblog m) in
  let* m := foldM addLoop (zseq (nHalfedges m)) m in
  let m := mkMesh (heNext m) (heVertex m) (heFace m) (vHalfedge m) (fHalfedge m) (nHalfedges m) (nInterior m) (nEdges m) (nVertices m) (nFaces m) (nLoops m)
     (nHalfedges m) (nEdges m) (nVertices m) (nFaces m) (nLoops m) (nHalfedges m) (nEdges m) (nVertices m) (nFaces m + nLoops m) true [] in
  let* _ := checkStars m in
  Ok m.

(** getFaceVertexList, surface_mesh.cpp:646-661 *)
Definition getFaceVertexList (m : mesh) : res (list (list Z)) :=
  mapM (fun f => let* hs := faceHalfedges m f in mapM (vertexOf m) hs)
       (filter (fun f => negb (getZ (fHalfedge m) f =? INVALID)) (zseq (fFill m))).
