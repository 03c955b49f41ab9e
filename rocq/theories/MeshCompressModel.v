(** Model of SurfaceMesh::compress (surface_mesh.cpp:1749-1948) for implicit-twin meshes *)
From Verif Require Import Base MeshModel.
Open Scope Z_scope.

(** updateValues, surface_mesh.cpp:1749-1754: runs over the whole array, also over slots not in use *)
Definition updateValues (arr oldToNew : list Z) : res (list Z) :=
  mapM (fun x => if x =? INVALID then Ok x else rdZ oldToNew x) arr.
(** applyPermutation, utilities.h:96-104 *)
Definition applyPerm (src newToOld : list Z) : res (list Z) := mapM (rdZ src) newToOld.
(** the loop that builds the index maps: surface_mesh.cpp:1759-1774 (halfedges), 1860-1878 (faces, with [use] skipping the
    gap between faces and boundary loops), 1902-1910 (vertices). Returns (oldIndMap, newIndMap). *)
Definition indexMaps (use : Z -> bool) (dead : Z -> res bool) (n : Z) : res (list Z * list Z) :=
  foldM (fun (s : list Z * list Z) i =>
           let (old, new) := s in
           if use i then
             let* d := dead i in
             if (d : bool) then Ok s else let* old := wrZ old i (zlen new) in Ok (old, new ++ [i])
           else Ok s) (zseq n) (repeat INVALID (Z.to_nat n), []).

(** compressHalfedges, surface_mesh.cpp:1756-1823. newIndEdgeMap, filled in the same loop with i/2 for the even live i,
    is computed from newIndMap afterwards. *)
Definition compressHalfedges (m : mesh) : res mesh :=
  let* (old, new) := indexMaps (fun _ => true) (heIsDead m) (heFill m) in
  let newEdge := map (fun i => i / 2) (filter (fun i => i mod 2 =? 0) new) in
  let* nxt := applyPerm (heNext m) new in
  let* ver := applyPerm (heVertex m) new in
  let* fac := applyPerm (heFace m) new in
  let* vhe := updateValues (vHalfedge m) old in
  let* fhe := updateValues (fHalfedge m) old in
  let* nxt := updateValues nxt old in
  Ok (mkMesh nxt ver fac vhe fhe
      (nHalfedges m) (nInterior m) (nEdges m) (nVertices m) (nFaces m) (nLoops m)
      (nHalfedges m) (nEdges m) (vFill m) (fFill m) (bFill m) (nHalfedges m) (nEdges m) (vCap m) (fCap m) (compressed m)
      (CbPermute KEdge newEdge :: CbPermute KHalfedge new :: cblog m)).

(** faceIsDead, surface_mesh.ipp:72; vertexIsDead, 69 *)
Definition fIsDead (m : mesh) (f : Z) : res bool := let* h := fHe m f in Ok (h =? INVALID).
Definition vIsDead (m : mesh) (v : Z) : res bool := let* h := vHe m v in Ok (h =? INVALID).

(** compressFaces, surface_mesh.cpp:1858-1897. newBLIndMap, filled in the same loop with faceIndToBoundaryLoopInd(i) for
    the live boundary loops i, is computed from newIndMap afterwards. *)
Definition compressFaces (m : mesh) : res mesh :=
  let isBL i := fCap m - bFill m <=? i in
  let* (old, new) := indexMaps (fun i => (i <? fFill m) || isBL i) (fIsDead m) (fCap m) in
  let newBL := map (fun i => fCap m - 1 - i) (filter isBL new) in
  let* fhe := applyPerm (fHalfedge m) new in
  let* fac := updateValues (heFace m) old in
  Ok (mkMesh (heNext m) (heVertex m) fac (vHalfedge m) fhe
      (nHalfedges m) (nInterior m) (nEdges m) (nVertices m) (nFaces m) (nLoops m)
      (heFill m) (eFill m) (vFill m) (nFaces m) (nLoops m) (heCap m) (eCap m) (vCap m) (nFaces m + nLoops m) (compressed m)
      (CbPermute KLoop newBL :: CbPermute KFace (resizeZ new (nFaces m)) :: cblog m)).

(** compressVertices, surface_mesh.cpp:1900-1930 *)
Definition compressVertices (m : mesh) : res mesh :=
  let* (old, new) := indexMaps (fun _ => true) (vIsDead m) (vFill m) in
  let* vhe := applyPerm (vHalfedge m) new in
  let* ver := updateValues (heVertex m) old in
  Ok (mkMesh (heNext m) ver (heFace m) vhe (fHalfedge m)
      (nHalfedges m) (nInterior m) (nEdges m) (nVertices m) (nFaces m) (nLoops m)
      (heFill m) (eFill m) (nVertices m) (fFill m) (bFill m) (heCap m) (eCap m) (nVertices m) (fCap m) (compressed m)
      (CbPermute KVertex new :: cblog m)).

(** compress, surface_mesh.cpp:1933-1948; compressEdges does nothing with implicit twins (1825-1830); the compress
    callbacks, which receive nothing, are not modelled *)
Definition compress (m : mesh) : res mesh :=
  if compressed m then Ok m else
  let* m := compressHalfedges m in
  let* m := compressFaces m in
  let* m := compressVertices m in
  Ok (mkMesh (heNext m) (heVertex m) (heFace m) (vHalfedge m) (fHalfedge m)
      (nHalfedges m) (nInterior m) (nEdges m) (nVertices m) (nFaces m) (nLoops m)
      (heFill m) (eFill m) (vFill m) (fFill m) (bFill m) (heCap m) (eCap m) (vCap m) (fCap m) true (cblog m)).
