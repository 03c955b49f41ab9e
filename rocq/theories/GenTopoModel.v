(** Operations of the general SurfaceMesh that look at the whole mesh: surface_mesh.cpp *)
From Verif Require Import Base MeshModel GenModel GenOpsModel DisjointSetsModel CountModel.
Open Scope Z_scope.

(** ** separateNonmanifoldVertices, surface_mesh.cpp:979-1035 *)
(** DisjointSets::merge on the indices of two corners; the corner of a halfedge has its index *)
Definition gMerge (d : dsets) (a b : Z) : res dsets := ds_merge d (Z.to_nat a) (Z.to_nat b).
(** one edge, :985-1000 *)
Definition gMergeEdge (m : gmesh) (d : dsets) (e : Z) : res dsets :=
  let* b := gEdgeIsBoundary m e in if b : bool then Ok d else
  let* b := gEdgeIsManifold m e in let* _ := guard b in
  let* heA := rdA m AEHe e in let* heB := rdA m ASib heA in
  let* oA := rdA m AOri heA in let* oB := rdA m AOri heB in
  let* nA := rdA m ANext heA in let* nB := rdA m ANext heB in
  if oA =? oB then let* d := gMerge d heA heB in gMerge d nA nB
  else let* d := gMerge d nA heB in gMerge d heA nB.
(** the expand callback of a MeshData: new entries get its default value, mesh_data.ipp:98-117 *)
Definition growData (l : list Z) (n dflt : Z) : list Z := l ++ repeat dflt (Z.to_nat (n - zlen l)).
(** one corner, :1006-1028. [parents] and [used] are the VertexData, [entries] is vertexEntries; Vertex() is INVALID *)
Definition gAssign (st : gmesh * dsets * list Z * list Z * list Z) (c : Z) : res (gmesh * dsets * list Z * list Z * list Z) :=
  let '(m, d, parents, entries, used) := st in
  let* (d, r) := ds_find d (Z.to_nat c) in
  let iComp := Z.of_nat r in
  let* origV := rdA m AVert c in
  let* x := rdZ entries iComp in
  let* (m, parents, entries, used) :=
    (if x =? INVALID then
      let* u := rdZ used origV in
      if negb (u =? 0) then
        let (m, newV) := gNewVertex m in
        let parents := growData parents (gVCap m) INVALID in let used := growData used (gVCap m) 0 in
        let* entries := wrZ entries iComp newV in let* parents := wrZ parents newV origV in
        Ok (m, parents, entries, used)
      else
        let* parents := wrZ parents origV origV in let* entries := wrZ entries iComp origV in let* used := wrZ used origV 1 in
        Ok (m, parents, entries, used)
    else Ok (m, parents, entries, used)) in
  let* targetV := rdZ entries iComp in
  let* m := wrA m AVert c targetV in let* m := wrA m AVHe targetV c in
  Ok (m, d, parents, entries, used).
(** the mesh and the returned [parents]; corners() visits the interior halfedges, which are all of them *)
Definition gSeparateNonmanifoldVertices (m : gmesh) : res (gmesh * list Z) :=
  let indMax := gHeFill m in
  let* d := foldM (gMergeEdge m) (gEdges m) (ds_init (Z.to_nat indMax)) in
  let* (m, d, parents, entries, used) := foldM gAssign (gLiveHes m)
     (m, d, repeat INVALID (Z.to_nat (gVCap m)), repeat INVALID (Z.to_nat indMax), repeat 0 (Z.to_nat (gVCap m))) in
  let* m := gInitNeighbors m in
  Ok (m, parents).

(** ** nConnectedComponents, :442-454, on a general mesh, where twin() is sibling() (halfedge_element_types.ipp:228) *)
Definition gTwin (m : gmesh) (h : Z) : res Z := rdA m ASib h.
(** getVertexIndices() is the identity: no vertex of a general mesh is ever deleted *)
Definition gMergeEnds (m : gmesh) (d : dsets) (e : Z) : res dsets :=
  let* h := rdA m AEHe e in let* t := gTwin m h in
  let* a := rdA m AVert h in let* b := rdA m AVert t in gMerge d a b.
Definition gConnectedComponents (m : gmesh) : res nat :=
  let* d := foldM (gMergeEnds m) (gEdges m) (ds_init (Z.to_nat (gVe m))) in
  let* (_, seen) := foldM collectRoot (seq 0 (Z.to_nat (gVe m))) (d, []) in
  Ok (length seen).

(** ** greedilyOrientFaces, :1037-1067 *)
(** one halfedge of the face being processed; [todo] is toProcess with its back first *)
Definition gOrientStep (st : gmesh * list Z * list Z) (h : Z) : res (gmesh * list Z * list Z) :=
  let '(m, todo, processed) := st in
  let* e := rdA m AEdge h in
  let* b := gEdgeIsBoundary m e in if b : bool then Ok st else
  let* b := gEdgeIsManifold m e in if negb b then Ok st else
  let* s := rdA m ASib h in let* fO := rdA m AFace s in
  let* p := rdZ processed fO in if negb (p =? 0) then Ok st else
  let* o := gEdgeIsOriented m e in
  let* m := (if o : bool then Ok m else gInvertOrientation m fO) in
  let* processed := wrZ processed fO 1 in
  Ok (m, fO :: todo, processed).
(** the loop over one component. The code walks around [curr] while it turns other faces round; a face is only turned round when
    it has not been processed, so the halfedges of [curr] stay as they are and the model lists them first *)
Fixpoint gOrientSearch (fuel : nat) (m : gmesh) (todo processed : list Z) : res (gmesh * list Z) :=
  match todo, fuel with
  | [], _ => Ok (m, processed)
  | _, O => UB
  | curr :: todo, S k =>
    let* hs := gFaceHes m curr in
    let* (m, todo, processed) := foldM gOrientStep hs (m, todo, processed) in
    gOrientSearch k m todo processed
  end.
(** processed is a FaceData: one entry per face of capacity *)
Definition gGreedilyOrientFaces (m : gmesh) : res gmesh :=
  let* (m, _) := foldM (fun st f => let '(m, processed) := st in
      let* p := rdZ processed f in if negb (p =? 0) then Ok st else
      let* processed := wrZ processed f 1 in gOrientSearch (S (Z.to_nat (gFFill m))) m [f] processed)
    (gFaces m) (m, repeat 0 (Z.to_nat (gFCap m))) in
  Ok m.
