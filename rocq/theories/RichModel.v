(** RichSurfaceMeshData: the connectivity and the element properties written to and read from a ply file,
    rich_surface_mesh_data.{cpp,ipp}. The ply library (happly) is modelled as a store that returns each property as it was added;
    its text and binary formats are not modelled, nor are the face indices which addMeshConnectivity adds for other programs and
    loadMeshFromFile never reads. *)
From Verif Require Import Base DataModel MeshModel MeshDataModel GenModel.
Open Scope Z_scope.

(** std::numeric_limits<uint32_t>::max() *)
Definition u32max : Z := 4294967295.
(** toSmallerVec and fromSmallerVec, rich_surface_mesh_data.cpp:125-134, 39-46 *)
Definition pack (v : Z) : Z := if v =? INVALID then u32max else v mod (u32max + 1).
Definition unpack (v : Z) : Z := if v =? u32max then INVALID else v.
(** [l.begin(), l.begin() + n) and [l.end() - n, l.end()) *)
Definition takeZ (l : list Z) (n : Z) : res (list Z) := if (0 <=? n) && (n <=? zlen l) then Ok (firstn (Z.to_nat n) l) else UB.
Definition lastZ (l : list Z) (n : Z) : res (list Z) := if (0 <=? n) && (n <=? zlen l) then Ok (skipn (length l - Z.to_nat n) l) else UB.

(** ** manifold meshes *)
(** the gc_internal_* properties *)
Record plyMesh := mkPly { pNext : list Z; pVert : list Z; pFace : list Z; pVHe : list Z; pFHe : list Z; pBlHe : list Z }.
(** addMeshConnectivity, :110-190 *)
Definition writeConn (m : mesh) : res plyMesh :=
  let* n := takeZ (heNext m) (heFill m) in let* f := takeZ (heFace m) (heFill m) in let* v := takeZ (heVertex m) (heFill m) in
  let* vh := takeZ (vHalfedge m) (vFill m) in let* fh := takeZ (fHalfedge m) (fFill m) in let* bl := lastZ (fHalfedge m) (bFill m) in
  Ok (mkPly (map pack n) (map pack v) (map pack f) (map pack vh) (map pack fh) (map pack bl)).
(** one of the loops that look for dead elements: the count and the compressed flag *)
Definition dropDead (l : list Z) (at_ : Z -> Z) (st : Z * bool) (i : Z) : res (Z * bool) :=
  let* x := rdZ l (at_ i) in Ok (if x =? INVALID then (fst st - 1, false) else st).
(** the constructor from arrays, manifold_surface_mesh.cpp:444-510 *)
Definition fromArrays (nxt vert face vhe fhe : list Z) (nbl : Z) : res mesh :=
  let nHe := zlen nxt in let nE := nHe / 2 in let nV := zlen vhe in let nF := zlen fhe - nbl in
  let* (cV, flag) := foldM (dropDead vhe (fun i => i)) (zseq nV) (nV, true) in
  let* (cH, flag) := foldM (dropDead nxt (fun i => i)) (zseq nHe) (nHe, flag) in
  let* (cE, flag) := foldM (dropDead nxt eHe) (zseq nE) (nE, flag) in
  let* (cF, flag) := foldM (dropDead fhe (fun i => i)) (zseq nF) (nF, flag) in
  let* (cB, flag) := foldM (dropDead fhe (fun i => nF + i)) (zseq (zlen fhe - nF)) (nbl, flag) in
  let m := mkMesh nxt vert face vhe fhe cH 0 cE cV cF cB nHe nE nV nF nbl nHe (nHe / 2) nV (zlen fhe) flag [] in
  let* cI := foldM (fun c h => let* n := next m h in if n =? INVALID then Ok c else let* b := isInterior m h in Ok (if b : bool then c + 1 else c)) (zseq nHe) 0 in
  Ok (mkMesh nxt vert face vhe fhe cH cI cE cV cF cB nHe nE nV nF nbl nHe (nHe / 2) nV (zlen fhe) flag []).
(** loadMeshFromFile, :29-81 *)
Definition readConn (p : plyMesh) : res mesh :=
  let bl := map unpack (pBlHe p) in
  fromArrays (map unpack (pNext p)) (map unpack (pVert p)) (map unpack (pFace p)) (map unpack (pVHe p)) (map unpack (pFHe p) ++ bl) (zlen bl).

(** ** element properties, rich_surface_mesh_data.ipp:21-57 *)
(** the element is created with nElements entries; adding a property of another size throws *)
Definition addProperty {T} (m : mesh) (k : ekind) (d : mdata T) : res (list T) :=
  let* els := elements m k in let* v := mapM (md_get d) els in
  let* _ := guard (Z.of_nat (length v) =? nElements m k) in Ok v.
(** [d0] is T(), with which the new container is filled *)
Definition getProperty {T} (m : mesh) (k : ekind) (d0 : T) (v : list T) : res (mdata T) :=
  let* _ := guard (Z.of_nat (length v) =? nElements m k) in
  let* els := elements m k in md_fromVector (length v) els v (newData m k d0).

(** ** general meshes *)
Record plyGMesh := mkPlyG { qNext : list Z; qVert : list Z; qFace : list Z; qVHe : list Z; qFHe : list Z; qSib : list Z; qEdge : list Z; qOri : list Z; qEHe : list Z }.
(** a general mesh has no boundary loops. heOrientArr is written as it is *)
Definition gWriteConn (m : gmesh) : res plyGMesh :=
  let* n := takeZ (ga m ANext) (gHeFill m) in let* f := takeZ (ga m AFace) (gHeFill m) in let* v := takeZ (ga m AVert) (gHeFill m) in
  let* s := takeZ (ga m ASib) (gHeFill m) in let* e := takeZ (ga m AEdge) (gHeFill m) in let* o := takeZ (ga m AOri) (gHeFill m) in
  let* vh := takeZ (ga m AVHe) (gVFill m) in let* eh := takeZ (ga m AEHe) (gEFill m) in let* fh := takeZ (ga m AFHe) (gFFill m) in
  Ok (mkPlyG (map pack n) (map pack v) (map pack f) (map pack vh) (map pack fh) (map pack s) (map pack e) o (map pack eh)).
(** the constructor from arrays, surface_mesh.cpp:217-283, with no boundary loops; interiorHalfedges() are all that are alive *)
Definition gFromArrays (nxt vert face vhe fhe sib edg ori ehe : list Z) : res gmesh :=
  let nHe := zlen nxt in let nE := zlen ehe in let nV := zlen vhe in let nF := zlen fhe in
  let* (cV, flag) := foldM (dropDead vhe (fun i => i)) (zseq nV) (nV, true) in
  let* (cH, flag) := foldM (dropDead nxt (fun i => i)) (zseq nHe) (nHe, flag) in
  let* (cE, flag) := foldM (dropDead ehe (fun i => i)) (zseq nE) (nE, flag) in
  let* (cF, flag) := foldM (dropDead fhe (fun i => i)) (zseq nF) (nF, flag) in
  let* cI := foldM (fun c h => let* n := rdZ nxt h in if n =? INVALID then Ok c else let* f := rdZ face h in Ok (if (f <? 0) || (nF <=? f) then c else c + 1)) (zseq nHe) 0 in
  let g := fun a => match a with ANext => nxt | AVert => vert | AFace => face | AVHe => vhe | AFHe => fhe | ASib => sib | AEdge => edg | AOri => ori | AEHe => ehe | _ => [] end in
  gInitNeighbors (mkG g cH cI cE cV cF nHe nE nV nF nHe nE nV nF flag).
Definition gReadConn (p : plyGMesh) : res gmesh :=
  gFromArrays (map unpack (qNext p)) (map unpack (qVert p)) (map unpack (qFace p)) (map unpack (qVHe p)) (map unpack (qFHe p)) (map unpack (qSib p)) (map unpack (qEdge p)) (qOri p) (map unpack (qEHe p)).
