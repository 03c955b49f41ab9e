(** MeshData containers attached to a halfedge mesh: which callbacks they listen to, and what the callbacks do *)
From Verif Require Import Base MeshModel DataModel.
Open Scope Z_scope.

(** element types E of MeshData<E,T>; E::getIndex() is the slot (halfedge_logic_templates.ipp:23-28). Corners are numbered
    by their halfedge, boundary loops by their own index *)
Inductive ekind := EVertex | EHalfedge | ECorner | EEdge | EFace | ELoop.
(** getExpandCallbackList<E>, halfedge_logic_templates.ipp:37-42: loop containers sit in the *face* list *)
Definition hearsExpand (k : ekind) (c : kind) : bool :=
  match k, c with
  | EVertex, KVertex | EHalfedge, KHalfedge | ECorner, KHalfedge | EEdge, KEdge | EFace, KFace | ELoop, KFace => true
  | _, _ => false
  end.
(** getPermuteCallbackList<E>, halfedge_logic_templates.ipp:44-49 *)
Definition hearsPermute (k : ekind) (c : kind) : bool :=
  match k, c with
  | EVertex, KVertex | EHalfedge, KHalfedge | ECorner, KHalfedge | EEdge, KEdge | EFace, KFace | ELoop, KLoop => true
  | _, _ => false
  end.
(** elementCapacity<E>, halfedge_logic_templates.ipp:16-21 with surface_mesh.ipp:21-26 *)
Definition capacity (m : mesh) (k : ekind) : Z :=
  match k with EVertex => vCap m | EHalfedge | ECorner => heCap m | EEdge => eCap m | EFace => fCap m - bFill m | ELoop => fCap m - fFill m end.
(** the callbacks registered by MeshData::registerWithMesh, mesh_data.ipp:83-122 *)
Definition receive {T} (k : ekind) (d : mdata T) (cb : callback) : res (mdata T) :=
  match cb with
  | CbExpand c n => if hearsExpand k c then md_expand (Z.to_nat n) d else Ok d
  | CbPermute c p => if hearsPermute k c then md_permute (map Z.to_nat p) d else Ok d
  end.
Definition receives {T} (k : ekind) (cbs : list callback) (d : mdata T) : res (mdata T) := foldM (receive k) cbs d.
(** the callbacks issued between m and m', oldest first *)
Definition issued (m m' : mesh) : list callback := rev (firstn (length (cblog m') - length (cblog m)) (cblog m')).
(** what a container registered with the mesh holds after the mesh has gone from m to m' *)
Definition follow {T} (k : ekind) (m m' : mesh) (d : mdata T) : res (mdata T) := receives k (issued m m') d.
(** MeshData<E,T>(mesh, initVal), mesh_data.ipp:21-26 *)
Definition newData {T} (m : mesh) (k : ekind) (d0 : T) : mdata T := md_new (Z.to_nat (capacity m k)) d0.
(** data[e], mesh_data.ipp:196-215 *)
Definition dataAt {T} (d : mdata T) (i : Z) : res T := if i <? 0 then UB else md_get d (Z.to_nat i).
Definition setAt {T} (d : mdata T) (i : Z) (x : T) : res (mdata T) := if i <? 0 then UB else md_put d (Z.to_nat i) x.
(** data.fill / iteration over the elements: the indices visited by mesh.vertices(), halfedges(), corners(), edges(),
    faces(), boundaryLoops(): RangeSetBase over [0, fill) with elementOkay, element_iterators.ipp:8-40 and
    halfedge_element_types.ipp:127 (vertices), 259 (halfedges), 285 (corners), 353 (edges), 437 (faces), 501 (loops) *)
Definition fillOf (m : mesh) (k : ekind) : Z :=
  match k with EVertex => vFill m | EHalfedge | ECorner => heFill m | EEdge => eFill m | EFace => fFill m | ELoop => bFill m end.
Definition okayAt (m : mesh) (k : ekind) (i : nat) : bool :=
  let i := Z.of_nat i in
  match k with
  | EVertex => negb (getZ (vHalfedge m) i =? INVALID)
  | EHalfedge => negb (getZ (heNext m) i =? INVALID)
  | ECorner => negb (getZ (heNext m) i =? INVALID) && negb (isLoop m (getZ (heFace m) i))
  | EEdge => negb (getZ (heNext m) (eHe i) =? INVALID)
  | EFace => negb (getZ (fHalfedge m) i =? INVALID)
  | ELoop => negb (getZ (fHalfedge m) (fCap m - 1 - i) =? INVALID)
  end.
Definition elements (m : mesh) (k : ekind) : res (list nat) := iterate (okayAt m k) (Z.to_nat (fillOf m k)).
(** nElements<E>, halfedge_logic_templates.ipp:9-14 *)
Definition nElements (m : mesh) (k : ekind) : Z :=
  match k with EVertex => nVertices m | EHalfedge => nHalfedges m | ECorner => nInterior m | EEdge => nEdges m | EFace => nFaces m | ELoop => nLoops m end.
