(** Histories of mutations, and of mutations with a registered container *)
From Verif Require Import Base MeshModel MeshModel2 MeshCompressModel CollapseModel DataModel MeshDataModel.
Open Scope Z_scope.

Inductive mop :=
  | OFlip (e : Z) (preventSelfEdges : bool) | OInsertAlong (e : Z) | OConnect (a b : Z) | OSplit (e : Z) | OInsertVertex (f : Z)
  | ORemoveEdge (e : Z) | ORemoveVertex (v : Z) | OTriangulate (f : Z) | OSwitch (e : Z) | OCollapse (e : Z) | OCompress.
(** the mesh after one call; return values dropped *)
Definition applyOp (m : mesh) (o : mop) : res mesh :=
  match o with
  | OFlip e p => let* (m, _) := flip m e p in Ok m
  | OInsertAlong e => let* (m, _) := insertVertexAlongEdge m e in Ok m
  | OConnect a b => let* (m, _) := connectVertices m a b in Ok m
  | OSplit e => let* (m, _) := splitEdgeTriangular m e in Ok m
  | OInsertVertex f => let* (m, _) := insertVertex m f in Ok m
  | ORemoveEdge e => let* (m, _) := removeEdge m e in Ok m
  | ORemoveVertex v => let* (m, _) := removeVertex m v in Ok m
  | OTriangulate f => let* (m, _) := triangulate m f in Ok m
  | OSwitch e => switchHalfedgeSides m e
  | OCollapse e => let* (m, _) := collapseEdgeTriangular m e in Ok m
  | OCompress => compress m
  end.
Definition runOps (m : mesh) (l : list mop) : res mesh := foldM applyOp l m.

(** a mesh with one registered container of kind k, and a program that mutates the mesh, writes entries, and changes the
    default value (MeshData::setDefault, mesh_data.ipp:263-281) *)
Inductive dop (T : Type) := DMesh (o : mop) | DWrite (i : Z) (x : T) | DDefault (x : T).
Arguments DMesh {T}. Arguments DWrite {T}. Arguments DDefault {T}.
Definition applyD {T} (k : ekind) (s : mesh * mdata T) (o : dop T) : res (mesh * mdata T) :=
  let (m, d) := s in
  match o with
  | DMesh o => let* m' := applyOp m o in let* d' := follow k m m' d in Ok (m', d')
  | DWrite i x => let* d' := setAt d i x in Ok (m, d')
  | DDefault x => let* els := elements m k in Ok (m, md_setDefault els x d)
  end.
Definition runD {T} (k : ekind) (s : mesh * mdata T) (l : list (dop T)) : res (mesh * mdata T) := foldM (applyD k) l s.

(** nExteriorHalfedges, surface_mesh.ipp:12 *)
Definition nExterior (m : mesh) : Z := nHalfedges m - nInterior m.
(** eulerCharacteristic, genus: manifold_surface_mesh.cpp:515-525 (the conversion to int is not modelled; C++ division
    truncates) *)
Definition eulerCharacteristic (m : mesh) : Z := nVertices m - nEdges m + (nFaces m + nLoops m).
Definition genus (m : mesh) : Z := Z.quot (2 - nLoops m - eulerCharacteristic m) 2.
