(** Copies of a mesh, and programs that work on several meshes and their containers at once *)
From Verif Require Import Base MeshModel MeshModel2 MeshCompressModel DataModel MeshDataModel MeshHistoryModel.
Open Scope Z_scope.

(** ManifoldSurfaceMesh(): manifold_surface_mesh.cpp:46, the initial values in surface_mesh.h:314-344 *)
Definition emptyMesh : mesh := mkMesh [] [] [] [] [] 0 0 0 0 0 0 0 0 0 0 0 0 0 0 0 true [].

(** SurfaceMesh::copyInternalFields, surface_mesh.cpp:594-634: one assignment per field. The arrays used only by general
    meshes (heSiblingArr ... vHeOutStartArr) are empty in a manifold mesh and are left out. [cblog] is the model's history
    variable, no field of the program: the copy's log goes on from the original's, so that what a container of the copy
    receives is still the difference between two logs. Callback lists are not copied: the containers of a mesh are kept in
    [world] below. *)
Definition copyInternalFields (src target : mesh) : mesh :=
  let t := target in
  let t := set_heNext t (heNext src) in
  let t := set_heVertex t (heVertex src) in
  let t := set_heFace t (heFace src) in
  let t := set_vHalfedge t (vHalfedge src) in
  let t := set_fHalfedge t (fHalfedge src) in
  mkMesh (heNext t) (heVertex t) (heFace t) (vHalfedge t) (fHalfedge t)
    (nHalfedges src) (nInterior src) (nEdges src) (nVertices src) (nFaces src) (nLoops src)
    (heFill src) (eFill src) (vFill src) (fFill src) (bFill src)
    (heCap src) (eCap src) (vCap src) (fCap src) (compressed src) (cblog src).
(** ManifoldSurfaceMesh::copy, manifold_surface_mesh.cpp:1823-1827 *)
Definition copyMesh (m : mesh) : mesh := copyInternalFields m emptyMesh.

(** The meshes a program holds, and its containers: for each the mesh it is registered with (MeshData::mesh), the kind of
    element and the values. All containers hold values of one type. *)
Record container (T : Type) := mkC { cMesh : nat; cKind : ekind; cData : mdata T }.
Arguments mkC {T}. Arguments cMesh {T}. Arguments cKind {T}. Arguments cData {T}.
Record world (T : Type) := mkW { meshes : list mesh; containers : list (container T) }.
Arguments mkW {T}. Arguments meshes {T}. Arguments containers {T}.
Inductive wcall (T : Type) :=
  | WCopy (i : nat) | WOp (i : nat) (o : mop) | WNew (i : nat) (k : ekind) (x : T) | WSet (c : nat) (j : Z) (x : T)
  | WDup (c : nat) | WReinterpret (c i : nat).
Arguments WCopy {T}. Arguments WOp {T}. Arguments WNew {T}. Arguments WSet {T}. Arguments WDup {T}. Arguments WReinterpret {T}.

(** registerWithMesh, mesh_data.ipp:82-126: a container receives the callbacks of the mesh it is registered with *)
Definition notify {T} (i : nat) (m m' : mesh) (c : container T) : res (container T) :=
  if Nat.eqb (cMesh c) i then let* d := follow (cKind c) m m' (cData c) in Ok (mkC (cMesh c) (cKind c) d) else Ok c.

Definition wstep {T} (w : world T) (c : wcall T) : res (world T) :=
  match c with
  | WCopy i => let* m := rd (meshes w) i in Ok (mkW (meshes w ++ [copyMesh m]) (containers w))
  | WOp i o =>
      let* m := rd (meshes w) i in let* m' := applyOp m o in
      let* cs := mapM (notify i m m') (containers w) in Ok (mkW (upd (meshes w) i m') cs)
  | WNew i k x => let* m := rd (meshes w) i in Ok (mkW (meshes w) (containers w ++ [mkC i k (newData m k x)]))
  | WSet c j x =>
      let* b := rd (containers w) c in let* d := setAt (cData b) j x in
      Ok (mkW (meshes w) (upd (containers w) c (mkC (cMesh b) (cKind b) d)))
  (** the copy constructor, mesh_data.ipp:39-43 *)
  | WDup c => let* b := rd (containers w) c in Ok (mkW (meshes w) (containers w ++ [b]))
  (** MeshData::reinterpretTo, mesh_data.ipp:255-261: default value and raw values, after GC_SAFETY_ASSERT on the number of
      elements (on unless NGC_SAFETY_CHECKS is set, utilities.h:14-22) *)
  | WReinterpret c i =>
      let* b := rd (containers w) c in let* m := rd (meshes w) (cMesh b) in let* t := rd (meshes w) i in
      let* _ := guard (nElements m (cKind b) =? nElements t (cKind b)) in
      Ok (mkW (meshes w) (containers w ++ [mkC i (cKind b) (mkMD (dflt (cData b)) (dat (cData b)))]))
  end.
Definition wrun {T} (w : world T) (l : list (wcall T)) : res (world T) := foldM wstep l w.
