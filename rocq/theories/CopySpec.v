(** What it means for a mesh to be a copy of another, and for calls to concern one mesh or another *)
From Verif Require Import Base MeshModel MeshSpec DataModel MeshDataModel MeshEvents MeshHistoryModel MeshHistorySpec CopyModel.
Open Scope Z_scope.

(** same elements with the same indices, same connectivity, counts and capacities *)
Record Copied (m c : mesh) : Prop := {
  cp_next : forall h, nx c h = nx m h; cp_vertex : forall h, ve c h = ve m h; cp_face : forall h, fa c h = fa m h;
  cp_vh : forall v, vh c v = vh m v; cp_fh : forall f, fh c f = fh m f;
  cp_live : forall k i, liveE c k i <-> liveE m k i;
  cp_count : forall k, nElements c k = nElements m k;
  cp_int : nInterior c = nInterior m;
  cp_fill : forall k, fillOf c k = fillOf m k;
  cp_cap : forall k, capacity c k = capacity m k;
  cp_flag : compressed c = compressed m }.

(** the call c, made in w, works on mesh i or on a container of mesh i *)
Definition concerns {T} (w : world T) (i : nat) (c : wcall T) : Prop :=
  match c with
  | WOp j _ => j = i
  | WSet b _ _ => exists d, nth_error (containers w) b = Some d /\ cMesh d = i
  | _ => False
  end.
(** no call of the history works on mesh i *)
Fixpoint avoids {T} (i : nat) (w : world T) (l : list (wcall T)) : Prop :=
  match l with
  | [] => True
  | c :: t => ~ concerns w i c /\ forall w', wstep w c = Ok w' -> avoids i w' t
  end.

(** what a caller must see to: arguments that exist; and for reinterpretTo, storage of the same size *)
Definition CallPre {T} (w : world T) (c : wcall T) : Prop :=
  match c with
  | WCopy i => (i < length (meshes w))%nat
  | WOp i o => exists m, nth_error (meshes w) i = Some m /\ OpPre m o
  | WNew i _ _ => (i < length (meshes w))%nat
  | WSet b j _ => exists d m, nth_error (containers w) b = Some d /\ nth_error (meshes w) (cMesh d) = Some m /\ liveE m (cKind d) j
  | WDup b => (b < length (containers w))%nat
  | WReinterpret b i => exists d m t, nth_error (containers w) b = Some d /\ nth_error (meshes w) (cMesh d) = Some m /\ nth_error (meshes w) i = Some t /\
      Copied m t
  end.
Fixpoint CallsPre {T} (w : world T) (l : list (wcall T)) : Prop :=
  match l with
  | [] => True
  | c :: t => CallPre w c /\ forall w', wstep w c = Ok w' -> CallsPre w' t
  end.

(** every mesh is as construction leaves it, and every container fits the mesh it is attached to *)
Record Sound {T} (w : world T) : Prop := {
  so_mesh : forall i m, nth_error (meshes w) i = Some m -> Start m;
  so_data : forall b d, nth_error (containers w) b = Some d -> exists m, nth_error (meshes w) (cMesh d) = Some m /\ Fits m (cKind d) (cData d) }.
