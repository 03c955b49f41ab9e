(** When a mutation may be called, and what must hold along a history *)
From Verif Require Import Base MeshModel MeshSpec MeshOpSpec CollapseSpec DataModel MeshDataModel MeshHistoryModel.
Open Scope Z_scope.

(** what the documentation asks of the caller (docs/surface/surface_mesh/mutation.md), plus what the findings show is needed:
    no degree-one tail in insertVertexAlongEdge, splitEdgeTriangular and switchHalfedgeSides, no monogon beside a flipped
    edge, no self-edge and no end of degree two in the interior in collapseEdgeTriangular. Boundary edges and vertices raise an error in removeEdge and removeVertex. *)
Definition OpPre (m : mesh) (o : mop) : Prop :=
  match o with
  | OFlip e _ => liveH m (eHe e) /\ nx m (eHe e) <> eHe e /\ nx m (tw (eHe e)) <> tw (eHe e)
  | OInsertAlong e => liveH m (eHe e) /\ nx m (tw (eHe e)) <> eHe e
  | OConnect a b => liveH m a /\ liveH m b /\ fa m a = fa m b /\ ~ ext m a /\ a <> b /\ nx m a <> b /\ nx m b <> a
  | OSplit e => triangular m /\ liveH m (eHe e) /\ nx m (eHe e) <> tw (eHe e) /\ nx m (tw (eHe e)) <> eHe e
  | OInsertVertex f => liveF m f
  | ORemoveEdge e => liveH m (eHe e) /\ ~ ext m (tw (eHe e)) /\ ~ (nx m (eHe e) = eHe e /\ nx m (tw (eHe e)) = tw (eHe e))
  | ORemoveVertex v => liveV m v /\ forall h, liveH m h -> ve m h = v -> ~ ext m h
  | OTriangulate f => liveF m f /\ nx m (fh m f) <> fh m f /\ nx m (nx m (fh m f)) <> fh m f
  | OSwitch e => liveH m (eHe e) /\ plainEdge m (eHe e) /\ ~ ext m (tw (eHe e))
  | OCollapse e => triangular m /\ noSelfEdges m /\ liveH m (eHe e) /\ (~ ext m (tw (eHe e)) -> ~ thin m (eHe e) /\ ~ thin m (tw (eHe e)))
  | OCompress => True
  end.
(** each call of the history is legal in the mesh it is made on *)
Fixpoint OpsPre (m : mesh) (l : list mop) : Prop :=
  match l with [] => True | o :: t => OpPre m o /\ forall m', applyOp m o = Ok m' -> OpsPre m' t end.

(** isCompressed() is reported only when no slot is dead *)
Definition FlagOk (m : mesh) : Prop :=
  compressed m = true -> nHalfedges m = heFill m /\ nEdges m = eFill m /\ nVertices m = vFill m /\ nFaces m = fFill m /\ nLoops m = bFill m.
(** what a freshly built, non-empty mesh satisfies *)
Record Start (m : mesh) : Prop := { sr_valid : Valid m; sr_loops : NoDeadLoops m; sr_some : exists v, liveV m v; sr_flag : FlagOk m }.

(** element i of kind k is alive *)
Definition liveE (m : mesh) (k : ekind) (i : Z) : Prop :=
  match k with
  | EVertex => liveV m i | EHalfedge => liveH m i | ECorner => liveH m i /\ ~ ext m i | EEdge => liveH m (eHe i)
  | EFace => liveF m i | ELoop => liveBL m i
  end.
Definition newIndex (m : mesh) (k : ekind) (i : Z) : Z :=
  match k with EVertex => newV m i | EHalfedge | ECorner => newH m i | EEdge => newE m i | EFace => newF m i | ELoop => newL m i end.

(** a legal step of a program that also uses a container: entries are written only for slots in use, the default is changed
    only when the mesh has had elements of that kind *)
Definition DPre {T} (k : ekind) (m : mesh) (o : dop T) : Prop :=
  match o with DMesh o => OpPre m o | DWrite i _ => 0 <= i < fillOf m k | DDefault _ => 0 < fillOf m k end.
(** element i of mesh m, when it is still there after the step, has this index *)
Definition indexAfter (m : mesh) (k : ekind) (o : mop) (i : Z) : Z :=
  match o with OCompress => if compressed m then i else newIndex m k i | _ => i end.
(** the element with index i and value x at the start: [follows k m l i x j y] says that the history l is legal from m, the
    element is alive all along, its index in the end is j, and y is the value last written to it (x if none) *)
Inductive follows {T} (k : ekind) : mesh -> list (dop T) -> Z -> T -> Z -> T -> Prop :=
  | fo_end m i x : liveE m k i -> follows k m [] i x i x
  | fo_mesh m m' o l i x j y : liveE m k i -> DPre k m (DMesh o : dop T) -> applyOp m o = Ok m' ->
      follows k m' l (indexAfter m k o i) x j y -> follows k m (DMesh o :: l) i x j y
  | fo_write m l i x w z j y : liveE m k i -> DPre k m (DWrite w z) ->
      follows k m l i (if w =? i then z else x) j y -> follows k m (DWrite w z :: l) i x j y
  | fo_default m l i x z j y : liveE m k i -> DPre k m (DDefault z) -> follows k m l i x j y -> follows k m (DDefault z :: l) i x j y.
