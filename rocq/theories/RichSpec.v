(** Two meshes with the same elements and the same connectivity *)
From Verif Require Import Base MeshModel MeshSpec GenModel GenSpec.
Open Scope Z_scope.

Record SameMesh (m m' : mesh) : Prop := {
  sm_fills : heFill m' = heFill m /\ eFill m' = eFill m /\ vFill m' = vFill m /\ fFill m' = fFill m /\ bFill m' = bFill m;
  sm_counts : nHalfedges m' = nHalfedges m /\ nInterior m' = nInterior m /\ nEdges m' = nEdges m /\ nVertices m' = nVertices m /\ nFaces m' = nFaces m /\ nLoops m' = nLoops m;
  sm_H : forall h, liveH m' h <-> liveH m h;
  sm_V : forall v, liveV m' v <-> liveV m v;
  sm_F : forall f, liveF m' f <-> liveF m f;
  sm_L : forall f, liveL m' f <-> liveL m f;
  (* boundary loop number i *)
  sm_loop : forall i, 0 <= i < bFill m -> fCap m' - 1 - i = fCap m - 1 - i;
  sm_he : forall h, liveH m h -> nx m' h = nx m h /\ ve m' h = ve m h /\ fa m' h = fa m h;
  sm_vh : forall v, liveV m v -> vh m' v = vh m v;
  sm_fh : forall f, liveFL m f -> fh m' f = fh m f }.

(** the nine arrays that describe the connectivity of a general mesh *)
Record SameGMesh (m m' : gmesh) : Prop := {
  sg_fills : gHeFill m' = gHeFill m /\ gEFill m' = gEFill m /\ gVFill m' = gVFill m /\ gFFill m' = gFFill m;
  sg_arr : forall a i, In a [ANext; AVert; AFace; AVHe; AFHe; ASib; AEdge; AOri; AEHe] -> 0 <= i < gFill m (typeOf a) -> ev m' a i = ev m a i }.
