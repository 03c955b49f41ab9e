(** What duplicateFace does *)
From Verif Require Import Base MeshModel MeshSpec GenModel GenSpec.
Open Scope Z_scope.

(** [m'] is [m] with a new face [nf] on top of [f]: [copy] takes the halfedges of [f] one to one to the new halfedges,
    which run along the same edges, in the same direction, in the same order around the face *)
Record Duplicated (m m' : gmesh) (f nf : Z) (copy : Z -> Z) : Prop := {
  dp_face : nf = gFFill m /\ gFFill m' = gFFill m + 1;
  dp_fill : gVFill m' = gVFill m /\ gEFill m' = gEFill m /\ gHeFill m <= gHeFill m';
  dp_copy : forall h, inH m h -> ev m AFace h = f -> gHeFill m <= copy h < gHeFill m' /\ ev m' AFace (copy h) = nf /\
     gTailOf m' (copy h) = gTailOf m h /\ gTipOf m' (copy h) = gTipOf m h /\ ev m' AEdge (copy h) = ev m AEdge h /\
     ev m' AOri (copy h) = ev m AOri h /\ ev m' ANext (copy h) = copy (ev m ANext h);
  dp_onto : forall n, gHeFill m <= n < gHeFill m' -> exists h, inH m h /\ ev m AFace h = f /\ copy h = n;
  dp_one : forall a b, inH m a -> inH m b -> ev m AFace a = f -> ev m AFace b = f -> copy a = copy b -> a = b;
  dp_old : forall p h, In p [ANext; AVert; AFace; AEdge; AOri; AVHe; AFHe; AEHe] -> 0 <= h < gFill m (typeOf p) -> ev m' p h = ev m p h }.
(** the mesh with the number of interior halfedges set right *)
Definition withInterior (m : gmesh) (n : Z) : gmesh :=
  mkG (ga m) (gHe m) n (gEd m) (gVe m) (gFc m) (gHeFill m) (gEFill m) (gVFill m) (gFFill m) (gHeCap m) (gECap m) (gVCap m) (gFCap m) (gComp m).
