(** C75: duplicating a face *)
From Verif Require Import Base MeshModel MeshSpec GenModel GenSpec GenOpsModel GenDupSpec GenDup2 GenProperties GenOpsProperties.
Open Scope Z_scope.

(** duplicateFace(f) succeeds on every face of every valid mesh, and the result is valid once the number of interior
    halfedges is set right *)
Theorem C75_duplicated m f : GValid m -> 0 <= f < gFFill m ->
  exists m' nf copy, gDuplicateFace m f = Ok (m', nf) /\ Duplicated m m' f nf copy /\ gInt m' = gInt m /\ GValid (withInterior m' (gHeFill m')).
Proof. exact (duplicate_ok m f). Qed.
Print Assumptions C75_duplicated.

(** but that number, which is what nInteriorHalfedges() and nCorners() return, is wrong after every call: the new halfedges
    are allocated as exterior ones *)
Theorem C75_count_refuted m f m' nf : GValid m -> 0 <= f < gFFill m -> gDuplicateFace m f = Ok (m', nf) ->
  gInt m' < gHeFill m' /\ ~ GValid m'.
Proof. exact (duplicate_count m f m' nf). Qed.
Print Assumptions C75_count_refuted.

Example C75_case : GValid fanMesh /\ 0 <= 1 < gFFill fanMesh /\
  (let* (m', nf) := gDuplicateFace fanMesh 1 in let* l := gEdgeHes m' (ev fanMesh AEdge 0) in Ok (nf, gInt m', gHeFill m' - gHeFill fanMesh, length l, gFaceVertexList m')) =
  (let* l := gEdgeHes fanMesh (ev fanMesh AEdge 0) in Ok (gFFill fanMesh, gHeFill fanMesh, 3, S (length l), Ok (fanPolys ++ [nth 1 fanPolys []]))).
Proof. split; [exact fan_valid|]. split; [vm_compute; split; congruence|]. vm_compute. reflexivity. Qed.
