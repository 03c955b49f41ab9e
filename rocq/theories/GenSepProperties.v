(** C73: separating nonmanifold edges *)
From Verif Require Import Base MeshModel MeshSpec GenModel GenSpec GenOpsModel GenSepSpec GenSep2 GenProperties GenOpsProperties.
Open Scope Z_scope.

(** separateToNewEdge(a, b): refuses halfedges of two edges and equal halfedges, does nothing if the edge has no other
    halfedge, and otherwise moves just the two to a new edge *)
Theorem C73_separateToNewEdge m a b : GValid m -> inH m a -> inH m b ->
  (ev m AEdge a <> ev m AEdge b \/ a = b -> gSeparateToNewEdge m a b = Throw) /\
  (ev m AEdge a = ev m AEdge b -> a <> b -> (forall x, inH m x -> ev m AEdge x = ev m AEdge a -> x = a \/ x = b) -> gSeparateToNewEdge m a b = Ok (m, ev m AEdge a)) /\
  (ev m AEdge a = ev m AEdge b -> a <> b -> (exists x, inH m x /\ ev m AEdge x = ev m AEdge a /\ x <> a /\ x <> b) ->
     exists m', gSeparateToNewEdge m a b = Ok (m', gEFill m) /\ Separated m m' a b).
Proof. exact (separateOne_ok m a b). Qed.
Print Assumptions C73_separateToNewEdge.

(** separateNonmanifoldEdges() ends; afterwards every edge has one or two halfedges *)
Theorem C73_separateNonmanifoldEdges m : GValid m -> exists m', gSeparateNonmanifoldEdges m = Ok m' /\ GValid m' /\ EdgesSplit m m' /\ TwoPerEdge m'.
Proof. exact (separateAll_ok m). Qed.
Print Assumptions C73_separateNonmanifoldEdges.

Example C73_case : GValid fanMesh /\ inH fanMesh 0 /\ inH fanMesh 3 /\ ev fanMesh AEdge 0 = ev fanMesh AEdge 3 /\ inH fanMesh 6 /\ ev fanMesh AEdge 6 = ev fanMesh AEdge 0 /\
  ~ TwoPerEdge fanMesh /\
  (let* m' := gSeparateNonmanifoldEdges fanMesh in Ok (gEFill m' - gEFill fanMesh, map (ev m' AEdge) [0; 6; 3], gFaceVertexList m')) = Ok (1, [11; 11; 0], Ok fanPolys).
Proof.
  split; [exact fan_valid|]. split; [vm_compute; split; congruence|]. split; [vm_compute; split; congruence|]. split; [vm_compute; reflexivity|].
  split; [vm_compute; split; congruence|]. split; [vm_compute; reflexivity|]. split; [|vm_compute; reflexivity].
  intros Q. specialize (Q 0 ltac:(vm_compute; split; congruence)). vm_compute in Q. discriminate.
Qed.
