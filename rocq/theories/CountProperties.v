(** C50, C72: whole-mesh queries *)
From Verif Require Import Base MeshModel MeshModel2 MeshSpec MeshOpSpec MeshCheck MeshExamples MeshHistoryModel MeshHistorySpec MeshHistory DataModel MeshDataModel
  MeshBuildModel BuildSpec CountModel CountSpec CountProofs.
Open Scope Z_scope.

(** C50: on every valid mesh, compressed or not, connected or not *)
Theorem C50_components m : Valid m -> exists n, nConnectedComponents m = Ok n /\ components m n.
Proof. exact (components_ok m). Qed.
Print Assumptions C50_components.
(** two components, one triangle removed from the middle of the arrays *)
Definition twoParts := built [[0;1;2];[3;4;5];[3;5;6]].
Example C50_case : Valid twoParts /\ nConnectedComponents twoParts = Ok 2%nat /\ nConnectedComponents tet = Ok 1%nat.
Proof. split; [apply validb_Valid; vm_compute; reflexivity|]. split; vm_compute; reflexivity. Qed.

(** C72: nInteriorVertices, isTriangular, connectingEdge, getFaceVertexList *)
Theorem C72_interior_vertices m : Valid m -> exists l, NoDup l /\ (forall v, In v l <-> liveV m v /\ ~ onBoundary m v) /\ nInteriorVertices m = Ok (length l).
Proof. exact (interior_ok m). Qed.
Print Assumptions C72_interior_vertices.
Theorem C72_triangular m : Valid m -> exists b, isTriangular m = Ok b /\ (b = true <-> forall h, liveH m h -> ~ ext m h -> nx m (nx m (nx m h)) = h).
Proof. exact (triangular_ok m). Qed.
Print Assumptions C72_triangular.
Theorem C72_connecting_edge m a b : Valid m -> liveV m a -> exists r, connectingEdge m a b = Ok r /\
  (forall e, r = Some e -> liveH m (eHe e) /\ (ve m (eHe e) = a /\ ve m (tw (eHe e)) = b \/ ve m (eHe e) = b /\ ve m (tw (eHe e)) = a)) /\
  (r = None <-> ~ joined m a b).
Proof. exact (connecting_ok m a b). Qed.
Print Assumptions C72_connecting_edge.
(** the faces in the order of iteration, each once around from its first halfedge; vertices are numbered by how many
    vertices in use come before them *)
Theorem C72_face_list m : Valid m -> exists fs hss, elements m EFace = Ok fs /\ faceVertexList m = Ok (map (map (fun h => Z.to_nat (rankV m (ve m h)))) hss) /\
  Forall2 (fun f hs => NoDup hs /\ (forall h, In h hs <-> liveH m h /\ fa m h = Z.of_nat f) /\ hd_error hs = Some (fh m (Z.of_nat f)) /\
    (forall i x y, nth_error hs i = Some x -> nth_error hs (S i) = Some y -> y = nx m x)) fs hss.
Proof. exact (face_list_circulated m). Qed.
Print Assumptions C72_face_list.
(** and a mesh built from a list gives it back (with the vertex numbering in place: completes C22) *)
Theorem C72_face_list_built polys m : indices polys -> buildMesh polys = Ok m -> exists ll, faceVertexList m = Ok ll /\ map (map Z.of_nat) ll = polys.
Proof. exact (face_list_built polys m). Qed.
Print Assumptions C72_face_list_built.
Definition cut := match removeVertex tet 1 with Ok (m, _) => m | _ => tet end.
Example C72_case : Valid twoParts /\ nInteriorVertices tet = Ok 4%nat /\ nInteriorVertices twoParts = Ok 0%nat /\ isTriangular twoParts = Ok true /\
  connectingEdge twoParts 3 5 = Ok (Some 5) /\ connectingEdge twoParts 0 5 = Ok None /\ Valid cut /\ ~ liveV cut 1 /\ isTriangular cut = Ok true /\ faceVertexList cut = Ok [[0; 1; 2]; [2; 1; 0]]%nat.
Proof. split; [apply validb_Valid; vm_compute; reflexivity|]. repeat (split; [vm_compute; reflexivity|]). split; [apply validb_Valid; vm_compute; reflexivity|]. split; [intros [_ K]; vm_compute in K; congruence|]. split; vm_compute; reflexivity. Qed.
