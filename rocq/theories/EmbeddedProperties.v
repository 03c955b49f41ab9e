(** C82: geometry of a triangle mesh with vertex positions. *)
From Coq Require Import Reals Lra.
From Verif Require Import Base DataModel MeshModel MeshSpec MeshBase MeshOpSpec MeshCheck MeshExamples MeshDataModel MeshHistorySpec CountSpec CollapseProofs PointProperties DelaunayExamples
  GeoModel IntrinsicModel IntrinsicSpec EmbeddedModel EmbeddedSpec Embedded4.
Open Scope R_scope.

(** The edge lengths are the distances between the end points, from the cached container and from the immediate function, and satisfy the
    strict triangle inequality: everything proved about intrinsic geometry (C79, C80, C81) applies to a positioned mesh. *)
Theorem C82_lengths : forall m pos, Valid m -> triangular m -> Embedded m pos ->
  exists len, pEdgeLengths m pos = Ok len /\ Metric m len /\ (forall h, liveH m h -> lh len h = norm3d (along m pos h)) /\ (forall e, liveE m EEdge e -> pEdgeLength m pos e = Ok (valAt len e)).
Proof. exact emb_lengths. Qed.
Print Assumptions C82_lengths.

(** Face areas are half the norm of the cross product of two edge vectors; the container computed from positions, the one computed from
    lengths and the immediate function agree, and so do the three versions of the dual area, which add up to the area of the surface. *)
Theorem C82_areas : forall m pos len, Valid m -> triangular m -> Embedded m pos ->
  pEdgeLengths m pos = Ok len -> exists areas areas' dual, pFaceAreas m pos = Ok areas /\ faceAreas m len = Ok areas' /\ vertexDualAreas m areas = Ok dual /\
  (forall h, liveH m h -> ~ ext m h -> valAt areas (fa m h) = 1 / 2 * norm3d (cross3 (along m pos h) (along m pos (nx m h)))) /\
  (forall f, liveF m f -> 0 < valAt areas f /\ valAt areas f = valAt areas' f /\ pFaceArea m pos f = Ok (valAt areas f)) /\
  (forall v, liveV m v -> pVertexDualArea m pos v = Ok (valAt dual v) /\ vertexDualArea m len v = Ok (valAt dual v) /\ 0 < valAt dual v) /\
  (forall vs fs, elements m EVertex = Ok vs -> elements m EFace = Ok fs -> total (valAt dual) vs = total (valAt areas) fs).
Proof. intros m pos len V TR EB. exact (emb_areas m pos V TR EB len). Qed.
Print Assumptions C82_areas.

(** Corner angles are the angles between the edge vectors; the container computed from positions, the one computed from lengths and the
    immediate function agree; so do the Gaussian curvatures, which satisfy Gauss-Bonnet. *)
Theorem C82_angles : forall m pos len, Valid m -> triangular m -> Embedded m pos ->
  pEdgeLengths m pos = Ok len -> exists angles angles' sums K, pCornerAngles m pos = Ok angles /\ cornerAngles m len = Ok angles' /\ vertexAngleSums m angles = Ok sums /\ vertexGaussianCurvatures m sums = Ok K /\
  (forall h, liveH m h -> ~ ext m h -> 0 < valAt angles h < PI /\ dot3 (along m pos h) (along m pos (nx m (nx m h))) = - (norm3d (along m pos h) * norm3d (along m pos (nx m (nx m h))) * cos (valAt angles h)) /\
     valAt angles h = valAt angles' h /\ pCornerAngle m pos h = Ok (valAt angles h) /\ valAt angles h + valAt angles (nx m h) + valAt angles (nx m (nx m h)) = PI) /\
  (forall v l, liveV m v -> cornersOf m v l -> valAt sums v = Rsum (valAt angles) l) /\
  (forall v, liveV m v -> (onBoundary m v -> valAt K v = 0) /\ (~ onBoundary m v -> valAt K v = 2 * PI - valAt sums v) /\ pVertexGaussianCurvature m pos v = Ok (valAt K v) /\ vertexGaussianCurvature m len v = Ok (valAt K v)) /\
  (forall vs bs, elements m EVertex = Ok vs -> NoDup bs -> (forall v, In v bs <-> liveV m v /\ onBoundary m v) -> total (valAt K) vs + Rsum (fun v => PI - valAt sums v) bs = 2 * PI * IZR (euler m)).
Proof. intros m pos len V TR EB. exact (emb_angles m pos V TR EB len). Qed.
Print Assumptions C82_angles.

(** The cotangent weights of halfedges and edges computed from positions agree with those computed from lengths (the subject of C80), in the
    cached containers and in the immediate functions. *)
Theorem C82_cotan_weights : forall m pos len, Valid m -> triangular m -> Embedded m pos ->
  pEdgeLengths m pos = Ok len -> exists areas hw hw' ew ew', faceAreas m len = Ok areas /\ pHalfedgeCotanWeights m pos = Ok hw /\ halfedgeCotanWeights m len areas = Ok hw' /\ pEdgeCotanWeights m pos = Ok ew /\ edgeCotanWeights m len areas = Ok ew' /\
  (forall h, liveH m h -> valAt hw h = valAt hw' h /\ pHalfedgeCotanWeight m pos h = Ok (valAt hw h)) /\
  (forall e, liveE m EEdge e -> valAt ew e = valAt ew' e /\ valAt ew e = valAt hw (eHe e) + valAt hw (tw (eHe e)) /\ pEdgeCotanWeight m pos e = Ok (valAt ew e)).
Proof. intros m pos len V TR EB. exact (emb_weights m pos V TR EB len). Qed.
Print Assumptions C82_cotan_weights.

(** Face normals have length one, are orthogonal to the edges of the face and point to the side from which its halfedges run counterclockwise;
    vertex normals are the normalised angle-weighted sums of the face normals around. *)
Theorem C82_normals : forall m pos, Valid m -> triangular m -> Embedded m pos ->
  exists normals, faceNormals m pos = Ok normals /\
  (forall h, liveH m h -> ~ ext m h -> norm3d (pt normals (fa m h)) = 1 /\ dot3 (along m pos h) (pt normals (fa m h)) = 0 /\ cross3 (along m pos h) (along m pos (nx m h)) = mul3 (pt normals (fa m h)) (norm3d (cross3 (along m pos h) (along m pos (nx m h))))) /\
  (forall f, liveF m f -> faceNormal m pos f = Ok (pt normals f)) /\
  (forall angles, pCornerAngles m pos = Ok angles -> exists vn, vertexNormals m normals angles = Ok vn /\
    forall v l, liveV m v -> cornersOf m v l -> pt vn v = normalize3 (Vsum (fun c => mul3 (pt normals (fa m c)) (valAt angles c)) l)).
Proof. exact emb_normals. Qed.
Print Assumptions C82_normals.

(** The mean curvature normal of a vertex is half the cotangent Laplacian of the positions there; they add up to zero over the mesh. *)
Theorem C82_mean_curvature_normals : forall m pos, Valid m -> triangular m -> Embedded m pos ->
  exists w hn, pEdgeCotanWeights m pos = Ok w /\ vertexDualMeanCurvatureNormals m pos w = Ok hn /\
  (forall v out, liveV m v -> leaving m v out -> pt hn v = Vsum (fun h => mul3 (sub3 (pt pos v) (pt pos (ve m (tw h)))) (valAt w (edge h) / 2)) out) /\
  (forall v, liveV m v -> vertexDualMeanCurvatureNormal m pos v = Ok (pt hn v)) /\
  (forall vs, elements m EVertex = Ok vs -> Vsum (fun v => pt hn (Z.of_nat v)) vs = mk3 0 0 0).
Proof. exact emb_mean_normals. Qed.
Print Assumptions C82_mean_curvature_normals.

(** The dihedral angle of an edge is the angle in (-pi, pi] by which the normal on one side has to be turned about the edge to become the
    normal on the other side, from whichever side it is read; it is zero on the boundary. *)
Theorem C82_dihedral_angles : forall m pos, Valid m -> triangular m -> Embedded m pos ->
  exists normals alpha, faceNormals m pos = Ok normals /\ edgeDihedralAngles m pos normals = Ok alpha /\
  (forall h, liveH m h -> ~ ext m h -> ~ ext m (tw h) -> - PI < valAt alpha (edge h) <= PI /\ turned (normalize3 (along m pos h)) (valAt alpha (edge h)) (pt normals (fa m h)) = pt normals (fa m (tw h))) /\
  (forall h, liveH m h -> ext m h -> valAt alpha (edge h) = 0) /\
  (forall e, liveE m EEdge e -> edgeDihedralAngle m pos e = Ok (valAt alpha e)).
Proof. exact emb_dihedral. Qed.
Print Assumptions C82_dihedral_angles.

(** The mean curvature of a vertex is a quarter of the dihedral angles times the lengths around it; over the mesh they add up to half the sum over
    the edges. *)
Theorem C82_mean_curvature : forall m pos, Valid m -> triangular m -> Embedded m pos ->
  exists len normals alpha mean, pEdgeLengths m pos = Ok len /\ faceNormals m pos = Ok normals /\ edgeDihedralAngles m pos normals = Ok alpha /\ vertexMeanCurvatures m len alpha = Ok mean /\
  (forall v out, liveV m v -> leaving m v out -> valAt mean v = Rsum (fun h => valAt alpha (edge h) * norm3d (along m pos h)) out / 4) /\
  (forall v, liveV m v -> vertexMeanCurvature m pos v = Ok (valAt mean v)) /\
  (forall vs es, elements m EVertex = Ok vs -> elements m EEdge = Ok es -> total (valAt mean) vs = total (fun e => valAt alpha e * valAt len e) es / 2).
Proof. exact emb_mean. Qed.
Print Assumptions C82_mean_curvature.

(** The principal curvatures of a vertex are ordered, their mean is the mean curvature and their product the Gaussian curvature per unit of dual
    area whenever such real numbers exist, and both are the mean curvature otherwise. *)
Theorem C82_principal_curvatures : forall m pos, Valid m -> triangular m -> Embedded m pos ->
  exists len normals alpha mean areas dual angles sums K kmin kmax,
  pEdgeLengths m pos = Ok len /\ faceNormals m pos = Ok normals /\ edgeDihedralAngles m pos normals = Ok alpha /\ vertexMeanCurvatures m len alpha = Ok mean /\
  pFaceAreas m pos = Ok areas /\ vertexDualAreas m areas = Ok dual /\ pCornerAngles m pos = Ok angles /\ vertexAngleSums m angles = Ok sums /\ vertexGaussianCurvatures m sums = Ok K /\
  principalCurvatures m true dual mean K = Ok kmin /\ principalCurvatures m false dual mean K = Ok kmax /\
  forall v, liveV m v -> let A := valAt dual v in let H := valAt mean v / A in let G := valAt K v / A in
    valAt kmin v <= valAt kmax v /\ valAt kmin v + valAt kmax v = 2 * H /\
    (G <= H * H -> valAt kmin v * valAt kmax v = G) /\ (H * H <= G -> valAt kmin v = H /\ valAt kmax v = H) /\
    vertexPrincipalCurvature m pos true v = Ok (valAt kmin v) /\ vertexPrincipalCurvature m pos false v = Ok (valAt kmax v).
Proof. exact emb_principal. Qed.
Print Assumptions C82_principal_curvatures.

(** ** a folded quad with boundary and a tetrahedron with unequal edges *)
Definition quadPos : mdata V3 := {| dat := [mk3 0 0 0; mk3 2 0 0; mk3 2 1 1; mk3 0 3 0]; dflt := mk3 0 0 0 |}.
Definition tetPos : mdata V3 := {| dat := [mk3 0 0 0; mk3 1 0 0; mk3 0 2 0; mk3 0 0 3]; dflt := mk3 0 0 0 |}.
Ltac eval_ints := repeat match goal with
  | |- context [ve ?m ?x] => let v := eval vm_compute in (ve m x) in change (ve m x) with v
  end.
Ltac one_cross := unfold along; eval_ints; intros Q; pose proof (f_equal qx Q) as Q1; pose proof (f_equal qy Q) as Q2; pose proof (f_equal qz Q) as Q3; clear Q; cbv -[Rminus Rmult Rplus Ropp IZR] in Q1, Q2, Q3; lra.
Lemma tet_embedded : Embedded tet tetPos.
Proof.
  constructor; [reflexivity|]. intros h [B _] _. change (heFill tet) with 12%Z in B.
  assert (C : (h = 0 \/ h = 1 \/ h = 2 \/ h = 3 \/ h = 4 \/ h = 5 \/ h = 6 \/ h = 7 \/ h = 8 \/ h = 9 \/ h = 10 \/ h = 11)%Z) by lia. clear B.
  repeat destruct C as [C|C]; subst h; one_cross.
Qed.
Lemma quad_embedded : Embedded quad quadPos.
Proof.
  constructor; [reflexivity|]. intros h [B _] X. change (heFill quad) with 10%Z in B.
  assert (C : (h = 0 \/ h = 1 \/ h = 2 \/ h = 3 \/ h = 4 \/ h = 5 \/ h = 6 \/ h = 7 \/ h = 8 \/ h = 9)%Z) by lia. clear B.
  repeat destruct C as [C|C]; subst h; try (exfalso; apply X; vm_compute; congruence); one_cross.
Qed.
Example C82_witness : (Valid quad /\ triangular quad /\ Embedded quad quadPos) /\ (Valid tet /\ triangular tet /\ Embedded tet tetPos).
Proof. split; [split; [exact quad_valid|]; split; [exact quad_tri|exact quad_embedded]|]. split; [exact tet_valid|]. split; [exact tet_triangular|exact tet_embedded]. Qed.
