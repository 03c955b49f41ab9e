(** C84: tangent frames and curvature directions of a positioned triangle mesh. *)
From Coq Require Import Reals Lra.
From Verif Require Import Base DataModel MeshModel MeshSpec MeshBase MeshOpSpec MeshCheck MeshExamples MeshDataModel MeshHistorySpec CountSpec CollapseProofs PointProperties DelaunayExamples
  GeoModel IntrinsicModel IntrinsicSpec TangentSpec Intrinsic1 EmbeddedModel EmbeddedSpec Embedded1 Embedded4 EmbeddedProperties FrameModel FrameSpec Frame1 Frame4.
Open Scope R_scope.

(** The tangent basis of a face is an orthonormal frame of its plane, right-handed about the face normal, and lifts the intrinsic coordinates of
    C81: every halfedge vector in space is the combination of the two basis vectors with the halfedge's coordinates in the face. *)
Theorem C84_face_frames : forall m pos, Valid m -> triangular m -> Embedded m pos ->
  exists len areas normals vec frames, pEdgeLengths m pos = Ok len /\ pFaceAreas m pos = Ok areas /\ halfedgeVectorsInFace m len areas = Ok vec /\ faceNormals m pos = Ok normals /\ faceTangentBasis m pos normals vec = Ok frames /\
  (forall f, liveF m f -> rightHanded (frameAt frames f) (pt normals f)) /\
  (forall h, liveH m h -> ~ ext m h -> along m pos h = lift (frameAt frames (fa m h)) (vecAt vec h)).
Proof. exact frames_face. Qed.
Print Assumptions C84_face_frames.

(** The first basis vector of a vertex is the normalised sum of its edges, projected to the tangent plane and turned back by their intrinsic angles;
    the frame is orthonormal and right-handed about the vertex normal whenever that normal is defined and that sum is not zero. Around a vertex at
    which nothing is bent, all this holds without further assumption, and the frame lifts the intrinsic coordinates of every edge to the edge. *)
Theorem C84_vertex_frames : forall m pos, Valid m -> triangular m -> Embedded m pos ->
  exists len angles sums scaled vec normals vn frames, pEdgeLengths m pos = Ok len /\ pCornerAngles m pos = Ok angles /\ vertexAngleSums m angles = Ok sums /\ cornerScaledAngles m angles sums = Ok scaled /\ halfedgeVectorsInVertex m len scaled = Ok vec /\
  faceNormals m pos = Ok normals /\ vertexNormals m normals angles = Ok vn /\ vertexTangentBasis m pos vn vec = Ok frames /\
  (forall v out t, liveV m v -> leaving m v out -> norm3d (pt vn v) = 1 -> (forall h, In h out -> vecAt vec h = mul2 (fromAngle (t h)) (lh len h)) ->
     let n := pt vn v in let s := Vsum (fun h => turned n (- t h) (flat (along m pos h) n)) out in fst (frameAt frames v) = normalize3 s /\ (s <> mk3 0 0 0 -> rightHanded (frameAt frames v) n)) /\
  (forall v n, liveV m v -> (forall h, liveH m h -> ~ ext m h -> ve m h = v -> pt normals (fa m h) = n) -> (onBoundary m v -> valAt sums v = PI) -> (~ onBoundary m v -> valAt sums v = 2 * PI) ->
     pt vn v = n /\ rightHanded (frameAt frames v) n /\ forall h, liveH m h -> ve m h = v -> along m pos h = lift (frameAt frames v) (vecAt vec h)).
Proof. exact frames_vertex. Qed.
Print Assumptions C84_vertex_frames.

(** The curvature direction of a vertex is a squared complex number: the sum over the edges of the square of the unit vector orthogonal to the edge,
    times a quarter of the dihedral angle times the length. Its size is at most the sum of the weights, which is the mean curvature if no edge is concave. *)
Theorem C84_vertex_directions : forall m pos, Valid m -> triangular m -> Embedded m pos ->
  exists len angles sums scaled vec normals alpha mean dirs, pEdgeLengths m pos = Ok len /\ pCornerAngles m pos = Ok angles /\ vertexAngleSums m angles = Ok sums /\ cornerScaledAngles m angles sums = Ok scaled /\ halfedgeVectorsInVertex m len scaled = Ok vec /\
  faceNormals m pos = Ok normals /\ edgeDihedralAngles m pos normals = Ok alpha /\ vertexMeanCurvatures m len alpha = Ok mean /\ vertexCurvatureDirections m len alpha vec = Ok dirs /\
  forall v out, liveV m v -> leaving m v out ->
    vecAt dirs v = Csum (fun h => mul2 (csq (rotate90 (normalize2 (vecAt vec h)))) (valAt alpha (edge h) * lh len h / 4)) out /\
    norm2d (vecAt dirs v) <= Rsum (fun h => Rabs (valAt alpha (edge h)) * lh len h / 4) out /\
    ((forall h, In h out -> 0 <= valAt alpha (edge h)) -> norm2d (vecAt dirs v) <= valAt mean v).
Proof. exact dirs_vertex. Qed.
Print Assumptions C84_vertex_directions.

(** The same around a face, over its three edges, in the coordinates of the face. *)
Theorem C84_face_directions : forall m pos, Valid m -> triangular m -> Embedded m pos ->
  exists len areas vec normals alpha dirs, pEdgeLengths m pos = Ok len /\ pFaceAreas m pos = Ok areas /\ halfedgeVectorsInFace m len areas = Ok vec /\
  faceNormals m pos = Ok normals /\ edgeDihedralAngles m pos normals = Ok alpha /\ faceCurvatureDirections m len alpha vec = Ok dirs /\
  forall f l, liveF m f -> NoDup l -> (forall h, In h l <-> liveH m h /\ ~ ext m h /\ fa m h = f) ->
    vecAt dirs f = Csum (fun h => mul2 (csq (rotate90 (normalize2 (vecAt vec h)))) (valAt alpha (edge h) * lh len h / 4)) l /\
    norm2d (vecAt dirs f) <= Rsum (fun h => Rabs (valAt alpha (edge h)) * lh len h / 4) l.
Proof. exact dirs_face. Qed.
Print Assumptions C84_face_directions.

(** ** four right triangles around a vertex of a plane, beside the bent meshes of C82 *)
Definition fan4 := built [[4; 0; 1]; [4; 1; 2]; [4; 2; 3]; [4; 3; 0]]%Z.
Definition fan4Pos : mdata V3 := {| dat := [mk3 1 0 0; mk3 0 1 0; mk3 (-1) 0 0; mk3 0 (-1) 0; mk3 0 0 0]; dflt := mk3 0 0 0 |}.
Lemma fan4_valid : Valid fan4. Proof. apply validb_Valid. vm_compute. reflexivity. Qed.
Lemma fan4_cases h : liveH fan4 h -> (h = 0 \/ h = 1 \/ h = 2 \/ h = 3 \/ h = 4 \/ h = 5 \/ h = 6 \/ h = 7 \/ h = 8 \/ h = 9 \/ h = 10 \/ h = 11 \/ h = 12 \/ h = 13 \/ h = 14 \/ h = 15)%Z.
Proof. intros [B _]. change (heFill fan4) with 16%Z in B. lia. Qed.
Lemma fan4_triangular : triangular fan4.
Proof. intros h K X. apply fan4_cases in K. repeat destruct K as [K|K]; subst h; try (exfalso; apply X; vm_compute; congruence); conc. Qed.
Lemma fan4_cross h : liveH fan4 h -> ~ ext fan4 h -> cross3 (along fan4 fan4Pos h) (along fan4 fan4Pos (nx fan4 h)) = mk3 0 0 1.
Proof.
  intros K X. apply fan4_cases in K. repeat destruct K as [K|K]; subst h; try (exfalso; apply X; vm_compute; congruence).
  all: unfold along; eval_ints; repeat match goal with |- context [nx fan4 ?x] => let v := eval vm_compute in (nx fan4 x) in change (nx fan4 x) with v end; eval_ints; apply V3_eq; cbv -[Rminus Rmult Rplus Ropp IZR]; ring.
Qed.
Lemma fan4_embedded : Embedded fan4 fan4Pos.
Proof. constructor; [reflexivity|]. intros h K X Q. rewrite fan4_cross in Q by auto. injection Q as Q. lra. Qed.
Example C84_witness : (Valid quad /\ triangular quad /\ Embedded quad quadPos) /\ (Valid tet /\ triangular tet /\ Embedded tet tetPos) /\ Valid fan4 /\ triangular fan4 /\ Embedded fan4 fan4Pos /\
  forall angles sums normals, pCornerAngles fan4 fan4Pos = Ok angles -> vertexAngleSums fan4 angles = Ok sums -> faceNormals fan4 fan4Pos = Ok normals ->
  liveV fan4 4 /\ (forall h, liveH fan4 h -> ~ ext fan4 h -> ve fan4 h = 4%Z -> pt normals (fa fan4 h) = mk3 0 0 1) /\ ~ onBoundary fan4 4 /\ valAt sums 4 = 2 * PI.
Proof.
  split; [apply C82_witness|]. split; [apply C82_witness|]. split; [exact fan4_valid|]. split; [exact fan4_triangular|]. split; [exact fan4_embedded|]. intros angles sums normals EA ES EN.
  split; [conc|]. split; [|split].
  - intros h K X _. destruct (C82_normals fan4 fan4Pos fan4_valid fan4_triangular fan4_embedded) as (n' & E & H & _). rewrite EN in E. injection E as <-. destruct (H h K X) as (_ & _ & C). rewrite fan4_cross in C by auto. assert (U : norm3d (mk3 0 0 1) = 1) by (unfold norm3d; cbn [GeoModel.qx GeoModel.qy GeoModel.qz]; replace (0 * 0 + 0 * 0 + 1 * 1) with 1 by ring; apply sqrt_1). rewrite U in C. rewrite C. unfold mul3. destruct (pt normals (fa fan4 h)). cbn [GeoModel.qx GeoModel.qy GeoModel.qz]. f_equal; ring.
  - intros (h & K & E & X). assert (F : forallb (fun h => negb ((ve fan4 h =? 4) && (fFill fan4 <=? fa fan4 h)))%Z (zseq 16) = true) by (vm_compute; reflexivity). rewrite forallb_forall in F. specialize (F h). rewrite zseq_In in F. specialize (F (proj1 K)). rewrite E in F. unfold ext in X. rewrite (proj2 (Z.leb_le _ _) X) in F. discriminate F.
  - destruct (C82_lengths fan4 fan4Pos fan4_valid fan4_triangular fan4_embedded) as (len & EL & _). destruct (C82_angles fan4 fan4Pos len fan4_valid fan4_triangular fan4_embedded EL) as (a' & a'' & s' & K' & E1 & _ & E2 & _ & HA & HS & _). rewrite EA in E1. injection E1 as <-. rewrite ES in E2. injection E2 as <-.
    set (l := filter (fun h => andb (ve fan4 h =? 4)%Z (negb (fFill fan4 <=? fa fan4 h)%Z)) (zseq 16)).
    assert (CO : cornersOf fan4 4 l). { split; [vm_compute; repeat constructor; cbn; intuition congruence|]. intros h. unfold l. rewrite filter_In, zseq_In, andb_true_iff, negb_true_iff, Z.eqb_eq, Z.leb_gt. split.
      - intros (B & E & F). split; [|split; [unfold ext; lia|auto]]. apply inH_live. assert (G : forallb (inH fan4) (zseq 16) = true) by (vm_compute; reflexivity). rewrite forallb_forall in G. apply G, zseq_In. exact B.
      - intros (K & X & E). split; [apply K|]. split; auto. unfold ext in X. lia. }
    assert (LL : length l = 4%nat) by (vm_compute; reflexivity). clearbody l. rewrite (HS 4%Z l); [|conc|exact CO]. destruct CO as [_ CI]. assert (Q : forall h, In h l -> valAt angles h = PI / 2).
    { intros h Hh. rewrite CI in Hh. destruct Hh as (K & X & E). destruct (HA h K X) as (B & D & _). assert (D0 : dot3 (along fan4 fan4Pos h) (along fan4 fan4Pos (nx fan4 (nx fan4 h))) = 0).
      { clear D B. apply fan4_cases in K. repeat destruct K as [K|K]; subst h; try (vm_compute in E; discriminate E).
        all: unfold along; eval_ints; repeat match goal with |- context [nx fan4 ?x] => let v := eval vm_compute in (nx fan4 x) in change (nx fan4 x) with v end; eval_ints; cbv -[Rminus Rmult Rplus Ropp IZR]; ring. }
      rewrite D0 in D. assert (NZ : forall g, liveH fan4 g -> 0 < norm3d (along fan4 fan4Pos g)) by (intros g Kg; apply norm_pos; apply (Embedded2.along_ne fan4 fan4_valid fan4Pos fan4_embedded); auto).
      assert (K2 : liveH fan4 (nx fan4 (nx fan4 h))) by (apply (cn_nx _ (va_cn _ fan4_valid)), (cn_nx _ (va_cn _ fan4_valid)); auto). pose proof (NZ _ K) as P1. pose proof (NZ _ K2) as P2. assert (C0 : cos (valAt angles h) = 0) by (clear - D P1 P2; apply Rmult_eq_reg_l with (norm3d (along fan4 fan4Pos h) * norm3d (along fan4 fan4Pos (nx fan4 (nx fan4 h)))); [lra|]; pose proof (Rmult_lt_0_compat _ _ P1 P2); lra).
      destruct (cos_eq_0_2PI_0 (valAt angles h)) as [Z|Z]; [clear - B; pose proof PI_RGT_0; lra|clear - B; pose proof PI_RGT_0; lra|exact C0|exact Z|clear - B Z; pose proof PI_RGT_0; lra]. }
    rewrite (Rsum_ext _ (fun _ => PI / 2)) by auto. clear - LL. destruct l as [|a [|b [|c [|d [|]]]]]; try discriminate LL. cbn. field.
Qed.
