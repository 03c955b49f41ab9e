From Coq Require Import Reals Lra Permutation.
From Verif Require Import Base DataModel DataSpec DataProofs MeshModel MeshSpec MeshBase MeshExec MeshOrbit MeshOpSpec MeshFlip MeshThms MeshSplit MeshHistorySpec MeshHistory MeshDataModel CollapseProofs CountSpec
  MatrixModel MatrixSpec MatrixProofs GeoModel IntrinsicModel IntrinsicSpec Intrinsic1 Intrinsic2 Intrinsic3 Intrinsic4 Intrinsic5 Intrinsic6 Intrinsic7 Intrinsic8 Intrinsic9 Intrinsic11 EmbeddedModel EmbeddedSpec Embedded1 Embedded2 Embedded3.
Open Scope R_scope.
Section M.
Context (m : mesh) (pos : mdata V3) (V : Valid m) (TR : triangular m) (EB : Embedded m pos).
Let CN := va_cn m V.
Local Notation D := (along m pos).
Lemma leaving_sum (g : Z -> R) v l : leaving m v l -> Rsum g l = Rsum g (leavingAt m v).
Proof. intros [N1 I1]. destruct (leavingAt_ok m V v) as [N2 I2]. apply Rsum_set; auto. intros a. rewrite I1, I2. tauto. Qed.
Lemma leaving_vsum (g : Z -> V3) v l : leaving m v l -> Vsum g l = Vsum g (leavingAt m v).
Proof. intros [N1 I1]. destruct (leavingAt_ok m V v) as [N2 I2]. apply Vsum_set; auto. intros a. rewrite I1, I2. tauto. Qed.
Lemma corner_dot len h t : intH m h -> (forall h, liveH m h -> lh len h = norm3d (D h)) -> angleAt m len h t -> dot3 (D h) (D (nx m (nx m h))) = - (norm3d (D h) * norm3d (D (nx m (nx m h))) * cos t).
Proof.
  intros K HL [_ E]. pose proof (intH_nx m V h K) as K1. pose proof (intH_nx m V _ K1) as K2. rewrite !HL in E by (apply K || apply K1 || apply K2).
  destruct (side_eq m V TR pos h K) as (E0 & E1 & _). rewrite E0 in E1. assert (Q : D (nx m h) = sub3 (sub3 (mk3 0 0 0) (D h)) (D (nx m (nx m h)))). { apply V3_eq; [pose proof (f_equal qx E1) as Q|pose proof (f_equal qy E1) as Q|pose proof (f_equal qz E1) as Q]; unfold add3, sub3 in *; cbn [qx qy qz] in *; lra. }
  rewrite (norm_sq (D (nx m h))), (norm_sq (D h)), (norm_sq (D (nx m (nx m h)))), Q, cosine in E. unfold norm2_3, dot3, sub3 in *. cbn [qx qy qz] in *. lra.
Qed.
Lemma emb_lengths : exists len, pEdgeLengths m pos = Ok len /\ Metric m len /\ (forall h, liveH m h -> lh len h = norm3d (D h)) /\ (forall e, liveE m EEdge e -> pEdgeLength m pos e = Ok (valAt len e)).
Proof.
  destruct (lens_ok m V pos EB) as (len & E & LL & HL). exists len. split; auto. split; [apply (metric m V TR pos EB len LL HL)|]. split; auto. intros e K. rewrite (len_e m V pos EB) by auto. rewrite <- HL by auto. unfold lh. rewrite edge_eHe. reflexivity.
Qed.
Lemma emb_areas len : pEdgeLengths m pos = Ok len -> exists areas areas' dual, pFaceAreas m pos = Ok areas /\ faceAreas m len = Ok areas' /\ vertexDualAreas m areas = Ok dual /\
  (forall h, liveH m h -> ~ ext m h -> valAt areas (fa m h) = 1 / 2 * norm3d (cross3 (D h) (D (nx m h)))) /\
  (forall f, liveF m f -> 0 < valAt areas f /\ valAt areas f = valAt areas' f /\ pFaceArea m pos f = Ok (valAt areas f)) /\
  (forall v, liveV m v -> pVertexDualArea m pos v = Ok (valAt dual v) /\ vertexDualArea m len v = Ok (valAt dual v) /\ 0 < valAt dual v) /\
  (forall vs fs, elements m EVertex = Ok vs -> elements m EFace = Ok fs -> total (valAt dual) vs = total (valAt areas) fs).
Proof.
  destruct (lens_ok m V pos EB) as (len' & E & LL & HL). rewrite E. intros Q. injection Q as ->. pose proof (metric m V TR pos EB len LL HL) as MT.
  destruct (pFaceAreas_ok m V TR pos EB len LL HL) as (A & E1 & L1 & V1 & V2). destruct (faceAreas_ok m V TR len MT) as (A' & E2 & L2 & V3 & V4). destruct (dual_ok m V TR A L1) as (du & E3 & L3 & V5). exists A, A', du. split; auto. split; auto. split; auto. split; [|split; [|split]].
  - intros h K X. rewrite V2 by (split; auto). rewrite <- (area_cross m V TR pos EB len LL HL) by (split; auto). reflexivity.
  - intros f K. destruct (fh_int m V f K) as [K0 _]. rewrite V1, V4 by auto. split; [apply (areaH_pos m V TR len MT); auto|]. split; auto. apply (pFaceArea_ok m V TR pos EB len LL HL); auto.
  - intros v K. assert (Q : valAt du v = Rsum (fun h => areaH m len h / 3) (cornersAt m v)). { rewrite V5 by auto. apply Rsum_ext. intros h Hh. apply (cornersAt_ok m V v) in Hh as (K1 & X1 & _). rewrite V2 by (split; auto). reflexivity. }
    rewrite Q. split; [apply (pDual_ok m V TR pos EB len LL HL); auto|]. split; [apply (vertexDualArea_ok m V TR len MT); auto|].
    destruct (areas_all m len V TR MT) as (B & db & _ & _ & _ & _ & _ & PB & _). destruct (PB v K) as [P1 P2]. rewrite (vertexDualArea_ok m V TR len MT v K) in P2. injection P2 as P2. lra.
  - intros vs fs Ev Ef. rewrite (totalZ m EVertex _ vs Ev), (totalZ m EFace _ fs Ef). apply (total_dual m V TR A du); auto.
Qed.
Lemma emb_angles len : pEdgeLengths m pos = Ok len -> exists angles angles' sums K, pCornerAngles m pos = Ok angles /\ cornerAngles m len = Ok angles' /\ vertexAngleSums m angles = Ok sums /\ vertexGaussianCurvatures m sums = Ok K /\
  (forall h, liveH m h -> ~ ext m h -> 0 < valAt angles h < PI /\ dot3 (D h) (D (nx m (nx m h))) = - (norm3d (D h) * norm3d (D (nx m (nx m h))) * cos (valAt angles h)) /\
     valAt angles h = valAt angles' h /\ pCornerAngle m pos h = Ok (valAt angles h) /\ valAt angles h + valAt angles (nx m h) + valAt angles (nx m (nx m h)) = PI) /\
  (forall v l, liveV m v -> cornersOf m v l -> valAt sums v = Rsum (valAt angles) l) /\
  (forall v, liveV m v -> (onBoundary m v -> valAt K v = 0) /\ (~ onBoundary m v -> valAt K v = 2 * PI - valAt sums v) /\ pVertexGaussianCurvature m pos v = Ok (valAt K v) /\ vertexGaussianCurvature m len v = Ok (valAt K v)) /\
  (forall vs bs, elements m EVertex = Ok vs -> NoDup bs -> (forall v, In v bs <-> liveV m v /\ onBoundary m v) -> total (valAt K) vs + Rsum (fun v => PI - valAt sums v) bs = 2 * PI * IZR (euler m)).
Proof.
  destruct (lens_ok m V pos EB) as (len' & E & LL & HL). rewrite E. intros Q. injection Q as ->. pose proof (metric m V TR pos EB len LL HL) as MT.
  destruct (pCornerAngles_ok m V TR pos EB len HL) as (A & E1 & L1 & V1). destruct (cornerAngles_ok m V TR len MT) as (A' & E2 & L2 & V2). destruct (sums_ok m V A L1) as (su & E3 & L3 & V3). destruct (gauss_ok m V su L3) as (K & E4 & L4 & V4).
  exists A, A', su, K. split; auto. split; auto. split; auto. split; auto. split; [|split; [|split]].
  - intros h Kh X. assert (I : intH m h) by (split; auto). pose proof (intH_nx m V h I) as I1. pose proof (intH_nx m V _ I1) as I2. rewrite V2, !V1 by auto. split; [apply (angH_pos m V TR len MT); auto|]. split; [apply (corner_dot len); auto; apply (angH_is m V TR len MT); auto|]. split; auto. split; [apply (pCornerAngle_ok m V TR pos EB len HL); auto|]. apply (angH_sum m V TR len MT); auto.
  - intros v l Kv C. rewrite V3 by auto. symmetry. apply (cornersOf_sum m V); auto.
  - intros v Kv. destruct (onB m V v Kv) as [B1 B2]. rewrite V4 by auto. split; [intros B; rewrite (B1 B); auto|]. split; [intros B; rewrite (B2 B); auto|].
    assert (Q : valAt su v = Rsum (angH m len) (cornersAt m v)). { rewrite V3 by auto. apply Rsum_ext. intros h Hh. apply (cornersAt_ok m V v) in Hh as (K1 & X1 & _). apply V1. split; auto. }
    rewrite Q. split; [apply (pGauss_ok m V TR pos EB len HL); auto|apply (vertexGaussianCurvature_ok m V TR len MT); auto].
  - intros vs bs Ev Nb Ib. rewrite (totalZ m EVertex _ vs Ev). apply (gauss_bonnet m V TR len MT A su K bs); auto.
Qed.
Lemma emb_weights len : pEdgeLengths m pos = Ok len -> exists areas hw hw' ew ew', faceAreas m len = Ok areas /\ pHalfedgeCotanWeights m pos = Ok hw /\ halfedgeCotanWeights m len areas = Ok hw' /\ pEdgeCotanWeights m pos = Ok ew /\ edgeCotanWeights m len areas = Ok ew' /\
  (forall h, liveH m h -> valAt hw h = valAt hw' h /\ pHalfedgeCotanWeight m pos h = Ok (valAt hw h)) /\
  (forall e, liveE m EEdge e -> valAt ew e = valAt ew' e /\ valAt ew e = valAt hw (eHe e) + valAt hw (tw (eHe e)) /\ pEdgeCotanWeight m pos e = Ok (valAt ew e)).
Proof.
  destruct (lens_ok m V pos EB) as (len' & E & LL & HL). rewrite E. intros Q. injection Q as ->. pose proof (metric m V TR pos EB len LL HL) as MT.
  destruct (faceAreas_ok m V TR len MT) as (A & E1 & L1 & V1 & V1'). assert (G : goodAreas m len A) by (split; auto).
  destruct (pHalfedgeWeights_ok m V TR pos EB len LL HL) as (hw & E2 & L2 & V2). destruct (halfedgeWeights_ok m V TR len MT A G) as (hw' & E3 & L3 & V3). destruct (pEdgeWeights_ok m V TR pos EB len LL HL) as (ew & E4 & L4 & V4). destruct (edgeWeights_ok m V TR len MT A G) as (ew' & E5 & L5 & V5).
  exists A, hw, hw', ew, ew'. repeat (split; [assumption|]). split.
  - intros h K. rewrite V2, V3 by auto. split; auto. apply (pHalfedgeWeight_ok m V TR pos EB len LL HL); auto.
  - intros e K. destruct (sides_live m V e K) as [K1 K2]. rewrite V4, V5, !V2 by auto. split; auto. split; auto. apply (pEdgeWeight_ok m V TR pos EB len LL HL); auto.
Qed.
Lemma emb_normals : exists normals, faceNormals m pos = Ok normals /\
  (forall h, liveH m h -> ~ ext m h -> norm3d (pt normals (fa m h)) = 1 /\ dot3 (D h) (pt normals (fa m h)) = 0 /\ cross3 (D h) (D (nx m h)) = mul3 (pt normals (fa m h)) (norm3d (cross3 (D h) (D (nx m h))))) /\
  (forall f, liveF m f -> faceNormal m pos f = Ok (pt normals f)) /\
  (forall angles, pCornerAngles m pos = Ok angles -> exists vn, vertexNormals m normals angles = Ok vn /\
    forall v l, liveV m v -> cornersOf m v l -> pt vn v = normalize3 (Vsum (fun c => mul3 (pt normals (fa m c)) (valAt angles c)) l)).
Proof.
  destruct (faceNormals_ok m V TR pos EB) as (nd & E & LN & V1 & V2). exists nd. split; auto. split; [|split].
  - intros h K X. assert (I : intH m h) by (split; auto). rewrite V2 by auto. pose proof (N_unit m pos EB h I) as U. split; [unfold norm3d; unfold norm2_3 in U; rewrite U; apply sqrt_1|]. split; [apply (N_orth m pos h I)|]. unfold N. rewrite unit_scale; auto. apply (eb_area _ _ EB); auto.
  - intros f K. rewrite V1 by auto. apply (faceNormal_ok m V TR pos EB); auto.
  - intros ang EA. destruct (lens_ok m V pos EB) as (len & E0 & LL & HL). destruct (pCornerAngles_ok m V TR pos EB len HL) as (A & E1 & L1 & _). rewrite EA in E1. injection E1 as <-. destruct (vertexNormals_ok m V nd ang LN L1) as (vn & EV & _ & HV). exists vn. auto.
Qed.
Lemma emb_mean_normals : exists w hn, pEdgeCotanWeights m pos = Ok w /\ vertexDualMeanCurvatureNormals m pos w = Ok hn /\
  (forall v out, liveV m v -> leaving m v out -> pt hn v = Vsum (fun h => mul3 (sub3 (pt pos v) (pt pos (ve m (tw h)))) (valAt w (edge h) / 2)) out) /\
  (forall v, liveV m v -> vertexDualMeanCurvatureNormal m pos v = Ok (pt hn v)) /\
  (forall vs, elements m EVertex = Ok vs -> Vsum (fun v => pt hn (Z.of_nat v)) vs = mk3 0 0 0).
Proof.
  destruct (lens_ok m V pos EB) as (len & E0 & LL & HL). destruct (pEdgeWeights_ok m V TR pos EB len LL HL) as (w & E1 & L1 & V1). destruct (hn_ok m V pos EB w L1) as (d & E2 & V2). exists w, d. split; auto. split; auto. split; [|split].
  - intros v out K O. rewrite V2 by auto. rewrite <- (leaving_vsum _ v out O). apply Vsum_ext. intros h Hh. apply O in Hh as [_ Hv]. unfold hn. rewrite Hv. apply V3_eq; unfold div3, mul3, sub3; cbn [qx qy qz]; field.
  - intros v K. rewrite V2 by auto. apply (hn1_ok m V TR pos EB len LL HL); auto.
  - intros vs Ev. rewrite <- (hn_total m V pos w). destruct (els_ok m EVertex V) as (E & _). rewrite Ev in E. injection E as ->. unfold zl. transitivity (Vsum (pt d) (map Z.of_nat (els m EVertex))); [unfold Vsum; rewrite !Rsum_map; reflexivity|]. apply Vsum_ext. intros v Hv. apply V2. change (liveE m EVertex v). apply zl_In; auto.
Qed.
Lemma emb_dihedral : exists normals alpha, faceNormals m pos = Ok normals /\ edgeDihedralAngles m pos normals = Ok alpha /\
  (forall h, liveH m h -> ~ ext m h -> ~ ext m (tw h) -> - PI < valAt alpha (edge h) <= PI /\ turned (normalize3 (D h)) (valAt alpha (edge h)) (pt normals (fa m h)) = pt normals (fa m (tw h))) /\
  (forall h, liveH m h -> ext m h -> valAt alpha (edge h) = 0) /\
  (forall e, liveE m EEdge e -> edgeDihedralAngle m pos e = Ok (valAt alpha e)).
Proof.
  destruct (faceNormals_ok m V TR pos EB) as (nd & E & LN & V1 & V2). destruct (dihedralAngles_ok m V pos EB nd LN V2) as (al & E1 & L1 & V3). exists nd, al. split; auto. split; auto. split; [|split].
  - intros h K X XT. assert (K' : liveH m (tw h)) by (apply (cn_tw _ CN); auto). rewrite V3 by auto. rewrite !V2 by (split; auto). apply (dih_turns m V pos EB); split; auto.
  - intros h K X. rewrite V3 by auto. apply dih_bd; auto.
  - intros e K. rewrite (dihedralAngle_ok m V TR pos EB) by auto. rewrite <- V3 by apply K. rewrite edge_eHe. reflexivity.
Qed.
Lemma emb_mean : exists len normals alpha mean, pEdgeLengths m pos = Ok len /\ faceNormals m pos = Ok normals /\ edgeDihedralAngles m pos normals = Ok alpha /\ vertexMeanCurvatures m len alpha = Ok mean /\
  (forall v out, liveV m v -> leaving m v out -> valAt mean v = Rsum (fun h => valAt alpha (edge h) * norm3d (D h)) out / 4) /\
  (forall v, liveV m v -> vertexMeanCurvature m pos v = Ok (valAt mean v)) /\
  (forall vs es, elements m EVertex = Ok vs -> elements m EEdge = Ok es -> total (valAt mean) vs = total (fun e => valAt alpha e * valAt len e) es / 2).
Proof.
  destruct (lens_ok m V pos EB) as (len & E0 & LL & HL). destruct (faceNormals_ok m V TR pos EB) as (nd & E & LN & V1 & V2). destruct (dihedralAngles_ok m V pos EB nd LN V2) as (al & E1 & L1 & V3). destruct (mean_ok m V len LL al L1) as (me & E2 & L2 & V4). exists len, nd, al, me. repeat (split; [assumption|]). split; [|split].
  - intros v out K O. rewrite V4 by auto. rewrite <- (leaving_sum _ v out O). rewrite (Rsum_ext _ (fun h => / 4 * (valAt al (edge h) * norm3d (D h)))) by (intros h Hh; apply O in Hh as [Kh _]; rewrite HL by auto; field). rewrite Rsum_scal. field.
  - intros v K. rewrite V4 by auto. rewrite (mean1_ok m V TR pos EB len HL) by auto. f_equal. apply Rsum_ext. intros h Hh. apply (leavingAt_ok m V v) in Hh as [Kh _]. rewrite V3 by auto. reflexivity.
  - intros vs es Ev Ee. rewrite (totalZ m EVertex _ vs Ev), (totalZ m EEdge _ es Ee). rewrite (Rsum_ext _ (fun v => Rsum (fun h => valAt al (edge h) * lh len h / 4) (leavingAt m v))) by (intros v Hv; apply zl_In in Hv; auto). rewrite (mean_total m V len al). rewrite (Rsum_ext _ (fun e => / 2 * (valAt al e * valAt len e))) by (intros; field). rewrite Rsum_scal. field.
Qed.
Lemma emb_principal : exists len normals alpha mean areas dual angles sums K kmin kmax,
  pEdgeLengths m pos = Ok len /\ faceNormals m pos = Ok normals /\ edgeDihedralAngles m pos normals = Ok alpha /\ vertexMeanCurvatures m len alpha = Ok mean /\
  pFaceAreas m pos = Ok areas /\ vertexDualAreas m areas = Ok dual /\ pCornerAngles m pos = Ok angles /\ vertexAngleSums m angles = Ok sums /\ vertexGaussianCurvatures m sums = Ok K /\
  principalCurvatures m true dual mean K = Ok kmin /\ principalCurvatures m false dual mean K = Ok kmax /\
  forall v, liveV m v -> let A := valAt dual v in let H := valAt mean v / A in let G := valAt K v / A in
    valAt kmin v <= valAt kmax v /\ valAt kmin v + valAt kmax v = 2 * H /\
    (G <= H * H -> valAt kmin v * valAt kmax v = G) /\ (H * H <= G -> valAt kmin v = H /\ valAt kmax v = H) /\
    vertexPrincipalCurvature m pos true v = Ok (valAt kmin v) /\ vertexPrincipalCurvature m pos false v = Ok (valAt kmax v).
Proof.
  destruct emb_mean as (len & nd & al & me & E1 & E2 & E3 & E4 & _ & M1 & _). destruct (emb_areas len E1) as (A & A' & du & E5 & _ & E6 & _ & _ & M2 & _). destruct (emb_angles len E1) as (an & an' & su & K & E7 & _ & E8 & E9 & _ & _ & M3 & _).
  assert (LD : length (dat du) = Z.to_nat (vCap m) /\ length (dat me) = Z.to_nat (vCap m) /\ length (dat K) = Z.to_nat (vCap m)).
  { destruct (lens_ok m V pos EB) as (len' & E0 & LL & HL). rewrite E1 in E0. injection E0 as <-. split; [|split].
    - destruct (pFaceAreas_ok m V TR pos EB len LL HL) as (B & F1 & F2 & _). rewrite E5 in F1. injection F1 as <-. destruct (dual_ok m V TR A F2) as (d & F3 & F4 & _). congruence.
    - destruct (faceNormals_ok m V TR pos EB) as (nd' & F1 & F2 & _ & F3). assert (nd' = nd) by congruence. subst nd'. destruct (dihedralAngles_ok m V pos EB nd F2 F3) as (al' & F4 & F5 & _). assert (al' = al) by congruence. subst al'. destruct (mean_ok m V len LL al F5) as (me' & F6 & F7 & _). congruence.
    - destruct (pCornerAngles_ok m V TR pos EB len HL) as (B & F1 & F2 & _). assert (B = an) by congruence. subst B. destruct (sums_ok m V an F2) as (s' & F3 & F4 & _). assert (s' = su) by congruence. subst s'. destruct (gauss_ok m V su F4) as (K' & F5 & F6 & _). congruence. }
  destruct LD as (L1 & L2 & L3).
  assert (G : forall b, exists d, principalCurvatures m b du me K = Ok d /\ forall v, liveV m v -> valAt d v = principal b (valAt du v) (valAt me v) (valAt K v)).
  { intros b. unfold principalCurvatures. match goal with |- context [forEach _ _ ?f] => destruct (fill_all 0 m EVertex f (fun v => principal b (valAt du v) (valAt me v) (valAt K v)) EVertex 0 V) as (d & E & LD & V1 & V2) end.
    - intros e Q. apply (v_cap m V); auto.
    - intros d v _ Q. rewrite !(dataAt_in 0) by (rewrite ?L1, ?L2, ?L3; apply (v_cap m V); auto). reflexivity.
    - exists d. auto. }
  destruct (G true) as (k1 & F1 & W1). destruct (G false) as (k2 & F2 & W2). exists len, nd, al, me, A, du, an, su, K, k1, k2. repeat (split; [assumption|]). intros v Kv. cbv zeta.
  destruct (M2 v Kv) as (D1 & _ & D3). destruct (M3 v Kv) as (_ & _ & D2 & _). rewrite (W1 v Kv), (W2 v Kv). unfold vertexPrincipalCurvature. rewrite D1, (M1 v Kv), D2. cbn [bind].
  set (a := valAt du v) in *. set (h := valAt me v). set (k := valAt K v). destruct (principal_ok a h k D3) as (P1 & P2 & P3 & P4). split; auto. split; auto. assert (PAA : 0 < a * a) by (apply Rmult_lt_0_compat; auto).
  assert (X1 : h / a * (h / a) * (a * a) = h * h) by (field; lra). assert (X2 : k / a * (a * a) = k * a) by (field; lra).
  split; [intros Q; apply P3|split; [intros Q; apply P4|auto]]; apply (Rmult_le_compat_r (a * a)) in Q; lra.
Qed.
End M.
