From Coq Require Import Reals Lra Permutation.
From Verif Require Import Base DataModel DataSpec DataProofs MeshModel MeshModel2 MeshSpec MeshBase MeshExec MeshOrbit MeshOpSpec MeshFlip MeshThms MeshConnect MeshSplit MeshHistorySpec MeshHistory MeshDataModel CollapseModel CollapseProofs CountSpec
  MatrixModel GeoModel GeoVec IntrinsicModel IntrinsicSpec TangentSpec EmbeddedModel EmbeddedSpec FrameModel FrameSpec FieldModel FieldSpec Intrinsic1 Intrinsic2 Intrinsic3 Intrinsic4 Intrinsic5 Intrinsic6 Intrinsic7 Intrinsic8 Intrinsic11 Intrinsic12 Intrinsic13 Intrinsic14 Embedded1 Frame1 Field1 Field2 Field3.
Open Scope R_scope.
Lemma face_index_all : forall m len field n, Valid m -> triangular m -> Metric m len -> length (dat field) = Z.to_nat (vCap m) -> (forall v, liveV m v -> vecAt field v <> mk2 0 0) ->
  exists angles sums scaled vec tr K idx, cornerAngles m len = Ok angles /\ vertexAngleSums m angles = Ok sums /\ cornerScaledAngles m angles sums = Ok scaled /\ halfedgeVectorsInVertex m len scaled = Ok vec /\ transportAlong m vec = Ok tr /\
    faceGaussianCurvatures m scaled = Ok K /\ computeFaceIndex m tr K field (INR n) = Ok idx /\
    let along h d := turnsBy (cmul (cpown (vecAt tr h) n) (vecAt field (ve m h))) (vecAt field (ve m (tw h))) d in
    exists d : Z -> R, (forall h, liveH m h -> along h (d h) /\ forall t, along h t -> t = d h) /\
    (forall f l, liveF m f -> aroundFace m f l -> (forall h, In h l -> ~ ext m (tw h)) -> 2 * PI * IZR (intAt idx f) = INR n * valAt K f + Rsum d l) /\
    (forall f l, liveF m f -> facing m f l -> nearest ((INR n * valAt K f + Rsum d l) / (2 * PI)) (intAt idx f)) /\
    (closedMesh m -> forall fs opposite, elements m EFace = Ok fs -> NoDup opposite -> (forall e, In e opposite <-> liveE m EEdge e /\ along (eHe e) (- PI)) ->
      total (fun f => IZR (intAt idx f)) fs + INR (length opposite) = INR n * IZR (euler m)).
Proof.
  intros m len x n V TR MT LX NX. pose proof (va_cn m V) as CN. destruct (cornerAngles_ok m V TR len MT) as (A & EA & LA & HA). destruct (sums_ok m V A LA) as (S & ES & LS & HS). destruct (scaled_ok m V A S LA LS) as (C & EC & LC & HC).
  assert (SC : forall v, liveV m v -> Rsum (valAt C) (cornersAt m v) = turn m v) by (intros v Lv; apply (scaled_sum m V TR len MT A S C v); auto).
  destruct (vertexVectors_ok m V TR len MT C LC) as (vec & EV & LV & HV). destruct (along_ok m V vec LV) as (tr & ET & LT & HT). destruct (faceGauss_ok m V TR C LC) as (K & EK & LK & HK).
  destruct (faceIndex_ok m V TR tr K x n LT LK LX) as (idx & EI & HI). exists A, S, C, vec, tr, K, idx. do 7 (split; [assumption|]). intros along.
  assert (RO : forall h, liveH m h -> rotates (vecAt vec) (vecAt tr) h) by (apply (alongRot m V len MT C vec tr HV HT)).
  assert (NE : forall h, liveH m h -> norm2_2 (vecAt tr h) = 1 /\ vecAt x (ve m h) <> mk2 0 0 /\ vecAt x (ve m (tw h)) <> mk2 0 0). { intros h Lh. split; [apply (RO h Lh)|]. split; apply NX; apply CN; auto. apply CN; auto. }
  assert (D : forall h, liveH m h -> along h (dlF m tr x n h) /\ forall t, along h t -> t = dlF m tr x n h). { intros h Lh. destruct (NE h Lh) as (U & X0 & X1). split; [apply delta_turns; auto|intros t T; apply (turns_unique _ _ _ n U X0 X1 t T)]. }
  assert (HW : forall f, liveF m f -> (forall h, In h (ring3 m (fh m f)) -> ~ ext m (tw h)) -> 2 * PI * IZR (intAt idx f) = valAt K f * INR n + Rsum (dlF m tr x n) (ring3 m (fh m f))).
  { intros f Lf NB. destruct (fh_int m V f Lf) as [K0 F0]. destruct (cycle_index (ring3 m (fh m f)) (ve m) (fun h => ve m (tw h)) (vecAt x) (vecAt tr) n (valAt K f)) as (k & Ek).
    - intros h Hh. apply (ring3_ok m V TR) in Hh; auto. apply NE, Hh.
    - rewrite HK by auto. apply (face_holonomy m V TR len MT C vec tr SC HV RO f Lf).
    - intros g. rewrite (Rsum_ext _ (fun h => g (ve m (nx m h)))) by (intros h Hh; apply (ring3_ok m V TR) in Hh; auto; rewrite (cn_vnx _ CN) by apply Hh; reflexivity). rewrite !sum_ring3. destruct (three m V TR _ K0) as (E3 & _). rewrite E3. ring.
    - rewrite HI by auto. rewrite (Rsum_ext _ (dlF m tr x n)). 2: { intros h Hh. pose proof (NB h Hh) as Q. rewrite <- (extb_spec m) in Q. destruct (extb m (tw h)); congruence. }
      unfold dlF at 1. rewrite Ek, round_int. rewrite <- Ek. reflexivity. }
  exists (dlF m tr x n). split; [exact D|]. split; [|split].
  - intros f l Lf [ND I] NB. destruct (fh_int m V f Lf) as [K0 F0]. destruct (ring3_ok m V TR _ K0) as [NR IR]. rewrite F0 in IR. rewrite HW; auto.
    + rewrite (Rsum_set _ (ring3 m (fh m f)) l); auto; [ring|]. intros h. rewrite I, IR. unfold intH. tauto.
    + intros h Hh. apply NB, I. apply IR in Hh as [[? ?] ?]. auto.
  - intros f l Lf [ND I]. destruct (fh_int m V f Lf) as [K0 F0]. destruct (ring3_ok m V TR _ K0) as [NR IR]. rewrite F0 in IR. rewrite HI by auto. replace (INR n * valAt K f + Rsum (dlF m tr x n) l) with (valAt K f * INR n + Rsum (fun h => if extb m (tw h) then 0 else dlF m tr x n h) (ring3 m (fh m f))); [apply round_nearest|].
    rewrite Rmult_comm. f_equal. rewrite (Rsum_ext _ (fun h => if (fun h => negb (extb m (tw h))) h then dlF m tr x n h else 0)) by (intros h _; cbv beta; destruct (extb m (tw h)); reflexivity). rewrite Rsum_if. apply Rsum_set; auto; [apply filter_NoDup; auto|].
    intros h. rewrite filter_In, IR, I, Bool.negb_true_iff. pose proof (extb_spec m (tw h)) as Q. unfold intH. destruct (extb m (tw h)); intuition congruence.
  - intros CM fs opp EF ND IO. rewrite (totalZ m EFace _ fs EF). pose proof PI_RGT_0 as PP.
    assert (T : 2 * PI * Rsum (fun f => IZR (intAt idx f)) (zl m EFace) = INR n * (2 * PI * IZR (euler m)) + Rsum (dlF m tr x n) (zl m EHalfedge)).
    { rewrite <- Rsum_scal. rewrite (Rsum_ext _ (fun f => INR n * valAt K f + Rsum (dlF m tr x n) (ring3 m (fh m f)))).
      - rewrite Rsum_plus, Rsum_scal. rewrite (face_gauss_bonnet m V TR len MT A S C K HA HS HC HK). f_equal. rewrite <- (sum_faces m V TR). apply Rsum_set; try (apply zl_NoDup; auto). intros h. rewrite !zl_In by auto. cbn [liveE]. split; [tauto|]. intros Q. split; auto.
      - intros f Hf. apply zl_In in Hf; auto. cbn [liveE] in Hf. destruct (fh_int m V f Hf) as [K0 F0]. rewrite HW; auto; [ring|]. intros h Hh. apply (ring3_ok m V TR) in Hh; auto. apply CM, CN, Hh. }
    rewrite (edge_total m V (dlF m tr x n) opp) in T; auto.
    + apply Rmult_eq_reg_l with (2 * PI); lra.
    + intros h Lh. destruct (NE h Lh) as (U & X0 & X1). pose proof (delta_back (vecAt tr h) (vecAt x (ve m h)) (vecAt x (ve m (tw h))) n U X0 X1) as Q. cbv zeta in Q. destruct (RO h Lh) as (_ & _ & RC). unfold dlF at 1. rewrite RC, tw_tw. exact Q.
    + intros e. rewrite IO. split; intros [Le Q]; split; auto; [symmetry; apply (D (eHe e) Le); auto|]. rewrite <- Q. apply D. exact Le.
Qed.
Lemma vertex_index_all : forall m len field n, Valid m -> triangular m -> Metric m len -> length (dat field) = Z.to_nat (capacity m EFace) -> (forall f, liveF m f -> vecAt field f <> mk2 0 0) ->
  exists areas vec tr angles sums K idx, faceAreas m len = Ok areas /\ halfedgeVectorsInFace m len areas = Ok vec /\ transportAcross m vec = Ok tr /\ cornerAngles m len = Ok angles /\ vertexAngleSums m angles = Ok sums /\
    vertexGaussianCurvatures m sums = Ok K /\ computeVertexIndex m tr K field (INR n) = Ok idx /\
    let across h d := turnsBy (cmul (cpown (vecAt tr h) n) (vecAt field (fa m h))) (vecAt field (fa m (tw h))) d in
    exists d : Z -> R, (forall h, liveH m h -> ~ ext m h -> ~ ext m (tw h) -> across h (d h) /\ forall t, across h t -> t = d h) /\
    (forall v l, liveV m v -> ~ onBoundary m v -> arriving m v l -> 2 * PI * IZR (intAt idx v) = INR n * valAt K v + Rsum d l) /\
    (forall v, liveV m v -> onBoundary m v -> intAt idx v = 0%Z) /\
    (closedMesh m -> forall vs opposite, elements m EVertex = Ok vs -> NoDup opposite -> (forall e, In e opposite <-> liveE m EEdge e /\ across (eHe e) (- PI)) ->
      total (fun v => IZR (intAt idx v)) vs + INR (length opposite) = INR n * IZR (euler m)).
Proof.
  intros m len x n V TR MT LX NX. pose proof (va_cn m V) as CN. destruct (faceAreas_ok m V TR len MT) as (B & EB & LB & HB & HF). assert (GB : goodAreas m len B) by (split; auto). destruct (faceVectors_ok m V TR len MT B GB) as (vec & EV & LV & HV). destruct (across_ok m V vec LV) as (tr & ET & LT & HT).
  destruct (cornerAngles_ok m V TR len MT) as (A & EA & LA & HA). destruct (sums_ok m V A LA) as (S & ES & LS & HS). destruct (gauss_ok m V S LS) as (K & EK & LK & HK). destruct (vertexIndex_ok m V tr K x n LT LK LX) as (idx & EI & HI).
  exists B, vec, tr, A, S, K, idx. do 7 (split; [assumption|]). intros across.
  assert (RO : forall h, liveH m h -> ~ ext m h -> ~ ext m (tw h) -> rotates (vecAt vec) (vecAt tr) h) by (apply (acrossRot m V TR len MT vec tr HV HT)).
  assert (NE : forall h, liveH m h -> ~ ext m h -> ~ ext m (tw h) -> norm2_2 (vecAt tr h) = 1 /\ vecAt x (fa m h) <> mk2 0 0 /\ vecAt x (fa m (tw h)) <> mk2 0 0). { intros h Lh X XT. split; [apply (RO h Lh X XT)|]. split; apply NX, (fa_liveF m V); split; auto. apply CN; auto. }
  assert (D : forall h, liveH m h -> ~ ext m h -> ~ ext m (tw h) -> across h (dlV m tr x n h) /\ forall t, across h t -> t = dlV m tr x n h). { intros h Lh X XT. destruct (NE h Lh X XT) as (U & X0 & X1). split; [apply delta_turns; auto|intros t T; apply (turns_unique _ _ _ n U X0 X1 t T)]. }
  assert (HW : forall v l, liveV m v -> ~ onBoundary m v -> arriving m v l -> 2 * PI * IZR (intAt idx v) = INR n * valAt K v + Rsum (dlV m tr x n) l).
  { intros v l Lv NB AR. assert (Bv : bdb m v = false). { destruct (bdb m v) eqn:Q; auto. apply (bdb_spec m V) in Q; auto. contradiction. }
    rewrite (HI v l) by auto. rewrite Bv. destruct (cycle_index l (fa m) (fun h => fa m (tw h)) (vecAt x) (vecAt tr) n (valAt K v)) as (k & Ek).
    - intros h Hh. apply AR in Hh as [Lh Eh]. destruct (arrive_int m V v h Lv NB Lh Eh) as [[? ?] [? ?]]. apply NE; auto.
    - rewrite HK, Bv by auto. rewrite HS by auto. rewrite (Rsum_ext (valAt A) (angH m len)). 2: { intros h Hh. apply (cornersAt_ok m V) in Hh as (? & ? & ?). apply HA. split; auto. } apply (vertex_holonomy m V TR len MT vec tr HV RO v l Lv NB AR).
    - intros g. rewrite <- (sweep_bij m V TR v l Lv NB AR (fun h => g (fa m h))). apply Rsum_ext. intros h Hh. apply AR in Hh as [Lh Eh]. pose proof (cn_tw _ CN h Lh) as Lt. unfold sweep. rewrite !(cn_fnx _ CN); auto. apply CN; auto.
    - change (Rsum (fun h => deltaTheta (vecAt tr h) (vecAt x (fa m h)) (vecAt x (fa m (tw h))) (INR n)) l) with (Rsum (dlV m tr x n) l) in Ek. rewrite Ek, round_int, <- Ek. ring. }
  exists (dlV m tr x n). split; [exact D|]. split; [exact HW|]. split.
  - intros v Lv OB. destruct (incoming_list m v V Lv) as (l & _ & AR). rewrite (HI v l Lv AR). rewrite HK by auto. apply (bdb_spec m V) in OB; auto. rewrite OB. replace (0 * INR n + 0) with (2 * PI * IZR 0) by (cbn; ring). apply round_int.
  - intros CM vs opp EVs ND IO. rewrite (totalZ m EVertex _ vs EVs). pose proof PI_RGT_0 as PP. assert (NB : forall v, ~ onBoundary m v) by (intros v (h & Lh & _ & X); apply (CM h); auto).
    assert (T : 2 * PI * Rsum (fun v => IZR (intAt idx v)) (zl m EVertex) = INR n * (2 * PI * IZR (euler m)) + Rsum (dlV m tr x n) (zl m EHalfedge)).
    { rewrite <- Rsum_scal. rewrite (Rsum_ext _ (fun v => INR n * valAt K v + Rsum (dlV m tr x n) (filter (fun h => (ve m (tw h) =? v)%Z) (zl m EHalfedge)))).
      - rewrite Rsum_plus, Rsum_scal. f_equal.
        + f_equal. rewrite <- (gauss_bonnet m V TR len MT A S K []); auto; [rewrite Rsum_nil; ring|constructor|]. intros v. split; [intros []|]. intros [_ OB]. apply (NB v OB).
        + symmetry. apply sum_group with (key := fun h => ve m (tw h)); try (apply zl_NoDup; auto). { intros h Hh. apply zl_In in Hh; auto. apply zl_In; auto. apply CN, CN. exact Hh. } intros v Hv. split; [apply filter_NoDup, zl_NoDup; auto|]. intros h. rewrite filter_In, Z.eqb_eq. tauto.
      - intros v Hv. apply zl_In in Hv; auto. apply HW; auto. split; [apply filter_NoDup, zl_NoDup; auto|]. intros h. rewrite filter_In, Z.eqb_eq, zl_In by auto. reflexivity. }
    rewrite (edge_total m V (dlV m tr x n) opp) in T; auto.
    + apply Rmult_eq_reg_l with (2 * PI); lra.
    + intros h Lh. pose proof (CM h Lh) as X. pose proof (CM (tw h) (cn_tw _ CN h Lh)) as XT. destruct (NE h Lh X XT) as (U & X0 & X1). pose proof (delta_back (vecAt tr h) (vecAt x (fa m h)) (vecAt x (fa m (tw h))) n U X0 X1) as Q. cbv zeta in Q. destruct (RO h Lh X XT) as (_ & _ & RC). unfold dlV at 1. rewrite RC, tw_tw. exact Q.
    + intros e. rewrite IO. assert (Q1 : forall e, liveE m EEdge e -> ~ ext m (eHe e) /\ ~ ext m (tw (eHe e))) by (intros e' Le; split; apply CM; auto; apply CN; auto). split; intros [Le Q]; split; auto; destruct (Q1 e Le) as [X XT]; [symmetry; apply (D (eHe e) Le X XT); auto|]. rewrite <- Q. apply D; auto.
Qed.
