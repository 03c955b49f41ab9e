From Coq Require Import Reals Lra Permutation.
From Verif Require Import Base DataModel DataSpec DataProofs MeshModel MeshSpec MeshBase MeshExec MeshOrbit MeshOpSpec MeshFlip MeshThms MeshSplit MeshHistorySpec MeshHistory MeshDataModel CollapseProofs CountSpec
  MatrixModel MatrixSpec MatrixProofs GeoModel IntrinsicModel IntrinsicSpec TangentSpec Intrinsic1 Intrinsic2 Intrinsic3 Intrinsic4 Intrinsic5 Intrinsic6 Intrinsic7 Intrinsic8 Intrinsic9 Intrinsic11 Intrinsic12 Intrinsic13 Intrinsic14
  EmbeddedModel EmbeddedSpec Embedded1 Embedded2 Embedded3 Embedded4 FrameModel FrameSpec Frame1 Frame2 Frame3.
Open Scope R_scope.
(** ** sums of plane vectors *)
Lemma Csum_cons {A} (f : A -> V2) a l : Csum f (a :: l) = add2 (f a) (Csum f l). Proof. reflexivity. Qed.
Lemma foldM_csum {A} (f : A -> V2) (body : V2 -> A -> res V2) l : (forall s a, In a l -> body s a = Ok (add2 s (f a))) -> forall s, foldM body l s = Ok (add2 s (Csum f l)).
Proof.
  induction l as [|a l IH]; intros H s; [cbn; f_equal; apply V2_eq; cbn; ring|]. cbn [foldM]. rewrite H by (left; auto). cbn [bind]. rewrite IH by (intros; apply H; right; auto). rewrite Csum_cons. f_equal. apply V2_eq; unfold add2; cbn [px py]; ring.
Qed.
Lemma Csum_ext {A} (f g : A -> V2) l : (forall a, In a l -> f a = g a) -> Csum f l = Csum g l.
Proof. intros H. unfold Csum. f_equal; apply Rsum_ext; intros a Ha; rewrite H by auto; reflexivity. Qed.
Lemma Csum_div {A} (f : A -> V2) r l : div2 (Csum f l) r = Csum (fun a => div2 (f a) r) l.
Proof. unfold div2, Csum. cbv zeta. cbn [px py]. f_equal; rewrite (Rmult_comm _ (1 / r)), <- Rsum_scal; apply Rsum_ext; intros; ring. Qed.
Lemma norm2d_add u v : norm2d (add2 u v) <= norm2d u + norm2d v.
Proof.
  assert (SQ : forall w, norm2d w * norm2d w = px w * px w + py w * py w) by (intros w; apply sqrt_sqrt; nra). assert (PS : forall w, 0 <= norm2d w) by (intros w; apply sqrt_pos).
  apply Rsqr_incr_0; [|auto|pose proof (PS u); pose proof (PS v); lra]. unfold Rsqr. rewrite SQ. unfold add2. cbn [px py].
  assert (CS : px u * px v + py u * py v <= norm2d u * norm2d v). { destruct (Rle_dec (px u * px v + py u * py v) 0) as [L|L]; [pose proof (Rmult_le_pos _ _ (PS u) (PS v)); lra|]. apply Rsqr_incr_0; [|lra|apply Rmult_le_pos; auto]. unfold Rsqr. replace (norm2d u * norm2d v * (norm2d u * norm2d v)) with (norm2d u * norm2d u * (norm2d v * norm2d v)) by ring. rewrite !SQ. pose proof (Rle_0_sqr (px u * py v - py u * px v)) as Q. unfold Rsqr in Q. lra. }
  pose proof (SQ u). pose proof (SQ v). lra.
Qed.
Lemma norm2d_0 : norm2d (mk2 0 0) = 0. Proof. unfold norm2d. cbn [px py]. replace (0 * 0 + 0 * 0) with 0 by ring. apply sqrt_0. Qed.
Lemma norm2d_sum {A} (f : A -> V2) (g : A -> R) l : (forall a, In a l -> norm2d (f a) <= g a) -> norm2d (Csum f l) <= Rsum g l.
Proof.
  induction l as [|a l IH]; intros H; [change (Csum f []) with (mk2 0 0); rewrite norm2d_0; rewrite Rsum_nil; lra|]. rewrite Csum_cons, Rsum_cons. pose proof (norm2d_add (f a) (Csum f l)). pose proof (H a (or_introl eq_refl)). pose proof (IH (fun b K => H b (or_intror K))). lra.
Qed.
(** ** one bent edge *)
Lemma bend_term v l a : 0 < l -> norm2_2 v = l * l -> div2 (mul2 (div2 (cmul (neg2 v) v) l) a) 4 = mul2 (csq (rotate90 (normalize2 v))) (a * l / 4) /\ norm2d (mul2 (csq (rotate90 (normalize2 v))) (a * l / 4)) = Rabs a * l / 4.
Proof.
  intros P E. assert (S : sqrt (px v * px v + py v * py v) = l) by (change (sqrt (norm2_2 v) = l); rewrite E; apply sqrt_square; lra). unfold normalize2. cbv zeta. rewrite S. split.
  - unfold csq, rotate90, div2, mul2, cmul, neg2. cbv zeta. cbn [px py]. apply V2_eq; cbn [px py]; field; lra.
  - unfold norm2d, csq, rotate90, mul2, cmul. cbn [px py]. set (x := px v) in *. set (y := py v) in *. unfold norm2_2 in E. fold x y in E.
    match goal with |- sqrt ?z = _ => replace z with ((a * l / 4)²) end; [rewrite sqrt_Rsqr_abs; unfold Rdiv; rewrite !Rabs_mult; rewrite (Rabs_pos_eq l) by lra; rewrite (Rabs_pos_eq (/ 4)) by lra; reflexivity|].
    unfold Rsqr. transitivity ((a / 4) * (a / 4) * ((l * l) * (l * l) * (/ l * / l))); [field; lra|]. rewrite <- E. field. lra.
Qed.
Section M.
Context (m : mesh) (pos : mdata V3) (V : Valid m) (TR : triangular m) (EB : Embedded m pos).
Let CN := va_cn m V.
Local Notation D := (along m pos).
Definition bend (len alpha : mdata R) (vec : mdata V2) (h : Z) : V2 := mul2 (csq (rotate90 (normalize2 (vecAt vec h)))) (valAt alpha (edge h) * valAt len (edge h) / 4).
Lemma bend_fold len alpha vec hs : length (dat len) = Z.to_nat (eCap m) -> length (dat alpha) = Z.to_nat (eCap m) -> length (dat vec) = Z.to_nat (heCap m) ->
  (forall h, In h hs -> liveH m h /\ 0 < lh len h /\ norm2_2 (vecAt vec h) = lh len h * lh len h) -> exists s, foldM (bendTerm len alpha vec) hs (mk2 0 0) = Ok s /\ div2 s 4 = Csum (bend len alpha vec) hs /\ norm2d (div2 s 4) <= Rsum (fun h => Rabs (valAt alpha (edge h)) * lh len h / 4) hs.
Proof.
  intros LL LA LV H. exists (add2 (mk2 0 0) (Csum (fun h => mul2 (div2 (cmul (neg2 (vecAt vec h)) (vecAt vec h)) (lh len h)) (valAt alpha (edge h))) hs)). split; [|split].
  - apply foldM_csum. intros s h Hh. destruct (H h Hh) as (K & _). pose proof (e_cap m V _ (edge_live m V h K)) as B. unfold bendTerm. rewrite !(dataAt_in 0) by (rewrite ?LL, ?LA; auto). cbn [bind]. rewrite (dataAt_in (mk2 0 0)) by (rewrite LV; apply (he_cap m V); auto). reflexivity.
  - replace (add2 (mk2 0 0) _) with (Csum (fun h => mul2 (div2 (cmul (neg2 (vecAt vec h)) (vecAt vec h)) (lh len h)) (valAt alpha (edge h))) hs) by (apply V2_eq; cbn; ring). rewrite Csum_div. apply Csum_ext. intros h Hh. destruct (H h Hh) as (K & P & E). apply (bend_term _ _ _ P E).
  - replace (add2 (mk2 0 0) _) with (Csum (fun h => mul2 (div2 (cmul (neg2 (vecAt vec h)) (vecAt vec h)) (lh len h)) (valAt alpha (edge h))) hs) by (apply V2_eq; cbn; ring). rewrite Csum_div. apply norm2d_sum. intros h Hh. destruct (H h Hh) as (K & P & E). destruct (bend_term _ _ (valAt alpha (edge h)) P E) as [B1 B2]. rewrite B1, B2. lra.
Qed.
Lemma frames_face : exists len areas normals vec frames, pEdgeLengths m pos = Ok len /\ pFaceAreas m pos = Ok areas /\ halfedgeVectorsInFace m len areas = Ok vec /\ faceNormals m pos = Ok normals /\ faceTangentBasis m pos normals vec = Ok frames /\
  (forall f, liveF m f -> rightHanded (frameAt frames f) (pt normals f)) /\ (forall h, liveH m h -> ~ ext m h -> D h = lift (frameAt frames (fa m h)) (vecAt vec h)).
Proof.
  destruct (lens_ok m V pos EB) as (len & E0 & LL & HL). pose proof (metric m V TR pos EB len LL HL) as MT. destruct (pFaceAreas_ok m V TR pos EB len LL HL) as (A & E1 & LA & HA & HA'). assert (GA : goodAreas m len A) by (split; auto). destruct (faceVectors_ok m V TR len MT A GA) as (vec & E2 & LV & HV). destruct (faceNormals_ok m V TR pos EB) as (nd & E3 & LN & HN & HN').
  destruct (faceBasis_ok m V TR pos EB len LL HL nd vec LN HN LV HV) as (fr & E4 & HF). exists len, A, nd, vec, fr. do 5 (split; [assumption|]). split.
  - intros f K. rewrite HF, HN by auto. apply (frameF_right m V pos EB); auto.
  - intros h K X. assert (I : intH m h) by (split; auto). rewrite HF by (apply (fa_liveF m V); auto). unfold vecAt. rewrite HV by auto. apply (frameF_lift m V TR pos EB len LL HL); [apply (fa_liveF m V); auto|]. destruct (fh_int m V (fa m h) (fa_liveF m V h I)) as [K0 F0]. apply (ring3_ok m V TR _ K0). auto.
Qed.
Lemma scaled_emb len : length (dat len) = Z.to_nat (eCap m) -> (forall h, liveH m h -> lh len h = norm3d (D h)) -> exists A S C vec, pCornerAngles m pos = Ok A /\ vertexAngleSums m A = Ok S /\ cornerScaledAngles m A S = Ok C /\ halfedgeVectorsInVertex m len C = Ok vec /\
  length (dat A) = Z.to_nat (heCap m) /\ length (dat vec) = Z.to_nat (heCap m) /\ (forall h, intH m h -> valAt A h = angH m len h) /\ (forall v, liveV m v -> valAt S v = Rsum (valAt A) (cornersAt m v)) /\
  (forall h, intH m h -> valAt C h = (if bdb m (ve m h) then PI / valAt S (ve m h) else 2 * PI / valAt S (ve m h)) * valAt A h) /\ (forall h, liveH m h -> vecAt vec h = vecV m len C h).
Proof.
  intros LL HL. pose proof (metric m V TR pos EB len LL HL) as MT. destruct (pCornerAngles_ok m V TR pos EB len HL) as (A & EA & LA & HA). destruct (sums_ok m V A LA) as (S & ES & LS & HS). destruct (scaled_ok m V A S LA LS) as (C & EC & LC & HC). destruct (vertexVectors_ok m V TR len MT C LC) as (vec & EV & LV & HV). exists A, S, C, vec. repeat (split; [assumption|]). exact HV.
Qed.
Lemma frames_vertex : exists len angles sums scaled vec normals vn frames, pEdgeLengths m pos = Ok len /\ pCornerAngles m pos = Ok angles /\ vertexAngleSums m angles = Ok sums /\ cornerScaledAngles m angles sums = Ok scaled /\ halfedgeVectorsInVertex m len scaled = Ok vec /\
  faceNormals m pos = Ok normals /\ vertexNormals m normals angles = Ok vn /\ vertexTangentBasis m pos vn vec = Ok frames /\
  (forall v out t, liveV m v -> leaving m v out -> norm3d (pt vn v) = 1 -> (forall h, In h out -> vecAt vec h = mul2 (fromAngle (t h)) (lh len h)) ->
     let n := pt vn v in let s := Vsum (fun h => turned n (- t h) (flat (D h) n)) out in fst (frameAt frames v) = normalize3 s /\ (s <> mk3 0 0 0 -> rightHanded (frameAt frames v) n)) /\
  (forall v n, liveV m v -> (forall h, liveH m h -> ~ ext m h -> ve m h = v -> pt normals (fa m h) = n) -> (onBoundary m v -> valAt sums v = PI) -> (~ onBoundary m v -> valAt sums v = 2 * PI) ->
     pt vn v = n /\ rightHanded (frameAt frames v) n /\ forall h, liveH m h -> ve m h = v -> D h = lift (frameAt frames v) (vecAt vec h)).
Proof.
  destruct (lens_ok m V pos EB) as (len & E0 & LL & HL). pose proof (metric m V TR pos EB len LL HL) as MT. destruct (scaled_emb len LL HL) as (A & S & C & vec & EA & ES & EC & EV & LA & LV & HA & HS & HC & HV).
  destruct (faceNormals_ok m V TR pos EB) as (nd & E3 & LN & HN & HN'). destruct (vertexNormals_ok m V nd A LN LA) as (vn & E4 & LVn & HVn). destruct (vertexBasis_ok m V pos EB vn vec LVn LV) as (fr & E5 & HF). exists len, A, S, C, vec, nd, vn, fr. do 8 (split; [assumption|]). split.
  - intros v out t K O U HT n s. apply one_norm in U. fold n in U. assert (Q : Vsum (backV m pos vec n) out = s). { apply Vsum_ext. intros h Hh. assert (Kh : liveH m h) by (apply O in Hh; apply Hh). apply (backV_turned m pos vec n h (t h) (lh len h)); auto. apply MT; auto. }
    rewrite (HF v out K O). fold n. rewrite Q. split; [reflexivity|]. intros NZ. apply frame_ok; auto. apply Vsum_app_dot. intros h Hh. apply turned_orth, flat_orth; auto.
  - intros v n K HNn HB HI. pose proof (vSum_pos m V TR len MT v K) as PS. assert (SV : valAt S v = Rsum (angH m len) (cornersAt m v)). { rewrite HS by auto. apply Rsum_ext. intros h Hh. apply (cornersAt_ok m V v) in Hh as (A1 & A2 & _). apply HA. split; auto. }
    assert (HNh : forall h, intH m h -> ve m h = v -> N m pos h = n) by (intros h [Kh Xh] Eh; rewrite <- (HN' h) by (split; auto); apply HNn; auto).
    assert (HSc : forall h, intH m h -> ve m h = v -> valAt C h = angH m len h). { intros h Kh Eh. rewrite HC, HA by auto. rewrite Eh. pose proof PI_RGT_0. destruct (bdb m v) eqn:B; [rewrite HB by (apply (bdb_spec m V); auto)|rewrite HI by (intros Q; apply (bdb_spec m V) in Q; auto; congruence)]; field; lra. }
    pose proof (flat_start m V v K) as K0. destruct (cn_vh _ CN v K) as [Lh Ev]. assert (NU : norm2_3 n = 1) by (rewrite <- (HNh _ K0 Ev); apply (N_unit m pos EB); auto).
    assert (EN : pt vn v = n). { rewrite (HVn v (cornersAt m v) K (cornersAt_ok m V v)). rewrite (Vsum_ext _ (fun c => mul3 n (valAt A c))) by (intros c Hc; apply (cornersAt_ok m V v) in Hc as (A1 & A2 & A3); rewrite HNn by auto; reflexivity). rewrite Vsum_mul. apply normalize_scaled; auto. rewrite <- HS by auto. rewrite SV. auto. }
    split; auto. pose proof (leavingAt_ok m V v) as O. assert (FR : frameAt fr v = frameOf n (Vsum (backV m pos vec n) (leavingAt m v))) by (rewrite (HF v _ K O), EN; reflexivity).
    assert (LF : forall h, liveH m h -> ve m h = v -> D h = lift (frameAt fr v) (vecAt vec h)) by (intros h Kh Eh; rewrite FR; apply (flat_lift m V pos EB TR len LL HL C v K n HNh HSc vec (leavingAt m v) h HV O Kh Eh)).
    split; auto. rewrite FR. apply frame_ok; auto.
    + apply Vsum_app_dot. intros h Hh. apply O in Hh as [Kh _]. rewrite (backV_turned m pos vec n h (theta m C h) (lh len h)); auto; [apply turned_orth, flat_orth; auto|apply MT; auto|rewrite HV by auto; reflexivity].
    + intros Z. specialize (LF (vh m v) Lh Ev). rewrite FR, Z in LF. apply (along_ne m V pos EB (vh m v) Lh). rewrite LF. unfold lift, frameOf, normalize3. cbv zeta. cbn [fst snd]. apply V3_eq; unfold add3, mul3, cross3; cbn [qx qy qz]; ring.
Qed.
Lemma dirs_vertex : exists len angles sums scaled vec normals alpha mean dirs, pEdgeLengths m pos = Ok len /\ pCornerAngles m pos = Ok angles /\ vertexAngleSums m angles = Ok sums /\ cornerScaledAngles m angles sums = Ok scaled /\ halfedgeVectorsInVertex m len scaled = Ok vec /\
  faceNormals m pos = Ok normals /\ edgeDihedralAngles m pos normals = Ok alpha /\ vertexMeanCurvatures m len alpha = Ok mean /\ vertexCurvatureDirections m len alpha vec = Ok dirs /\
  forall v out, liveV m v -> leaving m v out ->
    vecAt dirs v = Csum (fun h => mul2 (csq (rotate90 (normalize2 (vecAt vec h)))) (valAt alpha (edge h) * lh len h / 4)) out /\
    norm2d (vecAt dirs v) <= Rsum (fun h => Rabs (valAt alpha (edge h)) * lh len h / 4) out /\
    ((forall h, In h out -> 0 <= valAt alpha (edge h)) -> norm2d (vecAt dirs v) <= valAt mean v).
Proof.
  destruct (lens_ok m V pos EB) as (len & E0 & LL & HL). pose proof (metric m V TR pos EB len LL HL) as MT. destruct (scaled_emb len LL HL) as (A & S & C & vec & EA & ES & EC & EV & LA & LV & HA & HS & HC & HV).
  destruct (faceNormals_ok m V TR pos EB) as (nd & E3 & LN & HN & HN'). destruct (dihedralAngles_ok m V pos EB nd LN HN') as (al & E4 & L4 & _). destruct (mean_ok m V len LL al L4) as (me & E5 & L5 & V5).
  assert (OKH : forall h, liveH m h -> 0 < lh len h /\ norm2_2 (vecAt vec h) = lh len h * lh len h) by (intros h Kh; split; [apply MT; auto|]; rewrite HV by auto; apply vecV_norm; auto).
  assert (Q : exists d, vertexCurvatureDirections m len al vec = Ok d /\ forall v, liveV m v -> vecAt d v = Csum (bend len al vec) (leavingAt m v)).
  { unfold vertexCurvatureDirections. match goal with |- context [forEach _ _ ?b] => destruct (fill_all (mk2 0 0) m EVertex b (fun v => Csum (bend len al vec) (leavingAt m v)) EVertex (mk2 0 0) V) as (d & E & LD & V1 & V2) end.
    - intros e K. apply (v_cap m V); auto.
    - intros d v _ K. cbn [liveE] in K. destruct (vertHalfedges_ok m V v K) as (hs & E & _ & _ & Nh & I). rewrite E. cbn [bind]. destruct (bend_fold len al vec hs LL L4 LV) as (s & B1 & B2 & _); [intros h Hh; apply I in Hh as [Kh _]; split; auto|]. rewrite B1. cbn [bind]. rewrite B2. f_equal. destruct (leavingAt_ok m V v) as [N2 I2]. apply Csum_set; auto. intros a. rewrite I, I2. tauto.
    - exists d. auto. }
  destruct Q as (d & E6 & HD). exists len, A, S, C, vec, nd, al, me, d. do 9 (split; [assumption|]). intros v out K O.
  assert (EQ : vecAt d v = Csum (bend len al vec) out) by (rewrite HD by auto; destruct O as [N1 I1]; destruct (leavingAt_ok m V v) as [N2 I2]; apply Csum_set; auto; intros a; rewrite I1, I2; tauto).
  assert (BD : norm2d (vecAt d v) <= Rsum (fun h => Rabs (valAt al (edge h)) * lh len h / 4) out). { destruct (bend_fold len al vec out LL L4 LV) as (s & _ & B2 & B3); [intros h Hh; apply O in Hh as [Kh _]; split; auto|]. rewrite EQ, <- B2. exact B3. }
  split; [exact EQ|]. split; auto. intros PA. rewrite V5 by auto. rewrite <- (leaving_sum m V _ v out O). rewrite (Rsum_ext _ (fun h => Rabs (valAt al (edge h)) * lh len h / 4)); auto. intros h Hh. rewrite Rabs_pos_eq; auto.
Qed.
Lemma dirs_face : exists len areas vec normals alpha dirs, pEdgeLengths m pos = Ok len /\ pFaceAreas m pos = Ok areas /\ halfedgeVectorsInFace m len areas = Ok vec /\
  faceNormals m pos = Ok normals /\ edgeDihedralAngles m pos normals = Ok alpha /\ faceCurvatureDirections m len alpha vec = Ok dirs /\
  forall f l, liveF m f -> NoDup l -> (forall h, In h l <-> liveH m h /\ ~ ext m h /\ fa m h = f) ->
    vecAt dirs f = Csum (fun h => mul2 (csq (rotate90 (normalize2 (vecAt vec h)))) (valAt alpha (edge h) * lh len h / 4)) l /\
    norm2d (vecAt dirs f) <= Rsum (fun h => Rabs (valAt alpha (edge h)) * lh len h / 4) l.
Proof.
  destruct (lens_ok m V pos EB) as (len & E0 & LL & HL). pose proof (metric m V TR pos EB len LL HL) as MT. destruct (pFaceAreas_ok m V TR pos EB len LL HL) as (A & E1 & LA & HA & HA'). assert (GA : goodAreas m len A) by (split; auto). destruct (faceVectors_ok m V TR len MT A GA) as (vec & E2 & LV & HV).
  destruct (faceNormals_ok m V TR pos EB) as (nd & E3 & LN & HN & HN'). destruct (dihedralAngles_ok m V pos EB nd LN HN') as (al & E4 & L4 & _).
  assert (OKH : forall h, intH m h -> 0 < lh len h /\ norm2_2 (vecAt vec h) = lh len h * lh len h) by (intros h Kh; split; [apply MT; apply Kh|]; unfold vecAt; rewrite HV by auto; apply (vecF_spec m V TR len MT h Kh)).
  assert (Q : exists d, faceCurvatureDirections m len al vec = Ok d /\ forall f, liveF m f -> vecAt d f = Csum (bend len al vec) (ring3 m (fh m f))).
  { unfold faceCurvatureDirections. match goal with |- context [forEach _ _ ?b] => destruct (fill_all (mk2 0 0) m EFace b (fun f => Csum (bend len al vec) (ring3 m (fh m f))) EFace (mk2 0 0) V) as (d & E & LD & V1 & V2) end.
    - intros e K. apply (f_cap m V); auto.
    - intros d f _ K. cbn [liveE] in K. rewrite (ring3_face m V TR) by auto. cbn [bind]. destruct (fh_int m V f K) as [K0 F0]. destruct (bend_fold len al vec (ring3 m (fh m f)) LL L4 LV) as (s & B1 & B2 & _); [intros h Hh; apply (ring3_ok m V TR _ K0) in Hh as [Kh _]; split; [apply Kh|auto]|]. rewrite B1. cbn [bind]. rewrite B2. reflexivity.
    - exists d. auto. }
  destruct Q as (d & E6 & HD). exists len, A, vec, nd, al, d. do 6 (split; [assumption|]). intros f l K ND I.
  assert (EQ : vecAt d f = Csum (bend len al vec) l). { rewrite HD by auto. destruct (fh_int m V f K) as [K0 F0]. destruct (ring3_ok m V TR _ K0) as [N2 I2]. apply Csum_set; auto. intros a. rewrite I, I2, F0. unfold Intrinsic3.intH. tauto. }
  split; [exact EQ|]. destruct (bend_fold len al vec l LL L4 LV) as (s & _ & B2 & B3); [intros h Hh; apply I in Hh as (Kh & Xh & _); split; auto; apply OKH; split; auto|]. rewrite EQ, <- B2. exact B3.
Qed.
End M.
