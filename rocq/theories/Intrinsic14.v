From Coq Require Import Reals Lra Permutation.
From Verif Require Import Base DataModel DataSpec DataProofs MeshModel MeshSpec MeshBase MeshExec MeshOrbit MeshOpSpec MeshFlip MeshThms MeshSplit MeshHistorySpec MeshHistory MeshDataModel CollapseProofs CountSpec
  MatrixModel MatrixSpec MatrixProofs GeoModel IntrinsicModel IntrinsicSpec TangentSpec Intrinsic1 Intrinsic2 Intrinsic3 Intrinsic4 Intrinsic5 Intrinsic6 Intrinsic7 Intrinsic8 Intrinsic9 Intrinsic11 Intrinsic12 Intrinsic13.
Open Scope R_scope.
Lemma Csum_set {A} (f : A -> V2) l l' : NoDup l -> NoDup l' -> (forall a, In a l <-> In a l') -> Csum f l = Csum f l'.
Proof. intros N N' I. unfold Csum. f_equal; apply Rsum_set; auto. Qed.
Lemma ctotalZ m k g : Valid m -> ctotal g (els m k) = Csum g (zl m k).
Proof. intros V. unfold ctotal, Csum, zl. rewrite !Rsum_map. reflexivity. Qed.
Section M.
Context (m : mesh) (V : Valid m) (TR : triangular m) (len : mdata R) (MT : Metric m len).
Let CN := va_cn m V.
Lemma areaH_uniq h B : intH m h -> areaAt m len h B -> areaH m len h = B.
Proof. intros K HB. refine (isArea_unique _ _ _ _ _ _ _ (area_is m V TR len MT h K) HB); apply MT; [apply K|]. apply (intH_nx m V), (intH_nx m V). auto. Qed.
Lemma acrossRot vec tr : (forall h, intH m h -> at_ (mk2 0 0) vec h = vecF m len h) -> (forall h, liveH m h -> ~ ext m h -> ~ ext m (tw h) -> at_ (mk2 0 0) tr h = trv vec h) ->
  forall h, liveH m h -> ~ ext m h -> ~ ext m (tw h) -> rotates (vecAt vec) (vecAt tr) h.
Proof.
  intros HV HT h K X XT. pose proof (cn_tw _ CN h K) as KT. assert (P : pairs_ok vec len h).
  { split; [apply MT; auto|]. rewrite !HV by (split; auto). split; [apply (vecF_spec m V TR len MT h (conj K X))|]. replace (lh len h * lh len h) with (lh len (tw h) * lh len (tw h)) by (unfold lh; rewrite tw_edge; reflexivity). apply (vecF_spec m V TR len MT (tw h) (conj KT XT)). }
  destruct (trv_spec vec len h P) as (N & C & M). unfold rotates, vecAt. rewrite (HT h) by auto. rewrite (HT (tw h)) by (auto; rewrite tw_tw; auto). auto.
Qed.
Lemma alongRot C vec tr : (forall h, liveH m h -> at_ (mk2 0 0) vec h = vecV m len C h) -> (forall h, liveH m h -> at_ (mk2 0 0) tr h = trv vec h) -> forall h, liveH m h -> rotates (vecAt vec) (vecAt tr) h.
Proof.
  intros HV HT h K. pose proof (cn_tw _ CN h K) as KT. assert (P : pairs_ok vec len h).
  { split; [apply MT; auto|]. rewrite !HV by auto. split; [apply (vecV_norm m len C h K)|]. replace (lh len h * lh len h) with (lh len (tw h) * lh len (tw h)) by (unfold lh; rewrite tw_edge; reflexivity). apply (vecV_norm m len C (tw h) KT). }
  destruct (trv_spec vec len h P) as (N & CC & M). unfold rotates, vecAt. rewrite (HT h), (HT (tw h)) by auto. auto.
Qed.
Lemma scaled_pack : exists A S C, cornerAngles m len = Ok A /\ vertexAngleSums m A = Ok S /\ cornerScaledAngles m A S = Ok C /\ length (dat C) = Z.to_nat (heCap m) /\ (forall h, intH m h -> 0 < valAt C h) /\ (forall v, liveV m v -> Rsum (valAt C) (cornersAt m v) = turn m v).
Proof.
  destruct (cornerAngles_ok m V TR len MT) as (A & EA & LA & HA). destruct (sums_ok m V A LA) as (S & ES & LS & HS). destruct (scaled_ok m V A S LA LS) as (C & EC & LC & HC). exists A, S, C. split; auto. split; auto. split; auto. split; auto. split.
  - intros h K. rewrite (HC h) by auto. assert (Lv : liveV m (ve m h)) by (apply (cn_ve _ CN); apply K). pose proof (vSum_pos m V TR len MT _ Lv) as P.
    replace (Rsum (angH m len) (cornersAt m (ve m h))) with (valAt S (ve m h)) in P. 2: { rewrite HS by auto. apply Rsum_ext. intros x Hx. apply cornersAt_ok in Hx as (X1 & X2 & _); auto. rewrite HA by (split; auto). reflexivity. }
    rewrite HA by auto. pose proof (angH_pos m V TR len MT h K). pose proof PI_RGT_0. apply Rmult_lt_0_compat; [|lra]. destruct (bdb m (ve m h)); apply Rdiv_lt_0_compat; lra.
  - intros v Lv. apply (scaled_sum m V TR len MT A S C v); auto.
Qed.
End M.
Lemma face_vectors_all : forall m len, Valid m -> triangular m -> Metric m len ->
  exists areas vec, faceAreas m len = Ok areas /\ halfedgeVectorsInFace m len areas = Ok vec /\
    (forall h, liveH m h -> ~ ext m h -> norm2_2 (vecAt vec h) = lh len h * lh len h /\ add2 (add2 (vecAt vec h) (vecAt vec (nx m h))) (vecAt vec (nx m (nx m h))) = mk2 0 0 /\
       (exists A, areaAt m len h A) /\ forall A, areaAt m len h A -> cross2 (vecAt vec h) (vecAt vec (nx m h)) = 2 * A) /\
    (forall f, liveF m f -> vecAt vec (fh m f) = mk2 (lh len (fh m f)) 0).
Proof.
  intros m len V TR MT. destruct (faceAreas_ok m V TR len MT) as (A & EA & LA & HA & HF). assert (GA : goodAreas m len A) by (split; auto). destruct (faceVectors_ok m V TR len MT A GA) as (vec & EV & LV & HV). exists A, vec. split; auto. split; auto. split.
  - intros h K X. assert (KI : intH m h) by (split; auto). pose proof (intH_nx m V h KI) as K1. pose proof (intH_nx m V _ K1) as K2. unfold vecAt. rewrite !HV by auto. destruct (vecF_spec m V TR len MT h KI) as (N & S & C). split; auto. split; auto.
    split; [exists (areaH m len h); apply (area_is m V TR len MT); auto|]. intros B HB. rewrite C. f_equal. apply (areaH_uniq m V TR len MT h B KI HB).
  - intros f Lf. destruct (fh_int m V f Lf) as [K0 F0]. unfold vecAt. rewrite HV by auto. unfold vecF. rewrite F0. unfold layoutFace. cbv zeta. rewrite Z.eqb_refl. reflexivity.
Qed.
Lemma transport_across_all : forall m len, Valid m -> triangular m -> Metric m len ->
  exists areas vec tr, faceAreas m len = Ok areas /\ halfedgeVectorsInFace m len areas = Ok vec /\ transportAcross m vec = Ok tr /\
    forall h, liveH m h -> ~ ext m h -> ~ ext m (tw h) -> rotates (vecAt vec) (vecAt tr) h.
Proof.
  intros m len V TR MT. destruct (faceAreas_ok m V TR len MT) as (A & EA & LA & HA & HF). assert (GA : goodAreas m len A) by (split; auto). destruct (faceVectors_ok m V TR len MT A GA) as (vec & EV & LV & HV). destruct (across_ok m V vec LV) as (tr & ET & LT & HT). exists A, vec, tr. split; auto. split; auto. split; auto.
  intros h K X XT. apply (acrossRot m V TR len MT vec tr HV HT); auto.
Qed.
Lemma vertex_vectors_all : forall m len, Valid m -> triangular m -> Metric m len ->
  exists angles sums scaled vec, cornerAngles m len = Ok angles /\ vertexAngleSums m angles = Ok sums /\ cornerScaledAngles m angles sums = Ok scaled /\ halfedgeVectorsInVertex m len scaled = Ok vec /\
    exists theta : Z -> R,
      (forall h, liveH m h -> vecAt vec h = mul2 (fromAngle (theta h)) (lh len h) /\ 0 <= theta h < 2 * PI) /\
      (forall v, liveV m v -> theta (vh m v) = 0) /\
      (forall h, liveH m h -> ~ ext m h -> theta (ccwNext m h) = theta h + valAt scaled h \/ ccwNext m h = vh m (ve m h) /\ theta h + valAt scaled h = 2 * PI) /\
      (forall h, liveH m h -> ext m h -> theta h = PI).
Proof.
  intros m len V TR MT. destruct (scaled_pack m V TR len MT) as (A & S & C & EA & ES & EC & LC & PC & SC). destruct (vertexVectors_ok m V TR len MT C LC) as (vec & EV & LV & HV). exists A, S, C, vec. split; auto. split; auto. split; auto. split; auto.
  exists (theta m C). split; [|split; [|split]].
  - intros h K. split; [unfold vecAt; rewrite HV by auto; reflexivity|]. apply (theta_range m V C PC SC); auto.
  - intros v Lv. apply (theta_first m V C); auto.
  - intros h K X. apply (theta_step m V TR C SC h (conj K X)).
  - intros h K X. apply (theta_ext m V C SC); auto.
Qed.
Lemma transport_along_all : forall m len, Valid m -> triangular m -> Metric m len ->
  exists angles sums scaled vec tr, cornerAngles m len = Ok angles /\ vertexAngleSums m angles = Ok sums /\ cornerScaledAngles m angles sums = Ok scaled /\ halfedgeVectorsInVertex m len scaled = Ok vec /\ transportAlong m vec = Ok tr /\
    forall h, liveH m h -> rotates (vecAt vec) (vecAt tr) h.
Proof.
  intros m len V TR MT. destruct (scaled_pack m V TR len MT) as (A & S & C & EA & ES & EC & LC & PC & SC). destruct (vertexVectors_ok m V TR len MT C LC) as (vec & EV & LV & HV). destruct (along_ok m V vec LV) as (tr & ET & LT & HT). exists A, S, C, vec, tr. split; auto. split; auto. split; auto. split; auto. split; auto.
  intros h K. apply (alongRot m V len MT C vec tr HV HT); auto.
Qed.
Lemma vertex_connection_all : forall m len, Valid m -> triangular m -> Metric m len ->
  exists areas w angles sums scaled vec tr L vs hs, faceAreas m len = Ok areas /\ edgeCotanWeights m len areas = Ok w /\
    cornerAngles m len = Ok angles /\ vertexAngleSums m angles = Ok sums /\ cornerScaledAngles m angles sums = Ok scaled /\ halfedgeVectorsInVertex m len scaled = Ok vec /\ transportAlong m vec = Ok tr /\
    vertexConnectionLaplacian m w tr = Ok L /\ elements m EVertex = Ok vs /\ elements m EHalfedge = Ok hs /\ rows L = Z.to_nat (nVertices m) /\ cols L = Z.to_nat (nVertices m) /\
    let el := entryAt (mk2 0 0) m EVertex EVertex L in let r := vecAt tr in
    (forall a b, liveV m a -> liveV m b -> el a b = conj2 (el b a)) /\
    (forall (x : Z -> V2) v out, liveV m v -> leaving m v out ->
       ctotal (fun u => cmul (el v u) (x u)) vs = Csum (fun h => mul2 (sub2 (x v) (cmul (r (tw h)) (x (ve m (tw h))))) (valAt w (edge h))) out) /\
    (forall x : Z -> V2, 2 * total (fun v => dot2 (x v) (ctotal (fun u => cmul (el v u) (x u)) vs)) vs = total (fun h => valAt w (edge h) * norm2_2 (sub2 (x (ve m h)) (cmul (r (tw h)) (x (ve m (tw h)))))) hs) /\
    ((forall h, liveH m h -> 0 <= valAt w (edge h)) -> forall x : Z -> V2, 0 <= total (fun v => dot2 (x v) (ctotal (fun u => cmul (el v u) (x u)) vs)) vs).
Proof.
  intros m len V TR MT. destruct (faceAreas_ok m V TR len MT) as (A & EA & LA & HA & HF). assert (GA : goodAreas m len A) by (split; auto). destruct (edgeWeights_ok m V TR len MT A GA) as (w & EW & LW & HW).
  destruct (scaled_pack m V TR len MT) as (An & S & C & EAn & ES & EC & LC & PC & SC). destruct (vertexVectors_ok m V TR len MT C LC) as (vec & EV & LV & HV). destruct (along_ok m V vec LV) as (tr & ET & LT & HT). destruct (vconn_ok m V w tr LW LT) as (L & EL & RR & CC & SX & SY).
  destruct (els_ok m EVertex V) as (EVs & _). destruct (els_ok m EHalfedge V) as (EHs & _). exists A, w, An, S, C, vec, tr, L, (els m EVertex), (els m EHalfedge). do 12 (split; [auto; fail|]). intros el r.
  assert (RO : forall h, liveH m h -> rotates (vecAt vec) r h) by (intros h K; apply (alongRot m V len MT C vec tr HV HT); auto).
  set (hs := zl m EHalfedge). assert (ND : NoDup hs) by (apply zl_NoDup; auto). assert (TW : forall h, In h hs -> In (tw h) hs) by (intros h Hh; apply zl_In in Hh; auto; apply zl_In; auto; apply (cn_tw _ (va_cn m V)); auto). assert (LL : forall h, In h hs -> liveE m EVertex (ve m h)) by (intros h Hh; apply zl_In in Hh; auto; apply (cn_ve _ (va_cn m V)); auto).
  assert (WT : forall h, valAt w (edge (tw h)) = valAt w (edge h)) by (intros h; rewrite tw_edge; auto). assert (RU : forall h, In h hs -> norm2_2 (r h) = 1) by (intros h Hh; apply zl_In in Hh; auto; apply RO; auto). assert (RC : forall h, In h hs -> r (tw h) = conj2 (r h)) by (intros h Hh; apply zl_In in Hh; auto; apply RO; auto).
  assert (CT : forall g, ctotal g (els m EVertex) = Csum g (zl m EVertex)) by (intros g; apply ctotalZ; auto).
  assert (TZ : forall g k, total g (els m k) = Rsum g (zl m k)) by (intros g k; apply totalZ; auto; apply els_ok; auto).
  assert (QF : forall x : Z -> V2, total (fun v => dot2 (x v) (ctotal (fun u => cmul (el v u) (x u)) (els m EVertex))) (els m EVertex) = Rsum (fun u => dot2 (x u) (Csum (fun v => cmul (el u v) (x v)) (zl m EVertex))) (zl m EVertex)).
  { intros x. rewrite TZ. apply Rsum_ext. intros v _. rewrite CT. reflexivity. }
  split; [|split; [|split]].
  - intros a b La Lb. apply (conn_herm m EVertex hs (ve m) (fun h => valAt w (edge h)) r el ND TW WT RC SX SY); auto.
  - intros x v out Lv [N I]. rewrite CT. etransitivity; [apply (conn_action m V EVertex hs (ve m) (fun h => valAt w (edge h)) r el TW LL SX SY x v Lv)|].
    transitivity (Csum (step (ve m) (fun h => valAt w (edge h)) r x) out); [|apply Csum_ext; intros h Hh; apply I in Hh as [_ Q]; unfold step; rewrite Q; reflexivity]. apply Csum_set; auto; [apply filter_NoDup; auto|]. intros h. rewrite filter_In. unfold hs. rewrite zl_In, I, Z.eqb_eq by auto. reflexivity.
  - intros x. rewrite QF. rewrite TZ. apply (conn_energy m V EVertex hs (ve m) (fun h => valAt w (edge h)) r el ND TW LL WT RU RC SX SY).
  - intros P x. rewrite QF. apply (conn_psd m V EVertex hs (ve m) (fun h => valAt w (edge h)) r el ND TW LL WT RU RC SX SY). intros h Hh. apply zl_In in Hh; auto.
Qed.
Lemma face_connection_all : forall m len, Valid m -> triangular m -> Metric m len ->
  exists areas vec tr L fs, faceAreas m len = Ok areas /\ halfedgeVectorsInFace m len areas = Ok vec /\ transportAcross m vec = Ok tr /\ faceConnectionLaplacian m tr = Ok L /\ elements m EFace = Ok fs /\
    rows L = Z.to_nat (nFaces m) /\ cols L = Z.to_nat (nFaces m) /\
    let el := entryAt (mk2 0 0) m EFace EFace L in let r := vecAt tr in
    (forall f g, liveF m f -> liveF m g -> el f g = conj2 (el g f)) /\
    (forall (x : Z -> V2) f sides, liveF m f -> facing m f sides ->
       ctotal (fun g => cmul (el f g) (x g)) fs = Csum (fun h => sub2 (x f) (cmul (r (tw h)) (x (fa m (tw h))))) sides) /\
    (forall x : Z -> V2, 0 <= total (fun f => dot2 (x f) (ctotal (fun g => cmul (el f g) (x g)) fs)) fs) /\
    (forall x : Z -> V2, total (fun f => dot2 (x f) (ctotal (fun g => cmul (el f g) (x g)) fs)) fs = 0 <->
       forall h, liveH m h -> ~ ext m h -> ~ ext m (tw h) -> x (fa m (tw h)) = cmul (r h) (x (fa m h))).
Proof.
  intros m len V TR MT. destruct (faceAreas_ok m V TR len MT) as (A & EA & LA & HA & HF). assert (GA : goodAreas m len A) by (split; auto). destruct (faceVectors_ok m V TR len MT A GA) as (vec & EV & LV & HV). destruct (across_ok m V vec LV) as (tr & ET & LT & HT). destruct (fconn_ok m V TR tr LT) as (L & EL & RR & CC & SX & SY).
  destruct (els_ok m EFace V) as (EFs & _). exists A, vec, tr, L, (els m EFace). do 7 (split; [auto; fail|]). intros el r.
  assert (RO : forall h, In h (innerH m) -> rotates (vecAt vec) r h) by (intros h Hh; apply (innerH_In m V) in Hh as (K & X & XT); apply (acrossRot m V TR len MT vec tr HV HT); auto).
  set (hs := innerH m) in *. assert (ND : NoDup hs) by (apply filter_NoDup, zl_NoDup; auto). assert (TW : forall h, In h hs -> In (tw h) hs) by (apply innerH_tw; auto). assert (LL : forall h, In h hs -> liveE m EFace (fa m h)) by (intros h Hh; apply (innerH_In m V) in Hh as (K & X & XT); apply (fa_liveF m V); split; auto).
  assert (RU : forall h, In h hs -> norm2_2 (r h) = 1) by (intros h Hh; apply RO; auto). assert (RC : forall h, In h hs -> r (tw h) = conj2 (r h)) by (intros h Hh; apply RO; auto).
  assert (CT : forall g, ctotal g (els m EFace) = Csum g (zl m EFace)) by (intros g; apply ctotalZ; auto).
  assert (TZ : forall g, total g (els m EFace) = Rsum g (zl m EFace)) by (intros g; apply totalZ; auto; apply els_ok; auto).
  assert (QF : forall x : Z -> V2, total (fun v => dot2 (x v) (ctotal (fun u => cmul (el v u) (x u)) (els m EFace))) (els m EFace) = Rsum (fun u => dot2 (x u) (Csum (fun v => cmul (el u v) (x v)) (zl m EFace))) (zl m EFace)).
  { intros x. rewrite TZ. apply Rsum_ext. intros v _. rewrite CT. reflexivity. }
  assert (WT : forall h : Z, (fun _ : Z => 1) (tw h) = (fun _ : Z => 1) h) by reflexivity.
  split; [|split; [|split]].
  - intros a b La Lb. apply (conn_herm m EFace hs (fa m) (fun _ => 1) r el ND TW WT RC SX SY); auto.
  - intros x v out Lv [N I]. rewrite CT. etransitivity; [apply (conn_action m V EFace hs (fa m) (fun _ => 1) r el TW LL SX SY x v Lv)|].
    transitivity (Csum (step (fa m) (fun _ => 1) r x) out); [|apply Csum_ext; intros h Hh; apply I in Hh as (_ & _ & _ & Q); unfold step; rewrite Q; apply V2_eq; cbn [px py mul2]; ring]. apply Csum_set; auto; [apply filter_NoDup; auto|]. intros h. rewrite filter_In. unfold hs. rewrite (innerH_In m V), I, Z.eqb_eq by auto. tauto.
  - intros x. rewrite QF. apply (conn_psd m V EFace hs (fa m) (fun _ => 1) r el ND TW LL WT RU RC SX SY). intros; lra.
  - intros x. rewrite QF. etransitivity; [apply (conn_kernel m V EFace hs (fa m) (fun _ => 1) r el ND TW LL WT RU RC SX SY x); intros; lra|]. split.
    + intros H h K X XT. assert (Hh : In h hs) by (apply (innerH_In m V); auto). pose proof (H (tw h) (TW h Hh)) as Q. rewrite tw_tw in Q. exact Q.
    + intros H h Hh. pose proof (TW h Hh) as HT'. apply (innerH_In m V) in HT' as (K & X & XT). pose proof (H (tw h) K X XT) as Q. rewrite tw_tw in Q. exact Q.
Qed.
