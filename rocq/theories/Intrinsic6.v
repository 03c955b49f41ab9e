From Coq Require Import Reals Lra Permutation.
From Verif Require Import Base DataModel DataSpec DataProofs MeshModel MeshSpec MeshBase MeshExec MeshOrbit MeshOpSpec MeshFlip MeshThms MeshSplit MeshHistorySpec MeshHistory MeshDataModel CollapseProofs CountSpec
  MatrixModel MatrixSpec MatrixProofs GeoModel IntrinsicModel IntrinsicSpec Intrinsic1 Intrinsic2 Intrinsic3 Intrinsic4 Intrinsic5.
Open Scope R_scope.
Section M.
Context (m : mesh) (V : Valid m) (TR : triangular m) (len : mdata R) (MT : Metric m len).
Let CN := va_cn m V.
Local Notation intH := (intH m).
Local Notation angH := (angH m len).
Local Notation areaH := (areaH m len).
Definition turn (v : Z) : R := if bdb m v then PI else 2 * PI.
Lemma sum_turn : Rsum turn (zl m EVertex) = 2 * PI * IZR (nVertices m) - PI * INR (length (filter (bdb m) (zl m EVertex))).
Proof.
  pose proof (zl_len m V EVertex) as LV. change (nElements m EVertex) with (nVertices m) in LV. rewrite <- LV. clear LV. unfold turn.
  induction (zl m EVertex) as [|v t IH] ; cbn [filter length]; [rewrite Rsum_nil; cbn; lra|]. rewrite Rsum_cons. rewrite S_INR.
  destruct (bdb m v); cbn [length]; [rewrite S_INR|]; rewrite IH; lra.
Qed.
Lemma euler_turn : Rsum turn (zl m EVertex) - PI * IZR (nFaces m) = 2 * PI * IZR (euler m).
Proof.
  rewrite sum_turn. pose proof (edge_count m V TR) as E. unfold euler. rewrite plus_IZR, minus_IZR. 
  replace (2 * PI * (IZR (nVertices m) - IZR (nEdges m) + IZR (nFaces m))) with (2 * PI * IZR (nVertices m) - PI * (2 * IZR (nEdges m)) + 2 * PI * IZR (nFaces m)) by ring. rewrite E. ring.
Qed.
Lemma sum_angles : Rsum angH (zl m ECorner) = PI * IZR (nFaces m).
Proof.
  rewrite (sum_faces m V TR). rewrite (Rsum_ext _ (fun _ => PI)).
  - rewrite Rsum_const. pose proof (zl_len m V EFace) as LF. change (nElements m EFace) with (nFaces m) in LF. rewrite LF. ring.
  - intros f Hf. apply zl_In in Hf; auto. destruct (fh_int m V f Hf) as [K0 _]. rewrite sum_ring3. apply (angH_sum m V TR len MT). auto.
Qed.
Lemma boundary_list bs : NoDup bs -> (forall v, In v bs <-> liveV m v /\ onBoundary m v) -> forall g : Z -> R, Rsum g bs = Rsum (fun v => if bdb m v then g v else 0) (zl m EVertex).
Proof.
  intros N I g. rewrite Rsum_if. apply Rsum_set; auto; [apply filter_NoDup, zl_NoDup; auto|]. intros v. rewrite I, filter_In, zl_In by auto. cbn. split; intros [A B]; split; auto; apply (bdb_spec m V); auto.
Qed.
Lemma angleSum v l : liveV m v -> cornersOf m v l -> Rsum angH l = Rsum angH (cornersAt m v).
Proof. intros. apply (cornersOf_sum m V). auto. Qed.
Lemma gauss_bonnet ang sums K bs :
  (forall h, intH h -> valAt ang h = angH h) -> (forall v, liveV m v -> valAt sums v = Rsum (valAt ang) (cornersAt m v)) -> (forall v, liveV m v -> valAt K v = if bdb m v then 0 else 2 * PI - valAt sums v) ->
  NoDup bs -> (forall v, In v bs <-> liveV m v /\ onBoundary m v) ->
  Rsum (valAt K) (zl m EVertex) + Rsum (fun v => PI - valAt sums v) bs = 2 * PI * IZR (euler m).
Proof.
  intros HA HS HK N I. rewrite (boundary_list bs N I). rewrite <- Rsum_plus. rewrite (Rsum_ext _ (fun v => turn v - Rsum angH (cornersAt m v))).
  - rewrite Rsum_minus, <- (sum_vertices m V), sum_angles. apply euler_turn.
  - intros v Hv. apply zl_In in Hv; auto. cbn in Hv. rewrite HK, HS by auto. unfold turn. rewrite (Rsum_ext (valAt ang) angH) by (intros h Hh; apply HA; apply cornersAt_ok in Hh; auto; split; apply Hh). destruct (bdb m v); lra.
Qed.
Lemma scaled_sum ang sums sc v : (forall h, intH h -> valAt ang h = angH h) -> (forall v, liveV m v -> valAt sums v = Rsum (valAt ang) (cornersAt m v)) ->
  (forall h, intH h -> valAt sc h = (if bdb m (ve m h) then PI / valAt sums (ve m h) else 2 * PI / valAt sums (ve m h)) * valAt ang h) -> liveV m v -> Rsum (valAt sc) (cornersAt m v) = turn v.
Proof.
  intros HA HS HC Lv. pose proof (vSum_pos m V TR len MT v Lv) as P.
  assert (E : valAt sums v = Rsum angH (cornersAt m v)). { rewrite HS by auto. apply Rsum_ext. intros h Hh. apply HA; apply cornersAt_ok in Hh; auto; split; apply Hh. }
  rewrite (Rsum_ext _ (fun h => turn v / valAt sums v * angH h)).
  - rewrite Rsum_scal, <- E. field. rewrite E. lra.
  - intros h Hh. apply cornersAt_ok in Hh as (A & B & C); auto. rewrite HC by (split; auto). rewrite C, HA by (split; auto). unfold turn. destruct (bdb m v); reflexivity.
Qed.
Lemma face_gauss_bonnet ang sums sc K : (forall h, intH h -> valAt ang h = angH h) -> (forall v, liveV m v -> valAt sums v = Rsum (valAt ang) (cornersAt m v)) ->
  (forall h, intH h -> valAt sc h = (if bdb m (ve m h) then PI / valAt sums (ve m h) else 2 * PI / valAt sums (ve m h)) * valAt ang h) ->
  (forall f, liveF m f -> valAt K f = Rsum (valAt sc) (ring3 m (fh m f)) - PI) -> Rsum (valAt K) (zl m EFace) = 2 * PI * IZR (euler m).
Proof.
  intros HA HS HC HK. rewrite (Rsum_ext _ (fun f => Rsum (valAt sc) (ring3 m (fh m f)) - PI)) by (intros f Hf; apply zl_In in Hf; auto).
  rewrite Rsum_minus, <- (sum_faces m V TR), (sum_vertices m V). rewrite (Rsum_ext _ turn).
  - rewrite Rsum_const. pose proof (zl_len m V EFace) as LF. change (nElements m EFace) with (nFaces m) in LF. rewrite LF. rewrite <- euler_turn. ring.
  - intros v Hv. apply zl_In in Hv; auto. apply (scaled_sum ang sums); auto.
Qed.
(** immediate versions *)
Lemma vertexDualArea_ok v : liveV m v -> vertexDualArea m len v = Ok (Rsum (fun h => areaH h / 3) (cornersAt m v)).
Proof.
  intros Lv. destruct (corners_circulated m V v Lv) as (hs & hs' & E1 & E2 & C). unfold vertexDualArea. rewrite E1. cbn [bind]. rewrite E2. cbn [bind].
  rewrite (foldM_same _ (fun a h => let* x := (let* f := faceOf m h in faceArea m len f) in Ok (a + x))) by (intros s a; destruct (faceOf m a) as [f| |]; cbn; auto; destruct (faceArea m len f); auto).
  rewrite (foldM_sum (fun h => let* f := faceOf m h in faceArea m len f) areaH Rplus). 2: { intros h Hh. apply C in Hh as (A & B & _). assert (K : intH h) by (split; auto). rewrite faceOf_ok by (destruct (liveH_bnd m V h A) as (_ & _ & _ & ?); auto).
    cbn [bind]. change (getZ (heFace m) h) with (fa m h). rewrite (faceArea_ok m V TR len MT) by (apply fa_liveF; auto). rewrite (areaH_face m V TR) by auto. reflexivity. }
  cbn [bind]. rewrite fold_plus, Rsum_map. f_equal. rewrite (cornersOf_sum m V _ v) by auto. rewrite (Rsum_ext (fun h => areaH h / 3) (fun h => / 3 * areaH h)) by (intros; field). rewrite Rsum_scal. rewrite (Rsum_ext (fun a : Z => areaH a) areaH) by auto. field.
Qed.
Lemma vertexGaussianCurvature_ok v : liveV m v -> vertexGaussianCurvature m len v = Ok (if bdb m v then 0 else 2 * PI - Rsum angH (cornersAt m v)).
Proof.
  intros Lv. unfold vertexGaussianCurvature. rewrite (vIsB m V) by auto. cbn [bind]. destruct (bdb m v); auto. destruct (corners_circulated m V v Lv) as (hs & hs' & E1 & E2 & C). rewrite E1. cbn [bind]. rewrite E2. cbn [bind].
  rewrite (foldM_sum (cornerAngle m len) angH Rminus). 2: { intros h Hh. apply C in Hh as (A & B & _). apply (cornerAngle_ok m V TR len MT). split; auto. }
  rewrite fold_minus, Rsum_map. f_equal. f_equal. apply (cornersOf_sum m V). auto.
Qed.
Lemma total_dual areas d : (forall v, liveV m v -> valAt d v = Rsum (fun h => valAt areas (fa m h) / 3) (cornersAt m v)) -> Rsum (valAt d) (zl m EVertex) = Rsum (valAt areas) (zl m EFace).
Proof.
  intros H. rewrite (Rsum_ext _ (fun v => Rsum (fun h => valAt areas (fa m h) / 3) (cornersAt m v))) by (intros v Hv; apply zl_In in Hv; auto).
  rewrite <- (sum_vertices m V), (sum_faces m V TR). apply Rsum_ext. intros f Hf. apply zl_In in Hf; auto. destruct (fh_int m V f Hf) as [K0 F0].
  rewrite (Rsum_ext _ (fun _ => valAt areas f / 3)). 2: { intros h Hh. apply (ring3_ok m V TR _ K0) in Hh as [_ Q]. rewrite Q, F0. reflexivity. }
  rewrite Rsum_const. unfold ring3. cbn [length INR]. field.
Qed.
End M.
Lemma totalZ m k (g : Z -> R) l : elements m k = Ok l -> total g l = Rsum g (zl m k).
Proof. intros E. rewrite total_map. unfold zl, els. rewrite E. reflexivity. Qed.
Section Top.
Context (m : mesh) (len : mdata R) (V : Valid m) (TR : triangular m) (MT : Metric m len).
Let P3 (h : Z) (K : intH m h) := conj K (conj (intH_nx m V h K) (intH_nx m V _ (intH_nx m V h K))).
Lemma onB v : liveV m v -> (onBoundary m v -> bdb m v = true) /\ (~ onBoundary m v -> bdb m v = false).
Proof. intros Lv. pose proof (bdb_spec m V v Lv) as X. destruct (bdb m v); split; intros; auto; [tauto|destruct X; auto]. Qed.
Lemma corner_angles : exists angles, cornerAngles m len = Ok angles /\
    forall h, liveH m h -> ~ ext m h -> angleAt m len h (valAt angles h) /\ cornerAngle m len h = Ok (valAt angles h) /\
      (forall t, angleAt m len h t -> valAt angles h = t) /\
      valAt angles h + valAt angles (nx m h) + valAt angles (nx m (nx m h)) = PI.
Proof.
  destruct (cornerAngles_ok m V TR len MT) as (d & E & Ld & H). exists d. split; auto. intros h L X. destruct (P3 h (conj L X)) as (K & K1 & K2). rewrite !H by auto. split; [apply (angH_is m V TR); auto|]. split; [apply (cornerAngle_ok m V TR); auto|].
  split; [|apply (angH_sum m V TR); auto]. intros t Ht. unfold angleAt in *. pose proof (angH_is m V TR len MT h K) as A. unfold angleAt in A. pose proof (mt_pos _ _ MT _ (proj1 K)). pose proof (mt_pos _ _ MT _ (proj1 K2)). refine (isAngle_unique _ _ _ _ _ _ _ A Ht); auto.
Qed.
Lemma areas_all : exists areas dual, faceAreas m len = Ok areas /\ vertexDualAreas m areas = Ok dual /\
    (forall h, liveH m h -> ~ ext m h -> 0 < valAt areas (fa m h) /\ areaAt m len h (valAt areas (fa m h)) /\ (forall A, areaAt m len h A -> valAt areas (fa m h) = A)) /\
    (forall f, liveF m f -> faceArea m len f = Ok (valAt areas f)) /\
    (forall v l, liveV m v -> cornersOf m v l -> valAt dual v = Rsum (fun h => valAt areas (fa m h)) l / 3) /\
    (forall v, liveV m v -> 0 < valAt dual v /\ vertexDualArea m len v = Ok (valAt dual v)) /\
    (forall vs fs, elements m EVertex = Ok vs -> elements m EFace = Ok fs -> total (valAt dual) vs = total (valAt areas) fs).
Proof.
  destruct (faceAreas_ok m V TR len MT) as (A & EA & LA & HA & HF). destruct (dual_ok m V TR A LA) as (D & ED & LD & HD). exists A, D. split; auto. split; auto. split; [|split; [|split; [|split]]].
  - intros h L X. destruct (P3 h (conj L X)) as (K & K1 & K2). rewrite HA by auto. split; [apply (areaH_pos m V TR len MT); auto|]. pose proof (area_is m V TR len MT h K) as Q. split; auto. intros B HB. unfold areaAt in *. pose proof (mt_pos _ _ MT _ (proj1 K)). pose proof (mt_pos _ _ MT _ (proj1 K2)). refine (isArea_unique _ _ _ _ _ _ _ Q HB); auto.
  - intros f Lf. rewrite HF by auto. apply (faceArea_ok m V TR len MT); auto.
  - intros v l Lv C. rewrite HD by auto. rewrite (cornersOf_sum m V _ v l C). rewrite (Rsum_ext _ (fun h => / 3 * valAt A (fa m h))) by (intros; field). rewrite Rsum_scal. field.
  - intros v Lv. assert (Q : valAt D v = Rsum (fun h => areaH m len h / 3) (cornersAt m v)).
    { rewrite HD by auto. apply Rsum_ext. intros h Hh. apply cornersAt_ok in Hh as (X1 & X2 & _); auto. rewrite HA by (split; auto). reflexivity. }
    split; [|rewrite (vertexDualArea_ok m V TR len MT) by auto; congruence]. rewrite Q. pose proof (vSum_pos m V TR len MT v Lv) as P. apply Rsum_pos.
    + intros N. rewrite N, Rsum_nil in P. lra.
    + intros h Hh. apply cornersAt_ok in Hh as (X1 & X2 & _); auto. pose proof (areaH_pos m V TR len MT h (conj X1 X2)). lra.
  - intros vs fs E1 E2. rewrite (totalZ _ _ _ _ E1), (totalZ _ _ _ _ E2). apply (total_dual m V TR). auto.
Qed.
Lemma curvature_all : exists angles sums K, cornerAngles m len = Ok angles /\ vertexAngleSums m angles = Ok sums /\ vertexGaussianCurvatures m sums = Ok K /\
    (forall v l, liveV m v -> cornersOf m v l -> valAt sums v = Rsum (valAt angles) l) /\
    (forall v, liveV m v -> (onBoundary m v -> valAt K v = 0) /\ (~ onBoundary m v -> valAt K v = 2 * PI - valAt sums v) /\ vertexGaussianCurvature m len v = Ok (valAt K v)) /\
    (forall vs bs, elements m EVertex = Ok vs -> NoDup bs -> (forall v, In v bs <-> liveV m v /\ onBoundary m v) ->
      total (valAt K) vs + Rsum (fun v => PI - valAt sums v) bs = 2 * PI * IZR (euler m)).
Proof.
  destruct (cornerAngles_ok m V TR len MT) as (A & EA & LA & HA). destruct (sums_ok m V A LA) as (S & ES & LS & HS). destruct (gauss_ok m V S LS) as (K & EK & LK & HK).
  exists A, S, K. split; auto. split; auto. split; auto. split; [|split].
  - intros v l Lv C. rewrite HS by auto. symmetry. apply (cornersOf_sum m V); auto.
  - intros v Lv. rewrite HK by auto. destruct (onB v Lv) as [B1 B2]. split; [intros Q; rewrite B1; auto|]. split; [intros Q; rewrite B2; auto|]. rewrite (vertexGaussianCurvature_ok m V TR len MT) by auto.
    f_equal. destruct (bdb m v); auto. f_equal. rewrite HS by auto. apply Rsum_ext. intros h Hh. apply cornersAt_ok in Hh as (X1 & X2 & _); auto. rewrite HA by (split; auto). reflexivity.
  - intros vs bs E N I. rewrite (totalZ _ _ _ _ E). apply (gauss_bonnet m V TR len MT A); auto.
Qed.
Lemma scaled_all : exists angles sums scaled K, cornerAngles m len = Ok angles /\ vertexAngleSums m angles = Ok sums /\ cornerScaledAngles m angles sums = Ok scaled /\ faceGaussianCurvatures m scaled = Ok K /\
    (forall v l, liveV m v -> cornersOf m v l -> (onBoundary m v -> Rsum (valAt scaled) l = PI) /\ (~ onBoundary m v -> Rsum (valAt scaled) l = 2 * PI)) /\
    (forall h h', liveH m h -> ~ ext m h -> liveH m h' -> ~ ext m h' -> ve m h = ve m h' -> 0 < valAt scaled h /\ valAt scaled h * valAt angles h' = valAt scaled h' * valAt angles h) /\
    (forall h, liveH m h -> ~ ext m h -> valAt K (fa m h) = valAt scaled h + valAt scaled (nx m h) + valAt scaled (nx m (nx m h)) - PI) /\
    (forall fs, elements m EFace = Ok fs -> total (valAt K) fs = 2 * PI * IZR (euler m)).
Proof.
  destruct (cornerAngles_ok m V TR len MT) as (A & EA & LA & HA). destruct (sums_ok m V A LA) as (S & ES & LS & HS). destruct (scaled_ok m V A S LA LS) as (C & EC & LC & HC). destruct (faceGauss_ok m V TR C LC) as (K & EK & LK & HK).
  exists A, S, C, K. split; auto. split; auto. split; auto. split; auto. split; [|split; [|split]].
  - intros v l Lv Cv. rewrite (cornersOf_sum m V _ v l Cv). rewrite (scaled_sum m V TR len MT A S C v) by auto. unfold turn. destruct (onB v Lv) as [B1 B2]. split; intros Q; [rewrite B1|rewrite B2]; auto.
  - intros h h' L X L' X' E. rewrite (HC h), (HC h') by (split; auto). rewrite E. split; [|destruct (bdb m (ve m h')); ring]. assert (Lv : liveV m (ve m h')) by (apply (va_cn m V); auto). pose proof (vSum_pos m V TR len MT _ Lv) as P.
    replace (Rsum (angH m len) (cornersAt m (ve m h'))) with (valAt S (ve m h')) in P. 2: { rewrite HS by auto. apply Rsum_ext. intros x Hx. apply cornersAt_ok in Hx as (X1 & X2 & _); auto. rewrite HA by (split; auto). reflexivity. }
    rewrite HA by (split; auto). pose proof (angH_pos m V TR len MT h (conj L X)). pose proof PI_RGT_0. apply Rmult_lt_0_compat; [|lra]. destruct (bdb m (ve m h')); apply Rdiv_lt_0_compat; lra.
  - intros h L X. assert (KH : intH m h) by (split; auto). rewrite HK by (apply fa_liveF; auto). destruct (fh_int m V _ (fa_liveF m V h KH)) as [K0 F]. f_equal. rewrite <- sum_ring3. apply Rsum_set; [apply (ring3_ok m V TR); auto|apply (ring3_ok m V TR); auto|].
    intros x. rewrite (proj2 (ring3_ok m V TR _ K0)), (proj2 (ring3_ok m V TR _ KH)), F. tauto.
  - intros fs E. rewrite (totalZ _ _ _ _ E). apply (face_gauss_bonnet m V TR len MT A S C); auto.
Qed.
End Top.
