From Coq Require Import Reals Lra Permutation.
From Verif Require Import Base DataModel DataSpec DataProofs MeshModel MeshSpec MeshBase MeshExec MeshOrbit MeshOpSpec MeshFlip MeshThms MeshSplit MeshHistorySpec MeshHistory MeshDataModel CollapseProofs CountSpec
  MatrixModel MatrixSpec MatrixProofs GeoModel IntrinsicModel IntrinsicSpec TangentSpec Intrinsic1 Intrinsic2 Intrinsic3 Intrinsic4 Intrinsic5 Intrinsic6 Intrinsic7 Intrinsic8 Intrinsic9 Intrinsic11 Intrinsic13 Intrinsic14 CRModel CRSpec CR1 CR2.
Open Scope R_scope.
Section M.
Context (m : mesh) (V : Valid m) (TR : triangular m) (len : mdata R) (MT : Metric m len).
Let CN := va_cn m V.
Local Notation intH := (intH m).
Local Notation n1 h := (nx m h).
Local Notation n2 h := (nx m (nx m h)).
Lemma wS_int h : intH h -> wS m len h = wH m len h.
Proof. intros [_ X]. unfold wS. destruct (extb m h) eqn:Q; auto. exfalso. apply X, (extb_spec m). auto. Qed.
(** differences that cancel around every triangle have nonnegative energy *)
Section Cancel.
Context (g : Z -> R) (C : forall h, intH h -> g h + g (n1 h) + g (n2 h) = 0).
Lemma cancel_ring h : intH h -> Rsum (fun h => 4 * wS m len h * (g h * g h)) (ring3 m h) =
  4 * (cotWeight (lh len h) (lh len (n1 h)) (lh len (n2 h)) (areaH m len h) * (g h * g h) + cotWeight (lh len (n1 h)) (lh len (n2 h)) (lh len h) (areaH m len h) * (g (n1 h) * g (n1 h)) +
       cotWeight (lh len (n2 h)) (lh len h) (lh len (n1 h)) (areaH m len h) * (g (n2 h) * g (n2 h))).
Proof.
  intros K. pose proof (intH_nx m V h K) as K1. pose proof (intH_nx m V _ K1) as K2. rewrite sum_ring3. rewrite !wS_int by auto. unfold wH. rewrite (areaH_nx m V TR len (n1 h)), (areaH_nx m V TR len h) by auto. destruct (three m V TR h K) as (-> & _). ring.
Qed.
Lemma cancel_nonneg f : In f (zl m EFace) -> 0 <= Rsum (fun h => 4 * wS m len h * (g h * g h)) (ring3 m (fh m f)).
Proof.
  intros Hf. apply zl_In in Hf; auto. destruct (fh_int m V f Hf) as [K0 _]. rewrite cancel_ring by auto. pose proof (tri_energy _ _ _ (g (fh m f)) (g (n1 (fh m f))) (g (n2 (fh m f))) (tri_at m V TR len MT _ K0) (C _ K0)) as Q. unfold areaH. lra.
Qed.
Lemma cancel_psd : 0 <= Rsum (fun h => 4 * wS m len h * (g h * g h)) (zl m ECorner).
Proof. rewrite (sum_faces m V TR). apply Rsum_nonneg, cancel_nonneg. Qed.
Lemma cancel_zero : Rsum (fun h => 4 * wS m len h * (g h * g h)) (zl m ECorner) = 0 -> forall h, intH h -> g h = 0.
Proof.
  rewrite (sum_faces m V TR). intros Z h K. pose proof (fa_liveF m V h K) as Lf. destruct (fh_int m V _ Lf) as [K0 F]. pose proof (Rsum_zero_inv _ _ cancel_nonneg Z (fa m h) (proj2 (zl_In m V EFace _) Lf)) as Z0. cbv beta in Z0. rewrite cancel_ring in Z0 by auto.
  assert (Z1 := Z0). apply Rmult_integral in Z1 as [Z1|Z1]; [lra|]. unfold areaH in Z1. apply tri_energy_zero in Z1 as (D1 & D2 & D3); [|apply (tri_at m V TR len MT); auto|apply C; auto].
  assert (In h (ring3 m (fh m (fa m h)))) as I by (apply (ring3_ok m V TR _ K0); rewrite F; auto). destruct I as [<-|[<-|[<-|[]]]]; auto.
Qed.
End Cancel.
Lemma gap_cancel x h : intH h -> gapE m x h + gapE m x (n1 h) + gapE m x (n2 h) = 0.
Proof. intros K. unfold gapE, eA, eB. destruct (three m V TR h K) as (-> & _). ring. Qed.
Lemma gap_all x : (forall h, intH h -> gapE m x h = 0) <-> forall h, liveH m h -> ~ ext m h -> x (edge h) = x (edge (n1 h)).
Proof.
  split.
  - intros H h K X. assert (KI : intH h) by (split; auto). pose proof (intH_nx m V h KI) as K1. pose proof (intH_nx m V _ K1) as K2. specialize (H _ K2). unfold gapE, eA, eB in H. destruct (three m V TR h KI) as (E & _). rewrite E in H. lra.
  - intros H h K. pose proof (intH_nx m V h K) as K1. unfold gapE, eA, eB. rewrite (H (n1 h)) by apply K1. ring.
Qed.
Lemma middle_gap u h : intH h -> gapE m (middle m u) h = - (drop m u h / 2).
Proof.
  intros K. pose proof (intH_nx m V h K) as K1. pose proof (intH_nx m V _ K1) as K2. destruct (three m V TR h K) as (E & _).
  assert (Q : forall y, intH y -> middle m u (edge y) = (u (ve m y) + u (ve m (n1 y))) / 2).
  { intros y Ky. unfold middle. rewrite (cn_vnx _ CN) by apply Ky. destruct (eHe_edge y) as [->| ->]; rewrite ?tw_tw; lra. }
  unfold gapE, eA, eB. rewrite !Q by auto. rewrite E. unfold drop. lra.
Qed.
End M.
Lemma cr_laplacian_all : forall m len, Valid m -> triangular m -> Metric m len ->
  exists areas hw ew L C es vs, faceAreas m len = Ok areas /\ halfedgeCotanWeights m len areas = Ok hw /\ edgeCotanWeights m len areas = Ok ew /\ crLaplacian m hw = Ok L /\ cotanLaplacian m ew = Ok C /\
    elements m EEdge = Ok es /\ elements m EVertex = Ok vs /\ rows L = Z.to_nat (nEdges m) /\ cols L = Z.to_nat (nEdges m) /\
    let el := entryAt 0 m EEdge EEdge L in let ec := entryAt 0 m EVertex EVertex C in
    (forall a b, liveH m (eHe a) -> liveH m (eHe b) -> el a b = el b a) /\
    (forall (x : Z -> R) e l, liveH m (eHe e) -> sidesIn m e l ->
       total (fun b => el e b * x b) es = Rsum (fun h => 4 * valAt hw (nx m (nx m h)) * (x e - x (edge (nx m h))) + 4 * valAt hw (nx m h) * (x e - x (edge (nx m (nx m h))))) l) /\
    (forall e, liveH m (eHe e) -> total (el e) es = 0) /\
    (forall x : Z -> R, 0 <= total (fun a => x a * total (fun b => el a b * x b) es) es) /\
    (forall x : Z -> R, total (fun a => x a * total (fun b => el a b * x b) es) es = 0 <-> forall h, liveH m h -> ~ ext m h -> x (edge h) = x (edge (nx m h))) /\
    (forall u : Z -> R, total (fun a => middle m u a * total (fun b => el a b * middle m u b) es) es = total (fun v => u v * total (fun w => ec v w * u w) vs) vs).
Proof.
  intros m len V TR MT. destruct (faceAreas_ok m V TR len MT) as (A & EA & LA & HA & HF). assert (GA : goodAreas m len A) by (split; auto). destruct (halfedgeWeights_ok m V TR len MT A GA) as (hw & EH & LH & HH). destruct (edgeWeights_ok m V TR len MT A GA) as (ew & EE & LE & HE).
  destruct (crLap_ok m V TR hw LH) as (L & EL & RL & CL & SL). destruct (lap_ok m V ew LE) as (C & EC & _ & _ & LT & SC). destruct (els_ok m EEdge V) as (E1 & _). destruct (els_ok m EVertex V) as (E2 & _).
  exists A, hw, ew, L, C, (els m EEdge), (els m EVertex). do 9 (split; auto). cbv zeta.
  assert (EN : forall x, total (fun a => x a * total (fun b => entryAt 0 m EEdge EEdge L a b * x b) (els m EEdge)) (els m EEdge) = Rsum (fun h => 4 * wS m len h * (gapE m x h * gapE m x h)) (zl m ECorner)).
  { intros x. rewrite (totalZ m EEdge _ _ E1). rewrite (Rsum_ext _ (fun a => x a * Rsum (fun b => entryAt 0 m EEdge EEdge L a b * x b) (zl m EEdge))) by (intros a _; rewrite (totalZ m EEdge _ _ E1); reflexivity).
    rewrite (cr_energy m V TR hw L SL). apply Rsum_ext. intros h Hh. apply zl_In in Hh; auto. unfold W. rewrite HH by apply Hh. reflexivity. }
  split; [intros a b La Lb; apply (cr_sym m V TR hw L SL); auto|]. split; [|split; [|split; [|split]]].
  - intros x e l Le SI. rewrite (totalZ m EEdge _ _ E1). apply (cr_action m V TR hw L SL); auto.
  - intros e Le. rewrite (totalZ m EEdge _ _ E1). apply (cr_const m V TR hw L SL); auto.
  - intros x. rewrite EN. apply (cancel_psd m V TR len MT). apply (gap_cancel m V TR).
  - intros x. rewrite EN, <- (gap_all m V TR). split.
    + apply (cancel_zero m V TR len MT). apply (gap_cancel m V TR).
    + intros H. apply Rsum_zero. intros h Hh. apply zl_In in Hh; auto. rewrite (H h Hh). ring.
  - intros u. rewrite EN. rewrite (totalZ m EVertex _ _ E2). rewrite (Rsum_ext (fun v => u v * total _ _) (fun a => u a * Rsum (fun b => entryAt 0 m EVertex EVertex C a b * u b) (zl m EVertex))) by (intros a _; rewrite (totalZ m EVertex _ _ E2); reflexivity).
    rewrite (lap_faces m V TR len ew C LT SC HE u). rewrite <- (sum_faces m V TR). apply Rsum_ext. intros h Hh. apply zl_In in Hh; auto. rewrite (middle_gap m V TR) by exact Hh. rewrite wS_int by exact Hh. field.
Qed.
Lemma cr_mass_all : forall m len, Valid m -> triangular m -> Metric m len ->
  exists areas M es fs, faceAreas m len = Ok areas /\ crMass m areas = Ok M /\ elements m EEdge = Ok es /\ elements m EFace = Ok fs /\ rows M = Z.to_nat (nEdges m) /\ cols M = Z.to_nat (nEdges m) /\
    let em := entryAt 0 m EEdge EEdge M in
    (forall a b, liveH m (eHe a) -> liveH m (eHe b) -> a <> b -> em a b = 0) /\
    (forall e l, liveH m (eHe e) -> sidesIn m e l -> em e e = Rsum (fun h => valAt areas (fa m h)) l / 3) /\
    (forall e, liveH m (eHe e) -> 0 < em e e) /\
    total (fun e => em e e) es = total (valAt areas) fs.
Proof.
  intros m len V TR MT. destruct (faceAreas_ok m V TR len MT) as (A & EA & LA & HA & HF). destruct (crMass_ok m V A LA) as (M & EM & RM & CM & SM). destruct (els_ok m EEdge V) as (E1 & _). destruct (els_ok m EFace V) as (E2 & _). pose proof (va_cn m V) as CN.
  exists A, M, (els m EEdge), (els m EFace). do 6 (split; auto). cbv zeta.
  assert (SV : forall e, liveE m EEdge e -> entryAt 0 m EEdge EEdge M e e = Rsum (fun h => valAt A (fa m h) / 3) (filter (fun h => negb (extb m h)) (sides e))) by (intros e Le; rewrite SM by auto; rewrite Z.eqb_refl; reflexivity).
  split; [|split; [|split]].
  - intros a b La Lb N. rewrite SM by auto. rewrite (proj2 (Z.eqb_neq a b) N). reflexivity.
  - intros e l Le [N I]. rewrite SV by auto. destruct (inS_ok m V e Le) as [N' I']. rewrite (Rsum_set _ _ l N' N) by (intros h; rewrite I, I'; tauto). rewrite (Rsum_ext _ (fun h => / 3 * valAt A (fa m h))) by (intros; field). rewrite Rsum_scal. field.
  - intros e Le. rewrite SV by auto. destruct (inS_ok m V e Le) as [N' I']. apply Rsum_pos.
    + intros Q. rewrite Q in I'. destruct (sides_live m V e Le) as [K1 K2]. 
      assert (X1 : ext m (eHe e)). { destruct (extb m (eHe e)) eqn:B; [apply (extb_spec m); auto|]. exfalso. apply (I' (eHe e)). split; auto. split; [apply (not_ext m); auto|apply edge_eHe]. }
      assert (X2 : ext m (tw (eHe e))). { destruct (extb m (tw (eHe e))) eqn:B; [apply (extb_spec m); auto|]. exfalso. apply (I' (tw (eHe e))). split; auto. split; [apply (not_ext m); auto|rewrite tw_edge; apply edge_eHe]. }
      destruct (Z.eq_dec (eHe e mod 2) 0) as [P|P]; [apply (cn_ebd _ CN _ K1 P X1)|]. apply (cn_ebd _ CN _ K2); auto. rewrite tw_mod. pose proof (Z.mod_pos_bound (eHe e) 2). lia.
    + intros h Hh. apply I' in Hh as (L & X & _). assert (K : intH m h) by (split; auto). rewrite HA by auto. pose proof (areaH_pos m V TR len MT h K). lra.
  - rewrite (totalZ m EEdge _ _ E1), (totalZ m EFace _ _ E2). rewrite <- (mass_total m V TR A). apply Rsum_ext. intros e He. apply zl_In in He; auto.
Qed.
Lemma cr_connection_all : forall m len, Valid m -> triangular m -> Metric m len ->
  exists areas hw vec L es hs, faceAreas m len = Ok areas /\ halfedgeCotanWeights m len areas = Ok hw /\ halfedgeVectorsInFace m len areas = Ok vec /\ crConnectionLaplacian m len areas hw = Ok L /\
    elements m EEdge = Ok es /\ elements m ECorner = Ok hs /\ rows L = Z.to_nat (nEdges m) /\ cols L = Z.to_nat (nEdges m) /\
    let el := entryAt (mk2 0 0) m EEdge EEdge L in let z := seenFrom len (vecAt vec) in
    (forall a b, liveH m (eHe a) -> liveH m (eHe b) -> el a b = conj2 (el b a)) /\
    (forall x : Z -> V2, total (fun a => dot2 (x a) (ctotal (fun b => cmul (el a b) (x b)) es)) es = total (fun h => 4 * valAt hw h * norm2_2 (sub2 (z x (nx m h)) (z x (nx m (nx m h))))) hs) /\
    (forall x : Z -> V2, 0 <= total (fun a => dot2 (x a) (ctotal (fun b => cmul (el a b) (x b)) es)) es) /\
    (forall x : Z -> V2, total (fun a => dot2 (x a) (ctotal (fun b => cmul (el a b) (x b)) es)) es = 0 <-> forall h, liveH m h -> ~ ext m h -> z x h = z x (nx m h)).
Proof.
  intros m len V TR MT. destruct (faceAreas_ok m V TR len MT) as (A & EA & LA & HA & HF). assert (GA : goodAreas m len A) by (split; auto). destruct (halfedgeWeights_ok m V TR len MT A GA) as (hw & EH & LH & HH). destruct (faceVectors_ok m V TR len MT A GA) as (vec & EV & LV & HV).
  destruct (crConn_ok m V TR len MT hw A GA LH) as (L & EL & RL & CL & SX & SY). destruct (els_ok m EEdge V) as (E1 & _). destruct (els_ok m ECorner V) as (E2 & _).
  exists A. exists hw. exists vec. exists L. exists (els m EEdge). exists (els m ECorner). do 8 (split; auto). cbv zeta.
  assert (EN : forall x, total (fun a => dot2 (x a) (ctotal (fun b => cmul (entryAt (mk2 0 0) m EEdge EEdge L a b) (x b)) (els m EEdge))) (els m EEdge) =
    Rsum (fun h => W hw h * norm2_2 (sub2 (seenFrom len (vecAt vec) x (nx m h)) (seenFrom len (vecAt vec) x (nx m (nx m h))))) (zl m ECorner)).
  { intros x. rewrite (totalZ m EEdge _ _ E1). rewrite (Rsum_ext _ (fun e => dot2 (x e) (Csum (fun v => cmul (entryAt (mk2 0 0) m EEdge EEdge L e v) (x v)) (zl m EEdge)))) by (intros a _; rewrite ctotalZ by auto; reflexivity).
    apply (crc_energy m V TR len MT hw L SX SY vec HV). }
  assert (GC : forall (p : V2 -> R) x h, intH m h -> (forall a b, p (sub2 a b) = p a - p b) -> (fun h => p (sub2 (seenFrom len (vecAt vec) x (nx m h)) (seenFrom len (vecAt vec) x (nx m (nx m h))))) h + p (sub2 (seenFrom len (vecAt vec) x (nx m (nx m h))) (seenFrom len (vecAt vec) x (nx m (nx m (nx m h))))) + p (sub2 (seenFrom len (vecAt vec) x (nx m (nx m (nx m h)))) (seenFrom len (vecAt vec) x (nx m (nx m (nx m (nx m h)))))) = 0).
  { intros p x h K P. cbv beta. rewrite !P. destruct (three m V TR h K) as (-> & _). ring. }
  assert (SP : forall x, Rsum (fun h => W hw h * norm2_2 (sub2 (seenFrom len (vecAt vec) x (nx m h)) (seenFrom len (vecAt vec) x (nx m (nx m h))))) (zl m ECorner) =
    Rsum (fun h => 4 * wS m len h * (px (sub2 (seenFrom len (vecAt vec) x (nx m h)) (seenFrom len (vecAt vec) x (nx m (nx m h)))) * px (sub2 (seenFrom len (vecAt vec) x (nx m h)) (seenFrom len (vecAt vec) x (nx m (nx m h)))))) (zl m ECorner) +
    Rsum (fun h => 4 * wS m len h * (py (sub2 (seenFrom len (vecAt vec) x (nx m h)) (seenFrom len (vecAt vec) x (nx m (nx m h)))) * py (sub2 (seenFrom len (vecAt vec) x (nx m h)) (seenFrom len (vecAt vec) x (nx m (nx m h)))))) (zl m ECorner)).
  { intros x. rewrite <- Rsum_plus. apply Rsum_ext. intros h Hh. apply zl_In in Hh; auto. unfold W, norm2_2. rewrite HH by apply Hh. ring. }
  pose proof (fun x => cancel_psd m V TR len MT _ (fun h K => GC px x h K (fun _ _ => eq_refl))) as PX. pose proof (fun x => cancel_psd m V TR len MT _ (fun h K => GC py x h K (fun _ _ => eq_refl))) as PY. cbv beta in PX, PY.
  split; [intros a b La Lb; apply (crc_herm m V TR len hw L SX SY); auto|]. split; [|split].
  - intros x. rewrite EN. rewrite (totalZ m ECorner _ _ E2). reflexivity.
  - intros x. rewrite EN, SP. specialize (PX x). specialize (PY x). lra.
  - intros x. rewrite EN. split.
    + rewrite SP. intros Z h K X. assert (KI : intH m h) by (split; auto). pose proof (intH_nx m V h KI) as K1. pose proof (intH_nx m V _ K1) as K2. destruct (three m V TR h KI) as (E3 & _). specialize (PX x). specialize (PY x).
      pose proof (cancel_zero m V TR len MT _ (fun h K => GC px x h K (fun _ _ => eq_refl)) ltac:(cbv beta; lra) _ K2) as DX. pose proof (cancel_zero m V TR len MT _ (fun h K => GC py x h K (fun _ _ => eq_refl)) ltac:(cbv beta; lra) _ K2) as DY.
      cbv beta in DX, DY. rewrite E3 in DX, DY. cbn [px py sub2] in DX, DY. apply V2_eq; lra.
    + intros H. apply Rsum_zero. intros h Hh. apply zl_In in Hh; auto. pose proof (intH_nx m V h Hh) as K1. rewrite (H (nx m h)) by apply K1. unfold norm2_2. cbn [px py sub2]. ring.
Qed.
