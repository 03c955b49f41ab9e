From Coq Require Import Reals Lra Permutation.
From Verif Require Import Base DataModel DataSpec DataProofs MeshModel MeshSpec MeshBase MeshExec MeshOrbit MeshOpSpec MeshFlip MeshThms MeshSplit MeshHistorySpec MeshHistory MeshDataModel CollapseProofs CountSpec
  MatrixModel MatrixSpec MatrixProofs GeoModel IntrinsicModel IntrinsicSpec Intrinsic1 Intrinsic2 Intrinsic3 Intrinsic4 Intrinsic5 Intrinsic6 Intrinsic7 Intrinsic8 Intrinsic9.
Open Scope R_scope.
Lemma weights_all : forall m len, Valid m -> triangular m -> Metric m len ->
  exists areas hw ew, faceAreas m len = Ok areas /\ halfedgeCotanWeights m len areas = Ok hw /\ edgeCotanWeights m len areas = Ok ew /\
    (forall h, liveH m h -> ~ ext m h -> (exists c, cotOpposite m len h c) /\ forall c, cotOpposite m len h c -> valAt hw h = c / 2) /\
    (forall h, liveH m h -> ext m h -> valAt hw h = 0) /\
    (forall h, liveH m h -> valAt ew (edge h) = valAt hw h + valAt hw (tw h)) /\
    (forall h, liveH m h -> halfedgeCotanWeight m len h = Ok (valAt hw h) /\ edgeCotanWeight m len (edge h) = Ok (valAt ew (edge h))).
Proof.
  intros m len V TR MT. destruct (faceAreas_ok m V TR len MT) as (A & EA & LA & HA & HF). assert (GA : goodAreas m len A) by (split; auto). destruct (halfedgeWeights_ok m V TR len MT A GA) as (hw & EH & LH & HH). destruct (edgeWeights_ok m V TR len MT A GA) as (ew & EE & LE & HE).
  exists A, hw, ew. split; auto. split; auto. split; auto.
  assert (HS : forall h, liveH m h -> valAt ew (edge h) = wS m len h + wS m len (tw h)).
  { intros h K. rewrite HE by (apply edge_live; auto). destruct (eHe_edge h) as [-> | ->]; auto. rewrite tw_tw. ring. }
  split; [|split; [|split]].
  - intros h K X. assert (KI : intH m h) by (split; auto). split; [apply (cot_exists m V TR len MT); auto|]. intros c C. rewrite HH by auto. unfold wS. destruct (extb m h) eqn:Q; [exfalso; apply X, (extb_spec m); auto|]. apply (wH_cot m V TR len MT); auto.
  - intros h K X. rewrite HH by auto. unfold wS. apply (extb_spec m) in X. rewrite X. reflexivity.
  - intros h K. rewrite HS by auto. rewrite !HH by (auto; apply (cn_tw _ (va_cn m V)); auto). reflexivity.
  - intros h K. rewrite HH, HS by auto. split; [apply (halfedgeCotanWeight_ok m V TR len MT); auto|]. rewrite (edgeCotanWeight_ok m V TR len MT) by (apply edge_live; auto). destruct (eHe_edge h) as [-> | ->]; auto. rewrite tw_tw, Rplus_comm. reflexivity.
Qed.
Lemma laplacian_all : forall m len, Valid m -> triangular m -> Metric m len ->
  exists areas w L vs, faceAreas m len = Ok areas /\ edgeCotanWeights m len areas = Ok w /\ cotanLaplacian m w = Ok L /\ elements m EVertex = Ok vs /\
    rows L = Z.to_nat (nVertices m) /\ cols L = Z.to_nat (nVertices m) /\
    let el := entryAt 0 m EVertex EVertex L in
    (forall a b, liveV m a -> liveV m b -> el a b = el b a) /\
    (forall (x : Z -> R) v out, liveV m v -> leaving m v out -> total (fun u => el v u * x u) vs = Rsum (fun h => valAt w (edge h) * (x v - x (ve m (tw h)))) out) /\
    (forall v, liveV m v -> total (el v) vs = 0) /\
    (forall x : Z -> R, 0 <= total (fun v => x v * total (fun u => el v u * x u) vs) vs) /\
    (forall x : Z -> R, total (fun v => x v * total (fun u => el v u * x u) vs) vs = 0 <-> forall h, liveH m h -> x (ve m h) = x (ve m (tw h))).
Proof.
  intros m len V TR MT. destruct (faceAreas_ok m V TR len MT) as (A & EA & LA & HA & HF). assert (GA : goodAreas m len A) by (split; auto). destruct (edgeWeights_ok m V TR len MT A GA) as (w & EW & LW & HW). destruct (lap_ok m V w LW) as (L & EL & RR & CC & LT & S). destruct (els_ok m EVertex V) as (EV & _).
  exists A, w, L, (els m EVertex). split; auto. split; auto. split; auto. split; auto. split; auto. split; auto. intros el. assert (TZ : forall g : Z -> R, total g (els m EVertex) = Rsum g (zl m EVertex)) by (intros g; apply totalZ; auto).
  assert (AC : forall (x : Z -> R) v, liveV m v -> total (fun u => el v u * x u) (els m EVertex) = Rsum (fun h => valAt w (edge h) * (x v - x (ve m (tw h)))) (filter (fun h => (ve m h =? v)%Z) (zl m EHalfedge))).
  { intros x v Lv. rewrite TZ. apply (lap_action m V w L LT S). auto. }
  assert (QF : forall x : Z -> R, total (fun v => x v * total (fun u => el v u * x u) (els m EVertex)) (els m EVertex) = Rsum (fun v => x v * Rsum (fun u => el v u * x u) (zl m EVertex)) (zl m EVertex)).
  { intros x. rewrite TZ. apply Rsum_ext. intros v _. rewrite TZ. reflexivity. }
  split; [|split; [|split; [|split]]].
  - intros a b Ka Kb. apply (lap_sym m w L S); auto.
  - intros x v out Lv [N I]. rewrite AC by auto. apply Rsum_set; auto; [apply filter_NoDup, zl_NoDup; auto|]. intros h. rewrite filter_In, zl_In, I, Z.eqb_eq by auto. reflexivity.
  - intros v Lv. specialize (AC (fun _ => 1) v Lv). cbv beta in AC. rewrite (Rsum_zero _ (filter _ _)) in AC by (intros; ring). rewrite <- AC. rewrite !TZ. apply Rsum_ext. intros; ring.
  - intros x. rewrite QF. apply (lap_psd m V TR len MT w L LT S HW).
  - intros x. rewrite QF. split; [apply (lap_kernel m V TR len MT w L LT S HW)|]. intros H. unfold el. rewrite (lap_energy m V w L LT S x). apply Rsum_zero. intros e He. apply zl_In in He; auto. unfold ta, hd. rewrite <- (H (eHe e)) by exact He. ring.
Qed.
Lemma dec_all : forall m len, Valid m -> triangular m -> Metric m len ->
  exists areas dual w L d0 d1 s0 s1 s2 vs es, faceAreas m len = Ok areas /\ vertexDualAreas m areas = Ok dual /\ edgeCotanWeights m len areas = Ok w /\ cotanLaplacian m w = Ok L /\
    decD0 m = Ok d0 /\ decD1 m = Ok d1 /\ hodge0 m dual = Ok s0 /\ hodge1 m w = Ok s1 /\ hodge2 m areas = Ok s2 /\ elements m EVertex = Ok vs /\ elements m EEdge = Ok es /\
    (rows d0 = Z.to_nat (nEdges m) /\ cols d0 = Z.to_nat (nVertices m) /\ rows d1 = Z.to_nat (nFaces m) /\ cols d1 = Z.to_nat (nEdges m)) /\
    let D0 := entryAt 0 m EEdge EVertex d0 in let D1 := entryAt 0 m EFace EEdge d1 in
    (forall (x : Z -> R) e, liveH m (eHe e) -> total (fun v => D0 e v * x v) vs = x (ve m (tw (eHe e))) - x (ve m (eHe e))) /\
    (forall x : Z -> R, (forall e, liveH m (eHe e) -> total (fun v => D0 e v * x v) vs = 0) <-> forall h, liveH m h -> x (ve m h) = x (ve m (tw h))) /\
    (forall (y : Z -> R) h, liveH m h -> ~ ext m h -> exists s : Z -> R, (forall h, s (eHe (edge h)) = 1 /\ s (tw (eHe (edge h))) = -1) /\
       total (fun e => D1 (fa m h) e * y e) es = s h * y (edge h) + s (nx m h) * y (edge (nx m h)) + s (nx m (nx m h)) * y (edge (nx m (nx m h)))) /\
    (forall f v, liveF m f -> liveV m v -> total (fun e => D1 f e * D0 e v) es = 0) /\
    (forall a b, liveV m a -> liveV m b -> entryAt 0 m EVertex EVertex L a b = total (fun e => D0 e a * nth (indexOf m EEdge e) s1 0 * D0 e b) es) /\
    (length s0 = Z.to_nat (nVertices m) /\ length s1 = Z.to_nat (nEdges m) /\ length s2 = Z.to_nat (nFaces m)) /\
    (forall v, liveV m v -> nth (indexOf m EVertex v) s0 0 = valAt dual v) /\ (forall h, liveH m h -> nth (indexOf m EEdge (edge h)) s1 0 = valAt w (edge h)) /\
    (forall f, liveF m f -> nth (indexOf m EFace f) s2 0 * valAt areas f = 1).
Proof.
  intros m len V TR MT. destruct (faceAreas_ok m V TR len MT) as (A & EA & LA & HA & HF). destruct (dual_ok m V TR A LA) as (D & ED & LD & HD). assert (GA : goodAreas m len A) by (split; auto). destruct (edgeWeights_ok m V TR len MT A GA) as (w & EW & LW & HW). destruct (lap_ok m V w LW) as (L & EL & RR & CC & LT & S).
  destruct (d0_ok m V) as (d0 & E0 & R0 & C0 & H0). destruct (d1_ok m V TR) as (d1 & E1 & R1 & C1 & H1).
  destruct (diag_fill m V EVertex (fun v => let* a := dataAt D v in Ok (a / 1)) (valAt D)) as (s0 & ES0 & LS0 & HS0); [left; auto| |].
  { intros e K. rewrite (dataAt_in 0) by (rewrite LD; apply (v_cap m V); auto). cbn [bind]. f_equal. unfold valAt. field. }
  destruct (diag_fill m V EEdge (fun e => dataAt w e) (valAt w)) as (s1 & ES1 & LS1 & HS1); [right; left; auto| |].
  { intros e K. rewrite (dataAt_in 0) by (rewrite LW; apply (e_cap m V); auto). reflexivity. }
  destruct (diag_fill m V EFace (fun f => let* a := dataAt A f in Ok (1 / a)) (fun f => 1 / valAt A f)) as (s2 & ES2 & LS2 & HS2); [right; right; auto| |].
  { intros e K. rewrite (dataAt_in 0) by (rewrite LA; apply (f_cap m V); auto). reflexivity. }
  destruct (els_ok m EVertex V) as (EV & _). destruct (els_ok m EEdge V) as (EE & _).
  assert (TZ : forall g : Z -> R, total g (els m EVertex) = Rsum g (zl m EVertex)) by (intros g; apply totalZ; auto). assert (TE : forall g : Z -> R, total g (els m EEdge) = Rsum g (zl m EEdge)) by (intros g; apply totalZ; auto).
  exists A, D, w, L, d0, d1, s0, s1, s2, (els m EVertex), (els m EEdge). do 11 (split; [assumption|]). split; [auto|]. intros D0 D1.
  assert (A0 : forall (x : Z -> R) e, liveE m EEdge e -> total (fun v => D0 e v * x v) (els m EVertex) = x (ve m (tw (eHe e))) - x (ve m (eHe e))).
  { intros x e K. rewrite TZ. etransitivity; [|exact (inc_sum m V e x K)]. apply Rsum_ext. intros v Hv. apply zl_In in Hv; auto. unfold D0. rewrite H0 by auto. reflexivity. }
  split; [exact A0|]. split; [|split; [|split; [|split; [|split; [auto|split; [exact HS0|split]]]]]].
  - intros x. split; intros H.
    + intros h K. assert (KE := edge_live m V h K). specialize (H _ KE). rewrite A0 in H by exact KE. destruct (eHe_edge h) as [Q|Q]; rewrite Q in H; [lra|]. rewrite tw_tw in H. lra.
    + intros e K. rewrite A0 by exact K. rewrite (H (eHe e)) by exact K. ring.
  - intros y h K X. assert (KI : intH m h) by (split; auto). exists sgn. split.
    + intros h0. split; [unfold sgn; rewrite edge_eHe, Z.eqb_refl; auto|]. rewrite sgn_tw. unfold sgn. rewrite edge_eHe, Z.eqb_refl. reflexivity.
    + rewrite TE. unfold D1. rewrite H1 by (apply fa_liveF; auto). destruct (fh_int m V _ (fa_liveF m V h KI)) as [K0 F]. transitivity (Rsum (fun h => sgn h * y (edge h)) (ring3 m h)); [|rewrite sum_ring3; reflexivity].
      apply Rsum_set; [apply (ring3_ok m V TR); auto|apply (ring3_ok m V TR); auto|]. intros x. rewrite (proj2 (ring3_ok m V TR _ K0)), (proj2 (ring3_ok m V TR _ KI)), F. reflexivity.
  - intros f v Kf Kv. rewrite TE. unfold D1. rewrite (H1 f (fun e => D0 e v)) by auto. rewrite <- (d1_d0 m V TR f v Kf). apply Rsum_ext. intros h Hh. destruct (fh_int m V f Kf) as [K0 _]. apply (ring3_ok m V TR _ K0) in Hh as [Kh _]. unfold D0. rewrite H0; auto. apply edge_live, Kh. auto.
  - intros a b Ka Kb. rewrite S by auto. rewrite (lap_factor m w a b). rewrite TE. apply Rsum_ext. intros e He. apply zl_In in He; auto. unfold D0. rewrite !H0, HS1 by auto. reflexivity.
  - intros h K. apply HS1. apply edge_live; auto.
  - intros f K. rewrite HS2 by exact K. field. rewrite HF by auto. destruct (fh_int m V f K) as [K0 _]. pose proof (areaH_pos m V TR len MT _ K0). lra.
Qed.
Lemma mass_all : forall m len, Valid m -> triangular m -> Metric m len ->
  exists areas dual lumped M vs fs, faceAreas m len = Ok areas /\ vertexDualAreas m areas = Ok dual /\ lumpedMass m dual = Ok lumped /\ galerkinMass m areas = Ok M /\ elements m EVertex = Ok vs /\ elements m EFace = Ok fs /\
    (length lumped = Z.to_nat (nVertices m) /\ rows M = Z.to_nat (nVertices m) /\ cols M = Z.to_nat (nVertices m)) /\
    let em := entryAt 0 m EVertex EVertex M in
    (forall v, liveV m v -> nth (indexOf m EVertex v) lumped 0 = valAt dual v /\ total (em v) vs = valAt dual v) /\
    (forall a b, liveV m a -> liveV m b -> em a b = em b a) /\
    total (fun v => total (em v) vs) vs = total (valAt areas) fs /\
    (forall x : Z -> R, 0 <= total (fun v => x v * total (fun u => em v u * x u) vs) vs) /\
    (forall x : Z -> R, total (fun v => x v * total (fun u => em v u * x u) vs) vs = 0 -> forall v, liveV m v -> x v = 0).
Proof.
  intros m len V TR MT. destruct (faceAreas_ok m V TR len MT) as (A & EA & LA & HA & HF). destruct (dual_ok m V TR A LA) as (D & ED & LD & HD). destruct (lumped_ok m V D LD) as (lu & EU & LU & HU). destruct (galerkin_ok m V TR A LA) as (M & EM & RR & CC & LT & S).
  destruct (els_ok m EVertex V) as (EV & _). destruct (els_ok m EFace V) as (EF & _). exists A, D, lu, M, (els m EVertex), (els m EFace). do 6 (split; [assumption|]). split; [auto|]. intros em.
  assert (TZ : forall g : Z -> R, total g (els m EVertex) = Rsum g (zl m EVertex)) by (intros g; apply totalZ; auto).
  assert (PA : forall f, liveF m f -> 0 < valAt A f) by (intros f K; rewrite HF by auto; destruct (fh_int m V f K) as [K0 _]; apply (areaH_pos m V TR len MT); auto).
  assert (RW : forall v, liveV m v -> total (em v) (els m EVertex) = valAt D v) by (intros v Lv; rewrite TZ, HD by auto; apply (gal_rows m V TR A M LT S); auto).
  assert (QF : forall x : Z -> R, total (fun v => x v * total (fun u => em v u * x u) (els m EVertex)) (els m EVertex) = Rsum (fun v => x v * Rsum (fun u => em v u * x u) (zl m EVertex)) (zl m EVertex)).
  { intros x. rewrite TZ. apply Rsum_ext. intros v _. rewrite TZ. reflexivity. }
  split; [|split; [|split; [|split]]].
  - intros v Lv. split; auto.
  - intros a b Ka Kb. apply (gal_sym m A M S); auto.
  - rewrite TZ. rewrite (Rsum_ext _ (valAt D)) by (intros v Hv; apply zl_In in Hv; auto). rewrite (totalZ m EFace _ _ EF). apply (total_dual m V TR). auto.
  - intros x. rewrite QF. apply (gal_psd m V A M LT S PA).
  - intros x. rewrite QF. intros Z. apply (gal_def m V TR A M LT S PA x Z). intros v Lv Q. pose proof (vSum_pos m V TR len MT v Lv) as P. rewrite Q, Rsum_nil in P. lra.
Qed.
Lemma index_all : forall m k, Valid m -> k = EVertex \/ k = EEdge \/ k = EFace -> exists ind l, indicesOf m k = Ok ind /\ elements m k = Ok l /\
    forall e, In e l -> at_ 0%nat ind (Z.of_nat e) = indexOf m k (Z.of_nat e) /\ nth_error l (indexOf m k (Z.of_nat e)) = Some e.
Proof.
  intros m k V G. destruct (indices_ok m V k G) as (ind & E & _ & H). destruct (els_ok m k V) as (EE & N & _ & I). exists ind, (els m k). split; auto. split; auto. intros e He. split; [apply H, I; auto|]. rewrite index_els by auto. rewrite Nat2Z.id. apply place_nth. auto.
Qed.
