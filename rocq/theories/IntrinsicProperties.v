(** C79: angles, areas and curvatures computed from edge lengths. *)
From Coq Require Import Reals Lra.
From Verif Require Import Base DataModel MeshModel MeshSpec MeshBase MeshOpSpec MeshCheck MeshExamples MeshDataModel MeshHistorySpec CountSpec CollapseProofs PointProperties DelaunayExamples
  IntrinsicModel IntrinsicSpec Intrinsic1 Intrinsic2 Intrinsic3 Intrinsic4 Intrinsic5 Intrinsic6.
Open Scope R_scope.

(** ** a mesh with boundary and a closed mesh with unequal edge lengths *)
Definition rangeLens (n : nat) : mdata R := {| dat := map (fun i => 4 + INR (i mod 3)) (seq 0 n); dflt := 0 |}.
Lemma range_at n i : (0 <= i < Z.of_nat n)%Z -> 4 <= valAt (rangeLens n) i <= 6.
Proof.
  intros H. unfold valAt, at_. cbn [dat rangeLens]. rewrite (nth_indep _ 0 (4 + INR (0 mod 3))) by (rewrite map_length, seq_length; lia). rewrite (map_nth (fun i => 4 + INR (i mod 3))). rewrite seq_nth by lia.
  pose proof (Nat.mod_upper_bound (0 + Z.to_nat i) 3 ltac:(lia)) as B. pose proof (pos_INR ((0 + Z.to_nat i) mod 3)) as P. assert (INR ((0 + Z.to_nat i) mod 3) <= INR 2) by (apply le_INR; lia). cbn [INR] in *. lra.
Qed.
Lemma range_metric m : Valid m -> Metric m (rangeLens (Z.to_nat (eCap m))).
Proof.
  intros V. assert (B : forall h, liveH m h -> 4 <= lh (rangeLens (Z.to_nat (eCap m))) h <= 6).
  { intros h K. apply range_at. pose proof (va_st m V) as S. pose proof (st_he _ S). pose proof (st_edge _ S) as [S1 S2]. destruct K as [K _]. unfold edge. lia. }
  constructor.
  - cbn [dat rangeLens]. rewrite map_length, seq_length. reflexivity.
  - intros h K. specialize (B h K). lra.
  - intros h K X. assert (K1 : liveH m (nx m h)) by (apply (va_cn m V); auto). assert (K2 : liveH m (nx m (nx m h))) by (apply (va_cn m V); auto). pose proof (B h K). pose proof (B _ K1). pose proof (B _ K2). lra.
Qed.
Definition quadLens := rangeLens (Z.to_nat (eCap quad)).
Definition tetLens := rangeLens (Z.to_nat (eCap tet)).

(** Every corner angle is the angle of the triangle (law of cosines, strictly between 0 and pi), whether it comes from the cached container
    or from the immediate function, and the three angles of every face sum to pi. *)
Theorem C79_corner_angles : forall m len, Valid m -> triangular m -> Metric m len ->
  exists angles, cornerAngles m len = Ok angles /\
    forall h, liveH m h -> ~ ext m h -> angleAt m len h (valAt angles h) /\ cornerAngle m len h = Ok (valAt angles h) /\
      (forall t, angleAt m len h t -> valAt angles h = t) /\
      valAt angles h + valAt angles (nx m h) + valAt angles (nx m (nx m h)) = PI.
Proof. exact corner_angles. Qed.
Print Assumptions C79_corner_angles.

(** Every face area is the area of the triangle, from either function; the dual areas of the vertices are a third of the areas around,
    from either function, and add up to the area of the surface. *)
Theorem C79_areas : forall m len, Valid m -> triangular m -> Metric m len ->
  exists areas dual, faceAreas m len = Ok areas /\ vertexDualAreas m areas = Ok dual /\
    (forall h, liveH m h -> ~ ext m h -> 0 < valAt areas (fa m h) /\ areaAt m len h (valAt areas (fa m h)) /\ (forall A, areaAt m len h A -> valAt areas (fa m h) = A)) /\
    (forall f, liveF m f -> faceArea m len f = Ok (valAt areas f)) /\
    (forall v l, liveV m v -> cornersOf m v l -> valAt dual v = Rsum (fun h => valAt areas (fa m h)) l / 3) /\
    (forall v, liveV m v -> 0 < valAt dual v /\ vertexDualArea m len v = Ok (valAt dual v)) /\
    (forall vs fs, elements m EVertex = Ok vs -> elements m EFace = Ok fs -> total (valAt dual) vs = total (valAt areas) fs).
Proof. exact areas_all. Qed.
Print Assumptions C79_areas.

(** Discrete Gauss-Bonnet: the angle defects of the interior vertices and the turning angles of the boundary vertices add up to 2 pi times
    the Euler characteristic. *)
Theorem C79_gauss_bonnet : forall m len, Valid m -> triangular m -> Metric m len ->
  exists angles sums K, cornerAngles m len = Ok angles /\ vertexAngleSums m angles = Ok sums /\ vertexGaussianCurvatures m sums = Ok K /\
    (forall v l, liveV m v -> cornersOf m v l -> valAt sums v = Rsum (valAt angles) l) /\
    (forall v, liveV m v -> (onBoundary m v -> valAt K v = 0) /\ (~ onBoundary m v -> valAt K v = 2 * PI - valAt sums v) /\ vertexGaussianCurvature m len v = Ok (valAt K v)) /\
    (forall vs bs, elements m EVertex = Ok vs -> NoDup bs -> (forall v, In v bs <-> liveV m v /\ onBoundary m v) ->
      total (valAt K) vs + Rsum (fun v => PI - valAt sums v) bs = 2 * PI * IZR (euler m)).
Proof. exact curvature_all. Qed.
Print Assumptions C79_gauss_bonnet.

(** The scaled angles around a vertex add up to a full turn, on the boundary to half a turn, in proportion to the angles; the curvatures of
    the faces they induce add up to 2 pi times the Euler characteristic. *)
Theorem C79_scaled_angles : forall m len, Valid m -> triangular m -> Metric m len ->
  exists angles sums scaled K, cornerAngles m len = Ok angles /\ vertexAngleSums m angles = Ok sums /\ cornerScaledAngles m angles sums = Ok scaled /\ faceGaussianCurvatures m scaled = Ok K /\
    (forall v l, liveV m v -> cornersOf m v l -> (onBoundary m v -> Rsum (valAt scaled) l = PI) /\ (~ onBoundary m v -> Rsum (valAt scaled) l = 2 * PI)) /\
    (forall h h', liveH m h -> ~ ext m h -> liveH m h' -> ~ ext m h' -> ve m h = ve m h' -> 0 < valAt scaled h /\ valAt scaled h * valAt angles h' = valAt scaled h' * valAt angles h) /\
    (forall h, liveH m h -> ~ ext m h -> valAt K (fa m h) = valAt scaled h + valAt scaled (nx m h) + valAt scaled (nx m (nx m h)) - PI) /\
    (forall fs, elements m EFace = Ok fs -> total (valAt K) fs = 2 * PI * IZR (euler m)).
Proof. exact scaled_all. Qed.
Print Assumptions C79_scaled_angles.

Example C79_witness : (Valid quad /\ triangular quad /\ Metric quad quadLens /\ euler quad = 1%Z /\ valAt quadLens 0 <> valAt quadLens 1) /\
  (Valid tet /\ triangular tet /\ Metric tet tetLens /\ euler tet = 2%Z).
Proof.
  split; [split; [exact quad_valid|]; split; [exact quad_tri|]; split; [apply range_metric, quad_valid|]; split; [reflexivity|]|].
  - unfold quadLens, valAt, at_, rangeLens. cbn [dat]. replace (Z.to_nat (eCap quad)) with 5%nat by reflexivity. change (4 + INR 0 <> 4 + INR 1). cbn [INR]. lra.
  - split; [exact tet_valid|]. split; [exact tet_triangular|]. split; [apply range_metric, tet_valid|reflexivity].
Qed.
