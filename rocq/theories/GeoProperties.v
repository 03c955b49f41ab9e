(** C52-C54, C66, C67: elementary geometry *)
From Verif Require Import GeoModel GeoSpec GeoProofs GeoVec.
From Coq Require Import Reals Lra.
Open Scope R_scope.

(** C52 *)
Theorem C52_layout pA pB lBC lCA : pA <> pB -> 0 <= lBC -> 0 <= lCA ->
  dist2 pA pB <= lBC + lCA -> lBC <= lCA + dist2 pA pB -> lCA <= dist2 pA pB + lBC ->
  let pC := layoutTriangleVertex pA pB lBC lCA in
  dist2 pC pA = lCA /\ dist2 pC pB = lBC /\ 0 <= area2 pA pB pC /\
  (dist2 pA pB < lBC + lCA -> lBC < lCA + dist2 pA pB -> lCA < dist2 pA pB + lBC -> 0 < area2 pA pB pC).
Proof. exact (layout_ok pA pB lBC lCA). Qed.
Print Assumptions C52_layout.
(** [triangleArea] of the side lengths is the area, and 0 when there is no triangle *)
Theorem C52_area a b c : triangleArea (dist2 a b) (dist2 b c) (dist2 c a) = Rabs (area2 a b c) / 2.
Proof. exact (triangleArea_points a b c). Qed.
Print Assumptions C52_area.
Theorem C52_invalid a b c : 0 <= a -> 0 <= b -> 0 <= c -> ~ (a <= b + c /\ b <= c + a /\ c <= a + b) -> triangleArea a b c = 0.
Proof. exact (triangleArea_invalid a b c). Qed.
Print Assumptions C52_invalid.
(** base of length 3 from (0,0) to (3,0), third sides 5 and 4 *)
Example C52_witness : mk2 0 0 <> mk2 3 0 /\ dist2 (mk2 0 0) (mk2 3 0) = 3 /\ 3 < 5 + 4 /\ 5 < 4 + 3 /\ 4 < 3 + 5 /\ ~ (9 <= 3 + 4 /\ 3 <= 4 + 9 /\ 4 <= 9 + 3).
Proof.
  split; [intros E; injection E; lra|]. split; [|lra]. unfold dist2, Rsqr. cbn [px py]. replace ((0 - 3) * (0 - 3) + (0 - 0) * (0 - 0)) with (3 * 3) by ring. apply sqrt_square. lra.
Qed.

(** C53 *)
Theorem C53_nearest p a b : let t := pointLineSegmentNeaestLocation p a b in
  0 <= t <= 1 /\ forall s, 0 <= s <= 1 -> dist3 p (along3 a b t) <= dist3 p (along3 a b s).
Proof.
  split; [exact (proj1 (nearest3_ok p a b 0 (conj (Rle_refl 0) Rle_0_1)))|]. intros s S. exact (proj2 (nearest3_ok p a b s S)).
Qed.
Print Assumptions C53_nearest.
(** the distance functions return the smallest distance to a point of the segment *)
Theorem C53_distance p a b : exists t, 0 <= t <= 1 /\ pointLineSegmentDistance3 p a b = dist3 p (along3 a b t) /\
  forall s, 0 <= s <= 1 -> dist3 p (along3 a b t) <= dist3 p (along3 a b s).
Proof. eexists. split; [exact (proj1 (C53_nearest p a b))|]. split; [exact (distance3_ok p a b)|exact (proj2 (C53_nearest p a b))]. Qed.
Print Assumptions C53_distance.
Theorem C53_distance_2d p a b : exists t, 0 <= t <= 1 /\ pointLineSegmentDistance2 p a b = dist2 p (along2 a b t) /\
  forall s, 0 <= s <= 1 -> dist2 p (along2 a b t) <= dist2 p (along2 a b s).
Proof. exact (distance2_ok p a b). Qed.
Print Assumptions C53_distance_2d.
Example C53_witness : pointLineSegmentNeaestLocation (mk3 1 5 7) (mk3 0 0 0) (mk3 4 0 0) = 1 / 4.
Proof.
  unfold pointLineSegmentNeaestLocation, norm2_3, dot3, sub3. cbn [qx qy qz]. destruct (Req_EM_T _ 0) as [E|_]; [exfalso; lra|].
  replace (((1 - 0) * (4 - 0) + (5 - 0) * (0 - 0) + (7 - 0) * (0 - 0)) / ((0 - 4) * (0 - 4) + (0 - 0) * (0 - 0) + (0 - 0) * (0 - 0))) with (1 / 4) by field.
  unfold clamp. destruct (Rgt_dec (1 / 4) 1); [exfalso; lra|]. destruct (Rlt_dec (1 / 4) 0); [exfalso; lra|]. reflexivity.
Qed.

(** C54 *)
Theorem C54_normalize b : sum3 (normalizeBarycentric b) = 1 /\
  (sum3 b <> 0 -> exists k, k <> 0 /\ b = mul3 (normalizeBarycentric b) k) /\ (sum3 b = 1 -> normalizeBarycentric b = b).
Proof. exact (normalizeBarycentric_ok b). Qed.
Print Assumptions C54_normalize.
Theorem C54_displacement b : sum3 (normalizeBarycentricDisplacement b) = 0 /\ (sum3 b = 0 -> normalizeBarycentricDisplacement b = b) /\
  exists k, b = add3 (normalizeBarycentricDisplacement b) (mk3 k k k).
Proof.
  destruct (normalizeDisplacement_ok b) as (A & B). split; [exact A|]. split; [exact B|]. exists (sum3 b / 3).
  destruct b. unfold normalizeBarycentricDisplacement, add3, sub3, sum3. cbn. f_equal; ring.
Qed.
Print Assumptions C54_displacement.
Theorem C54_project b : let r := projectInsideTriangle b in sum3 r = 1 /\ 0 <= qx r <= 1 /\ 0 <= qy r <= 1 /\ 0 <= qz r <= 1 /\
  (sum3 b = 1 -> 0 <= qx b -> 0 <= qy b -> 0 <= qz b -> r = b).
Proof. exact (project_ok b). Qed.
Print Assumptions C54_project.
(** the length of a displacement of a triangle with vertices p0 p1 p2; the i-th length is that of the side opposite pi *)
Theorem C54_length p0 p1 p2 d : sum3 d = 0 ->
  displacementLength d (mk3 (dist2 p1 p2) (dist2 p2 p0) (dist2 p0 p1)) = len2 (bary2 p0 p1 p2 d) /\
  displacementLength2 d (mk3 (dist2 p1 p2) (dist2 p2 p0) (dist2 p0 p1)) = (len2 (bary2 p0 p1 p2 d))².
Proof. exact (displacement_ok p0 p1 p2 d). Qed.
Print Assumptions C54_length.
Theorem C54_length_3d p0 p1 p2 d : sum3 d = 0 ->
  displacementLength d (mk3 (dist3 p1 p2) (dist3 p2 p0) (dist3 p0 p1)) = len3 (bary3 p0 p1 p2 d).
Proof. exact (displacement3_ok p0 p1 p2 d). Qed.
Print Assumptions C54_length_3d.
Example C54_witness : sum3 (mk3 1 (-3) 2) = 0 /\ projectInsideTriangle (mk3 (-1) 1 3) = mk3 0 (1/4) (3/4).
Proof.
  split; [unfold sum3; cbn; ring|]. unfold projectInsideTriangle, normalizeBarycentric, sum3, div3. cbn [qx qy qz].
  rewrite (Rmax_right (-1) 0), (Rmax_left 1 0), (Rmax_left 3 0) by lra. destruct (Req_EM_T _ 0); [exfalso; lra|]. f_equal; field.
Qed.

(** C66. Vector2 multiplies and divides like complex numbers, and rotates accordingly. *)
Theorem C66_complex u v : v <> mk2 0 0 -> cmul (cdiv u v) v = u /\ cdiv (cmul u v) v = u /\ cmul v (inv2 v) = mk2 1 0.
Proof. exact (cdiv_ok u v). Qed.
Print Assumptions C66_complex.
Theorem C66_norm u v : len2 (cmul u v) = len2 u * len2 v.
Proof. exact (cmul_norm u v). Qed.
Print Assumptions C66_norm.
Theorem C66_rotate v t : rotateCCW v t = cmul (fromAngle t) v /\ rotateCW (rotateCCW v t) t = v /\ len2 (rotateCCW v t) = len2 v /\ rotate90 v = rotateCCW v (PI / 2).
Proof. exact (rotate_ok v t). Qed.
Print Assumptions C66_rotate.
Theorem C66_cutoff v mag : (len2 v <= mag -> normalizeCutoff2 v mag = v) /\
  (mag < len2 v -> 0 <= mag -> len2 (normalizeCutoff2 v mag) = 1 /\ v = mul2 (normalizeCutoff2 v mag) (len2 v)).
Proof. exact (normalizeCutoff_ok v mag). Qed.
Print Assumptions C66_cutoff.
(** Rotation about an axis: scalar products are kept, the component along the axis is kept, and a vector perpendicular to
    the axis turns by the angle, towards axis x v. *)
Theorem C66_around u v axis t : axis <> mk3 0 0 0 ->
  inner3 (rotateAround u axis t) (rotateAround v axis t) = inner3 u v /\ inner3 axis (rotateAround v axis t) = inner3 axis v /\
  (inner3 axis v = 0 -> inner3 (rotateAround v axis t) v = inner3 v v * cos t /\ inner3 (rotateAround v axis t) (cross3 axis v) = len3 axis * inner3 v v * sin t).
Proof.
  intros N. destruct (normalize3_ok axis N) as (K & E & L). rewrite !rotateAround_rod by exact N. split; [exact (rodrigues_inner u v _ t K)|].
  assert (S : forall w, inner3 axis w = inner3 (normalize3 axis) w * len3 axis).
  { intros w. rewrite E at 1. unfold inner3, mul3. cbn [qx qy qz]. ring. }
  split; [rewrite !S, rodrigues_axis by exact K; reflexivity|]. intros O. rewrite S in O.
  destruct (rodrigues_turn v (normalize3 axis) t K) as (A & B); [apply Rmult_integral in O; lra|]. split; [exact A|].
  transitivity (len3 axis * (inner3 v v * sin t)); [|ring]. rewrite <- B. rewrite E at 2. unfold inner3, cross3, mul3. cbn [qx qy qz]. ring.
Qed.
Print Assumptions C66_around.
Theorem C66_remove v u : inner3 u u = 1 -> inner3 (removeComponent v u) u = 0 /\ exists k, v = add3 (removeComponent v u) (mul3 u k).
Proof. exact (removeComponent_ok v u). Qed.
Print Assumptions C66_remove.
(** two unit vectors, perpendicular to each other and to v, with v along their cross product *)
Theorem C66_basis v : v <> mk3 0 0 0 -> let (x, y) := buildTangentBasis v in
  inner3 x x = 1 /\ inner3 y y = 1 /\ inner3 x y = 0 /\ inner3 x v = 0 /\ inner3 y v = 0 /\ v = mul3 (cross3 x y) (len3 v).
Proof. exact (tangentBasis_ok v). Qed.
Print Assumptions C66_basis.
Theorem C66_angle t : 0 <= regularizeAngle t < 2 * PI /\ exists k : Z, t = regularizeAngle t + 2 * PI * IZR k.
Proof. exact (regularize_ok t). Qed.
Print Assumptions C66_angle.
Example C66_witness : mk3 0 0 2 <> mk3 0 0 0 /\ inner3 (mk3 0 0 2) (mk3 1 0 0) = 0 /\ cross3 (mk3 0 0 2) (mk3 1 0 0) = mk3 0 2 0 /\ inner3 (mk3 0 1 0) (mk3 0 1 0) = 1.
Proof. split; [intros E; injection E; lra|]. split; [unfold inner3; cbn; ring|]. split; [unfold cross3; cbn; f_equal; ring|unfold inner3; cbn; ring]. Qed.

(** C67. Where two lines that are not parallel meet: the returned parameters give the common point, and no others do. *)
Theorem C67_rays a d b e : px e * - py d + py e * px d <> 0 ->
  let (t, s) := rayRayIntersection a d b e in ray2 a d t = ray2 b e s /\ forall t' s', ray2 a d t' = ray2 b e s' -> t' = t /\ s' = s.
Proof. exact (rayRay_ok a d b e). Qed.
Print Assumptions C67_rays.
Theorem C67_ray_segment a d b c : (px c - px b) * - py d + (py c - py b) * px d <> 0 ->
  let (t, s) := raySegmentIntersection a d b c in ray2 a d t = along2 b c s /\ forall t' s', ray2 a d t' = along2 b c s' -> t' = t /\ s' = s.
Proof. exact (raySegment_ok a d b c). Qed.
Print Assumptions C67_ray_segment.
(** [hit] tells whether the segments have a point in common *)
Theorem C67_segments a b c d : (px d - px c) * (py b - py a) - (py d - py c) * (px b - px a) <> 0 ->
  let '(s, t, hit) := segmentSegmentIntersection a b c d in along2 a b s = along2 c d t /\
    (hit <-> exists s' t', 0 <= s' <= 1 /\ 0 <= t' <= 1 /\ along2 a b s' = along2 c d t').
Proof. exact (segSeg_ok a b c d). Qed.
Print Assumptions C67_segments.
(** for a counter-clockwise triangle with circumcentre o and radius r *)
Theorem C67_circle a b c t o r : 0 < area2 a b c -> dist2 a o = r -> dist2 b o = r -> dist2 c o = r -> (inCircleTest a b c t <-> dist2 t o < r).
Proof. exact (inCircle_ok a b c t o r). Qed.
Print Assumptions C67_circle.
(** [tetFourthPoint]: if some point d0 has the given distances then so has the result, and it lies on the
    side of the plane abc opposite to (b-a) x (c-a): its signed volume is not positive. The header says "positive
    orientation", which in the usual sign convention is the other side. *)
Theorem C67_tet a b c d0 : spread3 a b c ->
  let d := tetFourthPoint a b c (dist3 a d0) (dist3 b d0) (dist3 c d0) in
  dist3 a d = dist3 a d0 /\ dist3 b d = dist3 b d0 /\ dist3 c d = dist3 c d0 /\ vol6 a b c d = - Rabs (vol6 a b c d0).
Proof. exact (tet_ok a b c d0). Qed.
Print Assumptions C67_tet.
Example C67_witness : spread3 (mk3 0 0 0) (mk3 1 0 0) (mk3 0 1 0) /\ vol6 (mk3 0 0 0) (mk3 1 0 0) (mk3 0 1 0) (mk3 0 0 1) = 1 /\
  0 < area2 (mk2 1 0) (mk2 0 1) (mk2 (-1) 0) /\ dist2 (mk2 0 1) (mk2 0 0) = 1 /\ dist2 (mk2 (-1) 0) (mk2 0 0) = 1 /\ dist2 (mk2 1 0) (mk2 0 0) = 1.
Proof.
  split. { intros (s & t & N & A & B & C). cbn in *. lra. }
  split; [unfold vol6; cbn; ring|]. split; [unfold area2; cbn; lra|].
  split; [|split]; unfold dist2, Rsqr; cbn [px py]; match goal with |- sqrt ?x = 1 => replace x with (1 * 1) by ring end; apply sqrt_square; lra.
Qed.
