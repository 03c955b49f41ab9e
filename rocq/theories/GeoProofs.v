(** Proofs about GeoModel.v *)
From Verif Require Import GeoModel GeoSpec.
From Coq Require Import Reals Lra Psatz.
Open Scope R_scope.

Lemma eq2 u v : px u = px v -> py u = py v -> u = v.
Proof. destruct u, v; cbn; congruence. Qed.
Lemma eq3 u v : qx u = qx v -> qy u = qy v -> qz u = qz v -> u = v.
Proof. destruct u, v; cbn; congruence. Qed.
Lemma sqrt_eq a b : 0 <= b -> a = b * b -> sqrt a = b.
Proof. intros H ->. apply sqrt_square; auto. Qed.
Lemma sos2 a b : a * a + b * b = 0 -> a = 0 /\ b = 0.
Proof. intros H. pose proof (Rle_0_sqr a). pose proof (Rle_0_sqr b). unfold Rsqr in *. split; apply Rsqr_0_uniq; unfold Rsqr; lra. Qed.
Lemma sos3 a b c : a * a + b * b + c * c = 0 -> a = 0 /\ b = 0 /\ c = 0.
Proof. intros H. pose proof (Rle_0_sqr a). pose proof (Rle_0_sqr b). pose proof (Rle_0_sqr c). unfold Rsqr in *. repeat split; apply Rsqr_0_uniq; unfold Rsqr; lra. Qed.
Lemma sos2_ge a b : 0 <= a * a + b * b. Proof. pose proof (Rle_0_sqr a). pose proof (Rle_0_sqr b). unfold Rsqr in *. lra. Qed.
Lemma sos3_ge a b c : 0 <= a * a + b * b + c * c. Proof. pose proof (Rle_0_sqr a). pose proof (Rle_0_sqr b). pose proof (Rle_0_sqr c). unfold Rsqr in *. lra. Qed.
Lemma sqrt_pos_lt a : 0 < a -> 0 < sqrt a. Proof. apply sqrt_lt_R0. Qed.

(** ** triangleArea *)
Lemma heron a b c : let s := (a + b + c) / 2 in
  16 * (s * (s - a) * (s - b) * (s - c)) = 4 * (a * a) * (c * c) - (a * a - b * b + c * c) * (a * a - b * b + c * c).
Proof. cbv zeta. field. Qed.
Lemma heron_pos a b c : 0 <= a -> 0 <= b -> 0 <= c -> a <= b + c -> b <= c + a -> c <= a + b ->
  let s := (a + b + c) / 2 in 0 <= s * (s - a) * (s - b) * (s - c).
Proof. cbv zeta. intros. apply Rmult_le_pos; [apply Rmult_le_pos; [apply Rmult_le_pos|]|]; lra. Qed.
Lemma heron_pos_lt a b c : a < b + c -> b < c + a -> c < a + b ->
  let s := (a + b + c) / 2 in 0 < s * (s - a) * (s - b) * (s - c).
Proof. cbv zeta. intros. apply Rmult_lt_0_compat; [apply Rmult_lt_0_compat; [apply Rmult_lt_0_compat|]|]; lra. Qed.

Lemma dist2_sq a b : dist2 a b * dist2 a b = (px a - px b) * (px a - px b) + (py a - py b) * (py a - py b).
Proof. unfold dist2, Rsqr. apply sqrt_sqrt. apply sos2_ge. Qed.
Lemma dist3_sq a b : dist3 a b * dist3 a b = (qx a - qx b) * (qx a - qx b) + (qy a - qy b) * (qy a - qy b) + (qz a - qz b) * (qz a - qz b).
Proof. unfold dist3, Rsqr. apply sqrt_sqrt. apply sos3_ge. Qed.
Lemma dist2_pos a b : 0 <= dist2 a b. Proof. apply sqrt_pos. Qed.
Lemma dist3_pos a b : 0 <= dist3 a b. Proof. apply sqrt_pos. Qed.
Lemma dist2_neq a b : a <> b -> 0 < dist2 a b.
Proof.
  intros N. apply sqrt_lt_R0. unfold Rsqr. destruct (sos2_ge (px a - px b) (py a - py b)) as [H|H]; [lra|]. exfalso. apply N.
  symmetry in H. apply sos2 in H as (X & Y). apply eq2; lra.
Qed.

Lemma triangleArea_points a b c : triangleArea (dist2 a b) (dist2 b c) (dist2 c a) = Rabs (area2 a b c) / 2.
Proof.
  unfold triangleArea. pose proof (heron (dist2 a b) (dist2 b c) (dist2 c a)) as H. cbv zeta in *.
  rewrite !dist2_sq in H. set (q := _ * _ * _ * _) in H at 1.
  assert (Q : q = (Rabs (area2 a b c) / 2) * (Rabs (area2 a b c) / 2)).
  { replace (Rabs (area2 a b c) / 2 * (Rabs (area2 a b c) / 2)) with ((Rabs (area2 a b c))² / 4) by (unfold Rsqr; field).
    rewrite <- Rsqr_abs. unfold Rsqr, area2. lra. }
  fold q. rewrite Q. rewrite Rmax_right by (apply Rle_0_sqr). apply sqrt_square. pose proof (Rabs_pos (area2 a b c)). lra.
Qed.
Lemma triangleArea_invalid a b c : 0 <= a -> 0 <= b -> 0 <= c -> ~ (a <= b + c /\ b <= c + a /\ c <= a + b) -> triangleArea a b c = 0.
Proof.
  intros A B C N. unfold triangleArea. rewrite Rmax_left; [apply sqrt_0|].
  destruct (Rle_dec a (b + c)) as [X|X]; [destruct (Rle_dec b (c + a)) as [Y|Y]; [destruct (Rle_dec c (a + b)) as [W|W]; [tauto|]|]|].
  - assert (0 <= (a + b + c) / 2 * ((a + b + c) / 2 - a) * ((a + b + c) / 2 - b) * - ((a + b + c) / 2 - c)); [|lra].
    apply Rmult_le_pos; [apply Rmult_le_pos; [apply Rmult_le_pos|]|]; lra.
  - assert (0 <= (a + b + c) / 2 * ((a + b + c) / 2 - a) * - ((a + b + c) / 2 - b) * ((a + b + c) / 2 - c)); [|lra].
    apply Rmult_le_pos; [apply Rmult_le_pos; [apply Rmult_le_pos|]|]; lra.
  - assert (0 <= (a + b + c) / 2 * - ((a + b + c) / 2 - a) * ((a + b + c) / 2 - b) * ((a + b + c) / 2 - c)); [|lra].
    apply Rmult_le_pos; [apply Rmult_le_pos; [apply Rmult_le_pos|]|]; lra.
Qed.

(** ** layoutTriangleVertex *)
Lemma layout_ok pA pB lBC lCA : pA <> pB -> 0 <= lBC -> 0 <= lCA ->
  dist2 pA pB <= lBC + lCA -> lBC <= lCA + dist2 pA pB -> lCA <= dist2 pA pB + lBC ->
  let pC := layoutTriangleVertex pA pB lBC lCA in
  dist2 pC pA = lCA /\ dist2 pC pB = lBC /\ 0 <= area2 pA pB pC /\
  (dist2 pA pB < lBC + lCA -> lBC < lCA + dist2 pA pB -> lCA < dist2 pA pB + lBC -> 0 < area2 pA pB pC).
Proof.
  intros N P1 P2 T1 T2 T3. cbv zeta. unfold layoutTriangleVertex.
  assert (EL : norm2d (sub2 pB pA) = dist2 pA pB). { unfold norm2d, sub2, dist2, Rsqr. cbn [px py]. f_equal. ring. }
  rewrite EL. pose proof (dist2_sq pA pB) as SQ. pose proof (dist2_neq _ _ N) as LP. remember (dist2 pA pB) as L eqn:HL.
  pose proof (heron L lBC lCA) as H. pose proof (heron_pos L lBC lCA ltac:(lra) P1 P2 ltac:(lra) ltac:(lra) ltac:(lra)) as HP.
  assert (AR : triangleArea L lBC lCA * triangleArea L lBC lCA = (L + lBC + lCA) / 2 * ((L + lBC + lCA) / 2 - L) * ((L + lBC + lCA) / 2 - lBC) * ((L + lBC + lCA) / 2 - lCA)).
  { unfold triangleArea. cbv zeta in HP. rewrite Rmax_right by exact HP. apply sqrt_sqrt. exact HP. }
  assert (AP : 0 <= triangleArea L lBC lCA) by apply sqrt_pos.
  assert (APL : L < lBC + lCA -> lBC < lCA + L -> lCA < L + lBC -> 0 < triangleArea L lBC lCA).
  { intros. unfold triangleArea. cbv zeta in HP. rewrite Rmax_right by exact HP. apply sqrt_lt_R0. apply heron_pos_lt; lra. }
  cbv zeta in H. rewrite <- AR in H. remember (triangleArea L lBC lCA) as t eqn:Ht. clear Ht AR HP EL.
  destruct pA as [ax ay], pB as [bx by_]. unfold add2, mul2, sub2, div2. cbn [px py] in *.
  set (ux := (bx - ax) * (1 / L)). set (uy := (by_ - ay) * (1 / L)).
  assert (U : ux * ux + uy * uy = 1). { unfold ux, uy. apply Rmult_eq_reg_r with (L * L); [|nra]. transitivity ((ax - bx) * (ax - bx) + (ay - by_) * (ay - by_)); [field; lra|lra]. }
  assert (BX : bx - ax = L * ux) by (unfold ux; field; lra). assert (BY : by_ - ay = L * uy) by (unfold uy; field; lra).
  clearbody ux uy.
  set (h := 2 * t / L). set (w := (L * L - lBC * lBC + lCA * lCA) / (2 * L)).
  assert (HW : h * h + w * w = lCA * lCA).
  { unfold h, w. apply Rmult_eq_reg_r with (4 * (L * L)); [|nra].
    transitivity (16 * (t * t) + (L * L - lBC * lBC + lCA * lCA) * (L * L - lBC * lBC + lCA * lCA)); [field; lra|]. rewrite H. ring. }
  assert (WL : 2 * L * w = L * L - lBC * lBC + lCA * lCA) by (unfold w; field; lra).
  assert (HL2 : L * h = 2 * t) by (unfold h; field; lra). clearbody h w.
  assert (AREA : area2 (mk2 ax ay) (mk2 bx by_) (mk2 (ax + ux * w + - uy * h) (ay + uy * w + ux * h)) = 2 * t).
  { unfold area2. cbn [px py]. rewrite BX, BY. rewrite <- HL2. transitivity ((ux * ux + uy * uy) * (L * h)); [ring|rewrite U; ring]. }
  rewrite AREA. split; [|split; [|split]].
  - unfold dist2, Rsqr. cbn [px py]. apply sqrt_eq; [lra|]. transitivity ((ux * ux + uy * uy) * (h * h + w * w)); [ring|rewrite U, HW; ring].
  - unfold dist2, Rsqr. cbn [px py]. apply sqrt_eq; [lra|]. replace bx with (ax + L * ux) by lra. replace by_ with (ay + L * uy) by lra.
    transitivity ((ux * ux + uy * uy) * (h * h + w * w - 2 * L * w + L * L)); [ring|rewrite U, HW, WL; ring].
  - lra.
  - intros A B C. specialize (APL A B C). lra.
Qed.

(** ** nearest point on a segment *)
(** minimum of a quadratic with positive leading coefficient on [0,1] *)
Lemma clamp_min q b s : 0 < q -> 0 <= s <= 1 -> let t := clamp (b / q) 0 1 in 0 <= t <= 1 /\ q * t * t - 2 * b * t <= q * s * s - 2 * b * s.
Proof.
  intros Q S. cbv zeta. unfold clamp. assert (E : b = b / q * q) by (field; lra). set (r := b / q) in *. rewrite E. clearbody r. clear E b.
  destruct (Rgt_dec r 1) as [A|A]; [|destruct (Rlt_dec r 0) as [B|B]]; split; try lra.
  - assert (0 <= q * ((1 - s) * (2 * r - 1 - s))); [|lra]. apply Rmult_le_pos; [lra|]. apply Rmult_le_pos; lra.
  - assert (0 <= q * (s * (s - 2 * r))); [|lra]. apply Rmult_le_pos; [lra|]. apply Rmult_le_pos; lra.
  - assert (0 <= q * ((s - r) * (s - r))); [|lra]. apply Rmult_le_pos; [lra|]. apply Rle_0_sqr.
Qed.
Lemma clamp_unit x : 0 <= clamp x 0 1 <= 1.
Proof. unfold clamp. destruct (Rgt_dec x 1); [lra|]. destruct (Rlt_dec x 0); lra. Qed.

Lemma nearest3_ok p a b s : 0 <= s <= 1 -> let t := pointLineSegmentNeaestLocation p a b in
  0 <= t <= 1 /\ dist3 p (along3 a b t) <= dist3 p (along3 a b s).
Proof.
  intros S. cbv zeta. unfold pointLineSegmentNeaestLocation, norm2_3, dot3, sub3, dist3, along3, Rsqr. cbn [qx qy qz].
  destruct p as [x y z], a as [ax ay az], b as [bx by_ bz]. cbn [qx qy qz].
  set (q := (ax - bx) * (ax - bx) + (ay - by_) * (ay - by_) + (az - bz) * (az - bz)).
  destruct (Req_EM_T q 0) as [E|E].
  - split; [lra|]. apply sos3 in E as (E1 & E2 & E3). right. f_equal. assert (ax = bx) by lra. assert (ay = by_) by lra. assert (az = bz) by lra. subst. ring.
  - assert (Q : 0 < q) by (pose proof (sos3_ge (ax - bx) (ay - by_) (az - bz)) as G; change (0 <= q) in G; lra).
    set (d := (x - ax) * (bx - ax) + (y - ay) * (by_ - ay) + (z - az) * (bz - az)).
    destruct (clamp_min q d s Q S) as (T & M). split; [exact T|]. set (t := clamp (d / q) 0 1) in *. clearbody t. apply sqrt_le_1_alt.
    assert (X : forall r, (x - ((1 - r) * ax + r * bx)) * (x - ((1 - r) * ax + r * bx)) + (y - ((1 - r) * ay + r * by_)) * (y - ((1 - r) * ay + r * by_)) + (z - ((1 - r) * az + r * bz)) * (z - ((1 - r) * az + r * bz)) =
      (x - ax) * (x - ax) + (y - ay) * (y - ay) + (z - az) * (z - az) + (q * r * r - 2 * d * r)) by (intros r; unfold q, d; ring).
    rewrite !X. lra.
Qed.
Lemma distance3_ok p a b : let t := pointLineSegmentNeaestLocation p a b in pointLineSegmentDistance3 p a b = dist3 p (along3 a b t).
Proof. cbv zeta. unfold pointLineSegmentDistance3, norm3d, dist3, Rsqr, along3, add3, mul3, sub3. cbn [qx qy qz]. f_equal. ring. Qed.
Lemma distance2_ok p a b : exists t, 0 <= t <= 1 /\ pointLineSegmentDistance2 p a b = dist2 p (along2 a b t) /\
  forall s, 0 <= s <= 1 -> dist2 p (along2 a b t) <= dist2 p (along2 a b s).
Proof.
  unfold pointLineSegmentDistance2, norm2_2, norm2d, dot2, add2, mul2, sub2, dist2, along2, Rsqr. cbn [px py].
  destruct p as [x y], a as [ax ay], b as [bx by_]. cbn [px py].
  set (q := (ax - bx) * (ax - bx) + (ay - by_) * (ay - by_)).
  destruct (Req_EM_T q 0) as [E|E].
  - apply sos2 in E as (E1 & E2). assert (ax = bx) by lra. assert (ay = by_) by lra. subst bx by_. exists 0. split; [lra|]. split; [f_equal; ring|].
    intros s S. right. f_equal. ring.
  - assert (Q : 0 < q) by (pose proof (sos2_ge (ax - bx) (ay - by_)) as G; change (0 <= q) in G; lra).
    set (d := (x - ax) * (bx - ax) + (y - ay) * (by_ - ay)). exists (clamp (d / q) 0 1). split; [apply clamp_unit|]. split; [f_equal; ring|].
    intros s S. destruct (clamp_min q d s Q S) as (T & M). set (t := clamp (d / q) 0 1) in *. clearbody t. apply sqrt_le_1_alt.
    assert (X : forall r, (x - ((1 - r) * ax + r * bx)) * (x - ((1 - r) * ax + r * bx)) + (y - ((1 - r) * ay + r * by_)) * (y - ((1 - r) * ay + r * by_)) =
      (x - ax) * (x - ax) + (y - ay) * (y - ay) + (q * r * r - 2 * d * r)) by (intros r; unfold q, d; ring).
    rewrite !X. lra.
Qed.

(** ** intersections *)
Lemma rayRay_ok a d b e : px e * - py d + py e * px d <> 0 ->
  let (t, s) := rayRayIntersection a d b e in ray2 a d t = ray2 b e s /\ forall t' s', ray2 a d t' = ray2 b e s' -> t' = t /\ s' = s.
Proof.
  intros N. unfold rayRayIntersection, cross2, dot2, sub2, ray2. destruct a as [ax ay], d as [dx dy], b as [bx by_], e as [ex ey]. cbn [px py] in *.
  split.
  - apply eq2; cbn [px py]; field; lra.
  - intros t' s' E. injection E as E1 E2. assert (bx = ax + t' * dx - s' * ex) by lra. assert (by_ = ay + t' * dy - s' * ey) by lra. subst bx by_. split; field; lra.
Qed.
Lemma raySegment_ok a d b c : (px c - px b) * - py d + (py c - py b) * px d <> 0 ->
  let (t, s) := raySegmentIntersection a d b c in ray2 a d t = along2 b c s /\ forall t' s', ray2 a d t' = along2 b c s' -> t' = t /\ s' = s.
Proof.
  intros N. unfold raySegmentIntersection, cross2, dot2, sub2, ray2, along2. destruct a as [ax ay], d as [dx dy], b as [bx by_], c as [cx cy]. cbn [px py] in *.
  split.
  - apply eq2; cbn [px py]; field; lra.
  - intros t' s' E. injection E as E1 E2.
    assert (ax = (1 - s') * bx + s' * cx - t' * dx) by lra. assert (ay = (1 - s') * by_ + s' * cy - t' * dy) by lra. subst ax ay. split; field; lra.
Qed.
Lemma segSeg_ok a b c d : (px d - px c) * (py b - py a) - (py d - py c) * (px b - px a) <> 0 ->
  let '(s, t, hit) := segmentSegmentIntersection a b c d in along2 a b s = along2 c d t /\
    (hit <-> exists s' t', 0 <= s' <= 1 /\ 0 <= t' <= 1 /\ along2 a b s' = along2 c d t').
Proof.
  intros N. unfold segmentSegmentIntersection.
  assert (NE : a <> b) by (intros ->; apply N; ring).
  assert (LP : 0 < norm2d (sub2 b a)). { replace (norm2d (sub2 b a)) with (dist2 a b) by (unfold norm2d, sub2, dist2, Rsqr; cbn [px py]; f_equal; ring). apply dist2_neq; auto. }
  remember (norm2d (sub2 b a)) as L. set (dir := div2 (sub2 b a) L).
  assert (EX : px dir = (px b - px a) / L) by (unfold dir, div2, sub2; cbn; field; lra).
  assert (EY : py dir = (py b - py a) / L) by (unfold dir, div2, sub2; cbn; field; lra).
  pose proof (raySegment_ok a dir c d) as H. rewrite EX, EY in H. destruct (raySegmentIntersection a dir c d) as [t s].
  assert (K : (px d - px c) * - ((py b - py a) / L) + (py d - py c) * ((px b - px a) / L) <> 0).
  { intros X. apply N. apply Rmult_eq_reg_r with (- / L); [|apply Ropp_neq_0_compat, Rinv_neq_0_compat; lra]. rewrite Rmult_0_l. rewrite <- X. field. lra. }
  destruct (H K) as (E & U). clear H.
  assert (S : forall r, ray2 a dir r = along2 a b (r / L)). { intros r. unfold ray2, along2. rewrite EX, EY. apply eq2; cbn [px py]; field; lra. }
  split; [rewrite <- S; exact E|]. split.
  - intros (A & B & C & D). exists (t / L), s. split; [lra|]. split; [lra|]. rewrite <- S. exact E.
  - intros (s' & t' & A & B & X). destruct (U (s' * L) t') as (X1 & X2). rewrite S. replace (s' * L / L) with s' by (field; lra). exact X.
    subst t s. replace (s' * L / L) with s' by (field; lra). lra.
Qed.

(** ** in-circle *)
Lemma inCircle_ok a b c t o r : 0 < area2 a b c -> dist2 a o = r -> dist2 b o = r -> dist2 c o = r -> (inCircleTest a b c t <-> dist2 t o < r).
Proof.
  intros P A B C. pose proof (dist2_sq a o) as QA. pose proof (dist2_sq b o) as QB. pose proof (dist2_sq c o) as QC. pose proof (dist2_sq t o) as QT.
  rewrite A in QA. rewrite B in QB. rewrite C in QC. pose proof (dist2_pos a o) as RP. rewrite A in RP. pose proof (dist2_pos t o) as TP.
  unfold inCircleTest.
  assert (I : inCircleDet a b c t = area2 a b c * (r * r - dist2 t o * dist2 t o)).
  { unfold inCircleDet, det3, norm2_2. destruct a as [ax ay], b as [bx by_], c as [cx cy], t as [tx ty], o as [ox oy]. cbn [px py area2] in *.
    transitivity (((cx - bx) * (ty - by_) - (cy - by_) * (tx - bx)) * ((ax - ox) * (ax - ox) + (ay - oy) * (ay - oy))
      - ((cx - ax) * (ty - ay) - (cy - ay) * (tx - ax)) * ((bx - ox) * (bx - ox) + (by_ - oy) * (by_ - oy))
      + ((bx - ax) * (ty - ay) - (by_ - ay) * (tx - ax)) * ((cx - ox) * (cx - ox) + (cy - oy) * (cy - oy))
      - ((bx - ax) * (cy - ay) - (by_ - ay) * (cx - ax)) * ((tx - ox) * (tx - ox) + (ty - oy) * (ty - oy))); [ring|].
    rewrite <- QA, <- QB, <- QC, <- QT. unfold area2. cbn [px py]. ring. }
  rewrite I. set (s := dist2 t o) in *. clearbody s. split.
  - intros X. destruct (Rlt_dec s r) as [Y|Y]; auto. exfalso. assert (area2 a b c * (s * s - r * r) >= 0); [|lra]. apply Rle_ge, Rmult_le_pos; [lra|]. nra.
  - intros X. apply Rlt_gt, Rmult_lt_0_compat; auto. nra.
Qed.

(** ** barycentric coordinates *)
Lemma normalizeBarycentric_ok b : sum3 (normalizeBarycentric b) = 1 /\
  (sum3 b <> 0 -> exists k, k <> 0 /\ b = mul3 (normalizeBarycentric b) k) /\ (sum3 b = 1 -> normalizeBarycentric b = b).
Proof.
  unfold normalizeBarycentric. destruct b as [x y z]. cbv zeta. unfold sum3, div3, mul3. cbn [qx qy qz].
  destruct (Req_EM_T (x + y + z) 0) as [E|E]; cbn [qx qy qz].
  - split; [lra|]. split; intros X; [contradiction|lra].
  - split; [field; auto|]. split.
    + intros _. exists (x + y + z). split; auto. apply eq3; cbn [qx qy qz]; field; auto.
    + intros S. rewrite S. apply eq3; cbn [qx qy qz]; field.
Qed.
Lemma normalizeDisplacement_ok b : sum3 (normalizeBarycentricDisplacement b) = 0 /\ (sum3 b = 0 -> normalizeBarycentricDisplacement b = b).
Proof.
  unfold normalizeBarycentricDisplacement, sum3, sub3. destruct b as [x y z]. cbn [qx qy qz]. split; [field|].
  intros E. rewrite E. apply eq3; cbn [qx qy qz]; field.
Qed.
Lemma project_ok b : let r := projectInsideTriangle b in sum3 r = 1 /\ 0 <= qx r <= 1 /\ 0 <= qy r <= 1 /\ 0 <= qz r <= 1 /\
  (sum3 b = 1 -> 0 <= qx b -> 0 <= qy b -> 0 <= qz b -> r = b).
Proof.
  cbv zeta. unfold projectInsideTriangle. set (c := mk3 _ _ _). destruct (normalizeBarycentric_ok c) as (S & _ & I).
  assert (A : 0 <= qx c) by apply Rmax_r. assert (B : 0 <= qy c) by apply Rmax_r. assert (C : 0 <= qz c) by apply Rmax_r.
  assert (P : 0 <= qx (normalizeBarycentric c) /\ 0 <= qy (normalizeBarycentric c) /\ 0 <= qz (normalizeBarycentric c)).
  { unfold normalizeBarycentric. cbv zeta. destruct (Req_EM_T (sum3 c) 0) as [E|E]; unfold div3; cbn [qx qy qz]; [lra|].
    assert (0 < 1 / sum3 c). { apply Rmult_lt_0_compat; [lra|]. apply Rinv_0_lt_compat. unfold sum3 in *. lra. }
    split; [|split]; apply Rmult_le_pos; lra. }
  split; [exact S|]. unfold sum3 in S. split; [lra|]. split; [lra|]. split; [lra|].
  intros X H1 H2 H3. assert (c = b) as E. { apply eq3; unfold c; cbn [qx qy qz]; rewrite Rmax_left; auto. } rewrite <- E. apply I. rewrite E. exact X.
Qed.
Lemma displacement_ok p0 p1 p2 d : sum3 d = 0 ->
  displacementLength d (mk3 (dist2 p1 p2) (dist2 p2 p0) (dist2 p0 p1)) = len2 (bary2 p0 p1 p2 d) /\
  displacementLength2 d (mk3 (dist2 p1 p2) (dist2 p2 p0) (dist2 p0 p1)) = (len2 (bary2 p0 p1 p2 d))².
Proof.
  intros S. assert (E : displacementLength2 d (mk3 (dist2 p1 p2) (dist2 p2 p0) (dist2 p0 p1)) = px (bary2 p0 p1 p2 d) * px (bary2 p0 p1 p2 d) + py (bary2 p0 p1 p2 d) * py (bary2 p0 p1 p2 d)).
  { unfold displacementLength2. cbn [qx qy qz].
    transitivity (- (dist2 p1 p2 * dist2 p1 p2) * qy d * qz d - (dist2 p2 p0 * dist2 p2 p0) * qz d * qx d - (dist2 p0 p1 * dist2 p0 p1) * qx d * qy d); [ring|].
    rewrite !dist2_sq. unfold bary2. cbn [px py]. destruct p0 as [ax ay], p1 as [bx by_], p2 as [cx cy], d as [x y z]. unfold sum3 in S. cbn [px py qx qy qz] in *.
    replace z with (- x - y) by lra. ring. }
  split.
  - unfold displacementLength. rewrite E. rewrite Rmax_left by apply sos2_ge. reflexivity.
  - rewrite E. unfold len2. rewrite Rsqr_sqrt by apply sos2_ge. reflexivity.
Qed.
Lemma displacement3_ok p0 p1 p2 d : sum3 d = 0 ->
  displacementLength d (mk3 (dist3 p1 p2) (dist3 p2 p0) (dist3 p0 p1)) = len3 (bary3 p0 p1 p2 d).
Proof.
  intros S. unfold displacementLength, len3. f_equal.
  assert (E : displacementLength2 d (mk3 (dist3 p1 p2) (dist3 p2 p0) (dist3 p0 p1)) = inner3 (bary3 p0 p1 p2 d) (bary3 p0 p1 p2 d)).
  { unfold displacementLength2. cbn [qx qy qz].
    transitivity (- (dist3 p1 p2 * dist3 p1 p2) * qy d * qz d - (dist3 p2 p0 * dist3 p2 p0) * qz d * qx d - (dist3 p0 p1 * dist3 p0 p1) * qx d * qy d); [ring|].
    rewrite !dist3_sq. unfold bary3, inner3. cbn [qx qy qz]. destruct p0 as [ax ay az], p1 as [bx by_ bz], p2 as [cx cy cz], d as [x y z]. unfold sum3 in S. cbn [qx qy qz] in *.
    replace z with (- x - y) by lra. ring. }
  rewrite E. apply Rmax_left. unfold inner3. apply sos3_ge.
Qed.
