(** C90: quaternions. *)
From Coq Require Import Reals Lra Psatz.
From Verif Require Import Base GeoModel GeoSpec GeoVec Frame1 QuatModel QuatSpec.
Open Scope R_scope.
Ltac qq := intros; repeat match goal with q : quat |- _ => destruct q as [? [? ? ?]] | v : V3 |- _ => destruct v as [? ? ?] end;
  unfold q1, qi, qj, qk, qOf, qInv, qUnit, comps, inner, qNorm2, qMul, qBar, qAdd, qSub, qNeg, qScale, qDiv, qReal, qImag, zero3, neg3, add3, sub3, mul3, div3, cross3, dot3; cbn [qs qv qx qy qz].
Ltac qeq := repeat (f_equal; try ring).

Lemma norm2_pos q : nonzero q -> 0 < inner q q.
Proof.
  intros N. destruct q as [a [b c d]]. unfold inner. cbn [qs qv qx qy qz]. destruct (Rlt_dec 0 (a * a + b * b + c * c + d * d)) as [|Q]; auto. exfalso. apply N. assert (a * a = 0 /\ b * b = 0 /\ c * c = 0 /\ d * d = 0) as (A & B & C & D) by nra.
  apply Rsqr_0_uniq in A, B, C, D. subst. reflexivity.
Qed.
Lemma scale_div q c : c <> 0 -> qScale (qDiv q c) c = q. Proof. intros Hc. destruct q as [a [b d e]]. qq. repeat (f_equal; try (field; lra)). Qed.
Lemma norm_len q : qNorm q = len4 q. Proof. reflexivity. Qed.
Lemma norm2_inner q : qNorm2 q = inner q q. Proof. qq. ring. Qed.
Lemma len_pos q : nonzero q -> 0 < len4 q. Proof. intros N. apply sqrt_lt_R0, norm2_pos, N. Qed.
Lemma len_sq q : len4 q * len4 q = inner q q.
Proof. apply sqrt_sqrt. qq. nra. Qed.

(** The product is the bilinear one with Hamilton's table; it is associative and distributes; 1 is neutral. *)
Theorem C90_product : (qMul qi qi = qNeg q1 /\ qMul qj qj = qNeg q1 /\ qMul qk qk = qNeg q1 /\ qMul qi qj = qk /\ qMul qj qk = qi /\ qMul qk qi = qj /\ qMul qj qi = qNeg qk /\ qMul qk qj = qNeg qi /\ qMul qi qk = qNeg qj) /\
  (forall p q r, qMul p (qMul q r) = qMul (qMul p q) r) /\
  (forall p q r, qMul p (qAdd q r) = qAdd (qMul p q) (qMul p r) /\ qMul (qAdd q r) p = qAdd (qMul q p) (qMul r p)) /\
  (forall p q a, qMul (qScale p a) q = qScale (qMul p q) a /\ qMul p (qScale q a) = qScale (qMul p q) a) /\
  (forall q, qMul q1 q = q /\ qMul q q1 = q) /\
  (forall q, q = qAdd (qAdd (qScale q1 (qs q)) (qScale qi (qx (qv q)))) (qAdd (qScale qj (qy (qv q))) (qScale qk (qz (qv q))))).
Proof. split; [repeat split; qq; qeq|]. split; [qq; qeq|]. split; [split; qq; qeq|]. split; [split; qq; qeq|]. split; [split; qq; qeq|qq; qeq]. Qed.
Print Assumptions C90_product.

(** Sums, differences and multiples are taken component by component. *)
Theorem C90_linear : forall p q c a b d e a' b' d' e', comps p = (a, b, d, e) -> comps q = (a', b', d', e') ->
  comps (qAdd p q) = (a + a', b + b', d + d', e + e') /\ comps (qSub p q) = (a - a', b - b', d - d', e - e') /\ comps (qNeg p) = (- a, - b, - d, - e) /\ comps (qScale p c) = (c * a, c * b, c * d, c * e) /\ comps (qDiv p c) = (a / c, b / c, d / c, e / c).
Proof. intros [s [x y z]] [s' [x' y' z']] c a b d e a' b' d' e' H1 H2. injection H1 as <- <- <- <-. injection H2 as <- <- <- <-. repeat split; qq; try reflexivity; unfold Rdiv; qeq. Qed.
Print Assumptions C90_linear.

(** Norms multiply, conjugation reverses products, and inv is the inverse of every quaternion but zero; unit has length one and the same direction. *)
Theorem C90_norms : (forall p q, qNorm (qMul p q) = qNorm p * qNorm q /\ qNorm2 (qMul p q) = qNorm2 p * qNorm2 q) /\ (forall q, qNorm q = len4 q /\ qNorm2 q = len4 q * len4 q) /\
  (forall p q, qBar (qMul p q) = qMul (qBar q) (qBar p)) /\ (forall q, qMul q (qBar q) = qReal (len4 q * len4 q)) /\
  (forall q, nonzero q -> qMul q (qInv q) = q1 /\ qMul (qInv q) q = q1) /\ (forall q, nonzero q -> len4 (qUnit q) = 1 /\ qScale (qUnit q) (len4 q) = q).
Proof.
  assert (M2 : forall p q, qNorm2 (qMul p q) = qNorm2 p * qNorm2 q) by (qq; ring).
  split.
  { intros p q. split; [|apply M2]. rewrite !norm_len. unfold len4. rewrite <- !norm2_inner, M2, !norm2_inner. apply sqrt_mult; qq; nra. }
  split; [intros q; split; [reflexivity|rewrite norm2_inner, len_sq; reflexivity]|]. split; [qq; qeq|]. split; [intros q; rewrite len_sq; qq; qeq|]. split.
  - intros q N. pose proof (norm2_pos q N) as P. unfold qInv. rewrite norm2_inner.
    assert (A : forall n, n <> 0 -> qMul q (qDiv (qBar q) n) = qReal (inner q q / n) /\ qMul (qDiv (qBar q) n) q = qReal (inner q q / n)). { clear. intros n Hn. destruct q as [a [b c d]]. split; qq; unfold Rdiv; qeq. }
    destruct (A (inner q q)) as [-> ->]; [lra|]. unfold qReal, q1, qOf, zero3, Rdiv. rewrite Rinv_r by lra. auto.
  - intros q N. pose proof (len_pos q N) as P. pose proof (len_sq q) as S. rewrite <- norm_len in *. split.
    + assert (U : inner (qUnit q) (qUnit q) = 1).
      { transitivity (inner q q / (qNorm q * qNorm q)); [|rewrite <- S; field; lra]. unfold qUnit. revert P. generalize (qNorm q). clear. intros l P. destruct q as [a [b c d]]. qq. field. lra. }
      change (sqrt (inner (qUnit q) (qUnit q)) = 1). rewrite U. apply sqrt_1.
    + apply (scale_div q (len4 q)). pose proof (len_pos q N). lra.
Qed.
Print Assumptions C90_norms.

(** toMatrix represents multiplication: products of quaternions are products of matrices, and its first column is the quaternion. *)
Theorem C90_matrix : forall p q i j, (i < 4)%nat -> (j < 4)%nat -> qMatrix (qMul p q) i j = dotRow (qMatrix p) i (qMatrix q) j /\ comps q = (qMatrix q 0 0, qMatrix q 1 0, qMatrix q 2 0, qMatrix q 3 0)%nat.
Proof.
  intros p q i j Hi Hj. split; [|destruct q as [a [b c d]]; reflexivity]. destruct p as [a [b c d]], q as [a' [b' c' d']].
  destruct i as [|[|[|[|]]]]; [..|lia]; (destruct j as [|[|[|[|]]]]; [..|lia]); unfold dotRow, qMatrix, qMul, add3, mul3, cross3, dot3; cbn [qs qv qx qy qz nth]; ring.
Qed.
Print Assumptions C90_matrix.

(** Conjugation with the unit quaternion of half the angle rotates around the axis. *)
Theorem C90_rotation : forall v axis theta, norm3d axis = 1 -> let q := mkQ (cos (theta / 2)) (mul3 axis (sin (theta / 2))) in qMul (qMul q (qImag v)) (qBar q) = qImag (rotateAround v axis theta) /\ len4 q = 1.
Proof.
  intros v axis theta U. assert (A : inner3 axis axis = 1). { unfold norm3d in U. unfold inner3. rewrite <- (sqrt_sqrt (qx axis * qx axis + qy axis * qy axis + qz axis * qz axis)) by nra. rewrite U. ring. }
  assert (CC : cos theta = cos (theta / 2) * cos (theta / 2) - sin (theta / 2) * sin (theta / 2)) by (rewrite <- cos_plus; f_equal; lra). assert (SS : sin theta = 2 * sin (theta / 2) * cos (theta / 2)) by (rewrite <- sin_2a; f_equal; lra). pose proof (sin2_cos2 (theta / 2)) as P. unfold Rsqr in P.
  intros q. split.
  - unfold q. rewrite rotateAround_rod by (apply ne_unit; exact A). rewrite normalize_unit by exact A. unfold rodrigues. cbv zeta. rewrite CC, SS. revert P A. generalize (cos (theta / 2)) (sin (theta / 2)). clear. intros c s P A. destruct v as [x y z], axis as [a b d]. unfold inner3 in *. cbn [qx qy qz] in *.
    qq. f_equal; [ring|].
    assert (Z : forall w k, s * s * w * (1 - (a * a + b * b + d * d)) + k * (a * x + b * y + d * z) * (s * s + c * c - 1) = 0) by (intros w k; rewrite A, P; ring).
    f_equal; apply Rminus_diag_uniq; [rewrite <- (Z x a)|rewrite <- (Z y b)|rewrite <- (Z z d)]; ring.
  - unfold len4. rewrite <- sqrt_1. f_equal. unfold q, inner. destruct axis as [a b d]. unfold mul3, inner3 in *. cbn [qs qv qx qy qz] in *. nra.
Qed.
Print Assumptions C90_rotation.

Lemma inner_scale p q a b : inner (qDiv p a) (qDiv q b) = inner p q * (/ a * / b).
Proof. qq. unfold Rdiv. ring. Qed.
Lemma dot_bar p q : qs (qMul (qBar p) q) = inner p q. Proof. qq. ring. Qed.
Lemma cauchy p q : inner p q * inner p q <= inner p p * inner q q.
Proof.
  destruct p as [a [b c d]], q as [a' [b' c' d']]. unfold inner. cbn [qs qv qx qy qz].
  pose proof (Rle_0_sqr (a * b' - b * a')). pose proof (Rle_0_sqr (a * c' - c * a')). pose proof (Rle_0_sqr (a * d' - d * a')). pose proof (Rle_0_sqr (b * c' - c * b')). pose proof (Rle_0_sqr (b * d' - d * b')). pose proof (Rle_0_sqr (c * d' - d * c')). unfold Rsqr in *. nra.
Qed.
Lemma indep_nz p q : independent p q -> nonzero p /\ nonzero q.
Proof. intros I. split; intros ->; [destruct (I 1 0) as [H _]|destruct (I 0 1) as [_ H]]; try lra; qq; qeq. Qed.
Lemma unit_one q : nonzero q -> inner (qDiv q (qNorm q)) (qDiv q (qNorm q)) = 1.
Proof. intros N. rewrite inner_scale, <- len_sq. pose proof (len_pos q N). change (qNorm q) with (len4 q). field. lra. Qed.
Lemma inner_self0 q : inner q q = 0 -> q = qOf 0 0 0 0.
Proof. destruct q as [a [b c d]]. unfold inner. cbn [qs qv qx qy qz]. intros E. assert (a * a = 0 /\ b * b = 0 /\ c * c = 0 /\ d * d = 0) as (A & B & C & D) by nra. apply Rsqr_0_uniq in A, B, C, D. subst. reflexivity. Qed.
Lemma angle_open q r : independent q r -> let p0 := qDiv q (qNorm q) in let p1 := qDiv r (qNorm r) in -1 < inner p0 p1 < 1.
Proof.
  intros I p0 p1. destruct (indep_nz q r I) as [N0 N1]. pose proof (unit_one q N0) as U0. pose proof (unit_one r N1) as U1. fold p0 in U0. fold p1 in U1. pose proof (len_pos q N0) as L0. pose proof (len_pos r N1) as L1. change (len4 q) with (qNorm q) in L0. change (len4 r) with (qNorm r) in L1.
  assert (C : inner p0 p1 * inner p0 p1 <= 1) by (pose proof (cauchy p0 p1) as C; rewrite U0, U1 in C; lra).
  assert (D : forall s, s * s = 1 -> inner p0 p1 = s -> False).
  { intros s Hs E. assert (Z : qAdd p1 (qScale p0 (- s)) = qOf 0 0 0 0). { apply inner_self0. transitivity (inner p1 p1 - 2 * s * inner p0 p1 + s * s * inner p0 p0); [clear; qq; ring|]. rewrite U0, U1, E. nra. }
    assert (Q : forall (x y : quat) a b c, qAdd (qDiv x a) (qScale (qDiv y b) c) = qAdd (qScale y (c * / b)) (qScale x (/ a))) by (clear; qq; unfold Rdiv; qeq). unfold p0, p1 in Z. rewrite Q in Z. apply I in Z as [_ Z]. apply Rinv_0_lt_compat in L1. lra. }
  assert (M1 : inner p0 p1 <> -1) by (intros E; apply (D (-1)); [ring|exact E]). assert (P1 : inner p0 p1 <> 1) by (intros E; apply (D 1); [ring|exact E]). nra.
Qed.

(** slerp runs from the first quaternion to the second, with lengths interpolated linearly and at constant angular speed along the great circle. *)
Theorem C90_slerp_partial : forall q r t, independent q r -> 0 <= t <= 1 -> exists p, slerp q r t = Some p /\ len4 p = (1 - t) * len4 q + t * len4 r /\
  (exists a b, p = qAdd (qScale q a) (qScale r b) /\ 0 <= a /\ 0 <= b) /\ (t = 0 -> p = q) /\ (t = 1 -> p = r) /\
  let theta := acos (inner q r / (len4 q * len4 r)) in inner q p = len4 q * len4 p * cos (t * theta) /\ inner p r = len4 p * len4 r * cos ((1 - t) * theta).
Proof.
  intros q r t I T. destruct (indep_nz q r I) as [N0 N1]. pose proof (unit_one q N0) as U0. pose proof (unit_one r N1) as U1. pose proof (angle_open q r I) as AO. cbv zeta in AO. pose proof (len_pos q N0) as L0. pose proof (len_pos r N1) as L1.
  unfold slerp. cbv zeta. change (qNorm q) with (len4 q) in *. change (qNorm r) with (len4 r) in *. destruct (Req_EM_T (len4 q) 0) as [E|_]; [lra|]. destruct (Req_EM_T (len4 r) 0) as [E|_]; [lra|]. rewrite dot_bar.
  assert (TH : inner q r / (len4 q * len4 r) = inner (qDiv q (len4 q)) (qDiv r (len4 r))) by (rewrite inner_scale; field; lra). rewrite TH.
  set (p0 := qDiv q (len4 q)) in *. set (p1 := qDiv r (len4 r)) in *. set (theta := acos (inner p0 p1)).
  assert (CT : cos theta = inner p0 p1) by (apply cos_acos; lra). assert (TB : 0 < theta < PI). { pose proof (acos_bound (inner p0 p1)) as B. fold theta in B. destruct B as [B1 B2]. split. - destruct B1 as [|B1]; auto. rewrite <- B1, cos_0 in CT. lra. - destruct B2 as [|B2]; auto. rewrite B2, cos_PI in CT. lra. }
  assert (SP : 0 < sin theta) by (apply sin_gt_0; lra). destruct (Req_EM_T (sin theta) 0) as [E|_]; [lra|]. eexists. split; [reflexivity|].
  set (s0 := sin ((1 - t) * theta)). set (s1 := sin (t * theta)). set (c1 := cos (t * theta)). set (c0 := cos ((1 - t) * theta)).
  assert (B1 : 0 <= t * theta <= PI) by nra. assert (B0 : 0 <= (1 - t) * theta <= PI) by nra.
  assert (S1 : 0 <= s1) by (apply sin_ge_0; lra). assert (S0 : 0 <= s0) by (apply sin_ge_0; lra).
  assert (E0 : s0 = sin theta * c1 - cos theta * s1) by (unfold s0, s1, c1; rewrite <- sin_minus; f_equal; ring). assert (E1 : s1 = sin theta * c0 - cos theta * s0) by (unfold s0, s1, c0; rewrite <- sin_minus; f_equal; ring).
  assert (P1 : s1 * s1 + c1 * c1 = 1) by (apply (sin2_cos2 (t * theta))). pose proof (sin2_cos2 theta) as P2. unfold Rsqr in P2.
  set (m := (1 - t) * len4 q + t * len4 r). assert (MP : 0 < m) by (unfold m; destruct (Rlt_dec t 1); nra).
  set (d := qDiv (qAdd (qScale p0 s0) (qScale p1 s1)) (sin theta)).
  assert (IL : forall x, inner x d = (s0 * inner x p0 + s1 * inner x p1) / sin theta). { intros x. unfold d. generalize p0 p1 s0 s1 (sin theta). clear. qq. unfold Rdiv. ring. }
  assert (SY : forall x y, inner x y = inner y x) by (clear; qq; ring). assert (SM : forall x y c, inner x (qScale y c) = c * inner x y) by (clear; qq; ring).
  assert (D0 : inner p0 d = c1) by (rewrite IL, U0, <- CT, E0; field; lra). assert (D1 : inner p1 d = c0). { rewrite IL, U1, (SY p1 p0), <- CT, E1. field. lra. }
  assert (DD : inner d d = 1). { rewrite IL, (SY d p0), (SY d p1), D0, D1. assert (G : sin theta * c0 = s1 + cos theta * s0) by lra. assert (F : s0 * c1 + s1 * c0 = sin theta). { unfold s0, c1, s1, c0. rewrite (Rmult_comm (sin (t * theta))), <- sin_plus. f_equal. ring. } rewrite F. field. lra. }
  assert (LP : len4 (qScale d m) = m). { unfold len4. rewrite SM, SY, SM, DD. replace (m * (m * 1)) with (m * m) by ring. apply sqrt_square. lra. }
  assert (QQ : q = qScale p0 (len4 q)) by (symmetry; apply scale_div; lra). assert (RR : r = qScale p1 (len4 r)) by (symmetry; apply scale_div; lra).
  split; [exact LP|]. split; [|split; [|split; [|split]]].
  - exists (m * s0 * / (len4 q * sin theta)), (m * s1 * / (len4 r * sin theta)). split.
    + unfold d, p0, p1. generalize (len4 q) (len4 r) s0 s1 m (sin theta) L0 L1 SP. clear. qq. repeat (f_equal; try (field; lra)).
    + assert (0 < / (len4 q * sin theta)) by (apply Rinv_0_lt_compat; nra). assert (0 < / (len4 r * sin theta)) by (apply Rinv_0_lt_compat; nra). split; apply Rmult_le_pos; try lra; apply Rmult_le_pos; lra.
  - intros ->. assert (s1 = 0) as Z1 by (unfold s1; rewrite Rmult_0_l; apply sin_0). assert (s0 = sin theta) as Z0 by (unfold s0; f_equal; ring). assert (m = len4 q) as -> by (unfold m; ring). rewrite QQ at 2. f_equal. unfold d. rewrite Z1, Z0. generalize p0 p1 (sin theta) SP. clear. qq. repeat (f_equal; try (field; lra)).
  - intros ->. assert (s1 = sin theta) as Z1 by (unfold s1; f_equal; ring). assert (s0 = 0) as Z0 by (unfold s0; replace ((1 - 1) * theta) with 0 by ring; apply sin_0). assert (m = len4 r) as -> by (unfold m; ring). rewrite RR at 2. f_equal. unfold d. rewrite Z1, Z0. generalize p0 p1 (sin theta) SP. clear. qq. repeat (f_equal; try (field; lra)).
  - rewrite LP. rewrite QQ at 1. rewrite SM, SY, SM, SY, D0. ring.
  - rewrite LP. rewrite RR at 1. rewrite SM, SY, SM, D1. ring.
Qed.
Print Assumptions C90_slerp_partial.
Example C90_slerp_witness : independent (qOf 1 2 0 0) (qOf 0 3 0 1) /\ 0 <= 1 / 3 <= 1.
Proof. split; [|lra]. intros a b E. unfold qAdd, qScale, qOf, add3, mul3 in E. cbn [qs qv qx qy qz] in E. injection E. lra. Qed.
(** The full claim is about all pairs that are not zero and not opposite. For two quaternions in the same direction slerp divides by zero; they need not move at all. *)
Theorem C90_slerp_refuted : exists q t, nonzero q /\ 0 <= t <= 1 /\ slerp q q t = None.
Proof.
  exists q1, (1 / 2). assert (N : nonzero q1) by (intros E; unfold q1, qOf in E; injection E; lra). split; [exact N|]. split; [lra|]. unfold slerp. cbv zeta. pose proof (len_pos q1 N) as L. change (qNorm q1) with (len4 q1). destruct (Req_EM_T (len4 q1) 0) as [|_]; [reflexivity|]. rewrite dot_bar. change (len4 q1) with (qNorm q1). rewrite (unit_one q1 N), acos_1, sin_0. destruct (Req_EM_T 0 0); [reflexivity|lra].
Qed.
Print Assumptions C90_slerp_refuted.
Example C90_witness : nonzero (qOf 1 2 0 0) /\ len4 (qOf 1 2 2 4) = 5 /\ norm3d (mk3 0 0 1) = 1 /\ qMul (qOf 1 2 0 0) (qOf 0 3 0 1) <> qMul (qOf 0 3 0 1) (qOf 1 2 0 0).
Proof.
  split; [intros E; unfold qOf in E; injection E; lra|]. split; [unfold len4; replace (inner (qOf 1 2 2 4) (qOf 1 2 2 4)) with (5 * 5) by (unfold inner, qOf; cbn [qs qv qx qy qz]; ring); apply sqrt_square; lra|].
  split; [unfold norm3d; cbn [qx qy qz]; replace (0 * 0 + 0 * 0 + 1 * 1) with 1 by ring; apply sqrt_1|]. intros E. unfold qMul, qOf, add3, mul3, cross3, dot3 in E. cbn [qs qv qx qy qz] in E. injection E. lra.
Qed.
