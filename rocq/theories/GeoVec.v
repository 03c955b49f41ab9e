(** Proofs about the vector operations, tetFourthPoint and the barycentric permutations of GeoModel.v *)
From Verif Require Import Base MeshModel MeshSpec MeshBase MeshOrbit MeshOpSpec GeoModel GeoSpec GeoProofs PointModel PointSpec PointProofs.
From Coq Require Import Reals Lra Psatz.
Open Scope R_scope.

(** ** complex arithmetic of Vector2 *)
Lemma cdiv_ok u v : v <> mk2 0 0 -> cmul (cdiv u v) v = u /\ cdiv (cmul u v) v = u /\ cmul v (inv2 v) = mk2 1 0.
Proof.
  intros N. destruct u as [a b], v as [x y]. unfold inv2, cdiv, cmul, div2. cbn [px py]. assert (x * x + y * y <> 0).
  { intros E. apply sos2 in E as (-> & ->). apply N. reflexivity. }
  split; [|split]; apply eq2; cbn [px py]; field; auto.
Qed.
Lemma cmul_norm u v : len2 (cmul u v) = len2 u * len2 v.
Proof. unfold len2. rewrite <- sqrt_mult by apply sos2_ge. f_equal. unfold cmul. cbn [px py]. ring. Qed.
Lemma rotate_ok v t : rotateCCW v t = cmul (fromAngle t) v /\ rotateCW (rotateCCW v t) t = v /\ len2 (rotateCCW v t) = len2 v /\ rotate90 v = rotateCCW v (PI / 2).
Proof.
  unfold rotateCCW, rotateCW, cmul, fromAngle, rotate90, len2. rewrite cos_neg, sin_neg, cos_neg, sin_neg. pose proof (sin2_cos2 t) as H. unfold Rsqr in H.
  destruct v as [x y]. cbn [px py]. rewrite cos_PI2, sin_PI2. repeat split.
  - apply eq2; cbn [px py]; ring.
  - apply eq2; cbn [px py].
    + transitivity ((sin t * sin t + cos t * cos t) * x); [ring|rewrite H; ring].
    + transitivity ((sin t * sin t + cos t * cos t) * y); [ring|rewrite H; ring].
  - f_equal. transitivity ((sin t * sin t + cos t * cos t) * (x * x + y * y)); [ring|rewrite H; ring].
  - apply eq2; cbn [px py]; ring.
Qed.
Lemma normalizeCutoff_ok v mag : (len2 v <= mag -> normalizeCutoff2 v mag = v) /\ (mag < len2 v -> 0 <= mag -> len2 (normalizeCutoff2 v mag) = 1 /\ v = mul2 (normalizeCutoff2 v mag) (len2 v)).
Proof.
  unfold normalizeCutoff2. cbv zeta. fold (len2 v). destruct (Rle_dec (len2 v) mag) as [X|X]; split; intros Y; try lra.
  - unfold mul2. apply eq2; cbn [px py]; field.
  - intros M. assert (0 < len2 v) by lra. split; [|unfold mul2; apply eq2; cbn [px py]; field; lra].
    assert (Q : len2 v * len2 v = px v * px v + py v * py v) by (unfold len2; apply sqrt_sqrt, sos2_ge).
    unfold mul2. unfold len2 at 1. cbn [px py]. apply sqrt_eq; [lra|]. transitivity ((px v * px v + py v * py v) * (1 / len2 v) * (1 / len2 v)); [ring|]. rewrite <- Q. field. lra.
Qed.

(** ** three dimensions *)
Lemma inner_ge v : 0 <= inner3 v v. Proof. apply sos3_ge. Qed.
Lemma inner_0 v : inner3 v v = 0 -> v = mk3 0 0 0.
Proof. unfold inner3. intros E. apply sos3 in E as (A & B & C). apply eq3; auto. Qed.
Lemma inner_pos v : v <> mk3 0 0 0 -> 0 < inner3 v v.
Proof. intros N. destruct (inner_ge v) as [H|H]; auto. exfalso. apply N, inner_0. auto. Qed.
Lemma normalize3_ok v : v <> mk3 0 0 0 -> inner3 (normalize3 v) (normalize3 v) = 1 /\ v = mul3 (normalize3 v) (len3 v) /\ 0 < len3 v.
Proof.
  intros N. pose proof (inner_pos v N) as P. assert (L : 0 < len3 v) by (apply sqrt_lt_R0; auto).
  assert (Q : len3 v * len3 v = inner3 v v) by (apply sqrt_sqrt, inner_ge).
  unfold normalize3. fold (inner3 v v). fold (len3 v). split; [|split]; auto.
  - transitivity (inner3 v v * (1 / len3 v) * (1 / len3 v)); [unfold inner3, mul3; cbn [qx qy qz]; ring|]. rewrite <- Q. field. lra.
  - unfold mul3. apply eq3; cbn [qx qy qz]; field; lra.
Qed.
Lemma removeComponent_ok v u : inner3 u u = 1 -> inner3 (removeComponent v u) u = 0 /\ exists k, v = add3 (removeComponent v u) (mul3 u k).
Proof.
  intros U. unfold removeComponent. split.
  - transitivity (dot3 u v * (1 - inner3 u u)); [|rewrite U; ring]. unfold inner3, dot3, sub3, mul3. cbn [qx qy qz]. ring.
  - exists (dot3 u v). apply eq3; unfold add3, sub3, mul3; cbn [qx qy qz]; ring.
Qed.
(** Rodrigues' formula *)
Definition rodrigues (v k : V3) (t : R) : V3 :=
  let c := cross3 k v in let d := inner3 k v in
  mk3 (qx v * cos t + qx c * sin t + qx k * d * (1 - cos t)) (qy v * cos t + qy c * sin t + qy k * d * (1 - cos t)) (qz v * cos t + qz c * sin t + qz k * d * (1 - cos t)).
Lemma rotateAround_rod v axis t : axis <> mk3 0 0 0 -> rotateAround v axis t = rodrigues v (normalize3 axis) t.
Proof.
  intros N. destruct (normalize3_ok axis N) as (K & _). unfold rotateAround. cbv zeta. set (k := normalize3 axis) in *. clearbody k.
  set (p := mul3 k (dot3 v k)). set (w := sub3 v p). change (norm2_3 w) with (inner3 w w).
  assert (D : dot3 v k = inner3 k v) by (unfold dot3, inner3; ring).
  assert (VW : v = add3 w p) by (unfold w; apply eq3; unfold add3, sub3; cbn [qx qy qz]; ring).
  destruct (Rgt_dec (inner3 w w) 0) as [G|G].
  - assert (NW : w <> mk3 0 0 0). { intros E. rewrite E in G. unfold inner3 in G. cbn [qx qy qz] in G. lra. }
    destruct (normalize3_ok w NW) as (_ & W & L). change (norm3d w) with (len3 w). set (b := normalize3 w) in *. set (l := len3 w) in *.
    assert (C : cross3 k v = mul3 (cross3 k b) l).
    { rewrite VW. rewrite W. unfold p. apply eq3; unfold cross3, mul3, add3; cbn [qx qy qz]; ring. }
    unfold rodrigues. rewrite C. cbv zeta. rewrite <- D.
    assert (X : qx v = qx b * l + qx k * dot3 v k) by (rewrite VW at 1; rewrite W at 1; unfold p, add3, mul3; cbn [qx]; ring).
    assert (Y : qy v = qy b * l + qy k * dot3 v k) by (rewrite VW at 1; rewrite W at 1; unfold p, add3, mul3; cbn [qy]; ring).
    assert (Z : qz v = qz b * l + qz k * dot3 v k) by (rewrite VW at 1; rewrite W at 1; unfold p, add3, mul3; cbn [qz]; ring).
    rewrite X, Y, Z. set (e := dot3 v k) in *. unfold p. fold e. set (g := cross3 k b).
    apply eq3; unfold add3, mul3; cbn [qx qy qz]; ring.
  - assert (W : w = mk3 0 0 0) by (apply inner_0; pose proof (inner_ge w); lra).
    assert (VP : v = p). { rewrite VW, W. apply eq3; unfold add3; cbn [qx qy qz]; ring. }
    unfold rodrigues. cbv zeta. rewrite <- D.
    assert (X : qx v = qx k * dot3 v k) by (rewrite VP at 1; reflexivity). assert (Y : qy v = qy k * dot3 v k) by (rewrite VP at 1; reflexivity). assert (Z : qz v = qz k * dot3 v k) by (rewrite VP at 1; reflexivity).
    set (e := dot3 v k) in *. unfold p. fold e. apply eq3; unfold cross3, mul3; cbn [qx qy qz]; rewrite X, Y, Z; ring.
Qed.
Lemma rodrigues_inner u v k t : inner3 k k = 1 -> inner3 (rodrigues u k t) (rodrigues v k t) = inner3 u v.
Proof.
  intros K. pose proof (sin2_cos2 t) as H. unfold Rsqr in H. set (s := sin t) in *. set (c := cos t) in *.
  unfold rodrigues. fold s c. cbv zeta. destruct u as [a b d], v as [x y z], k as [i j l]. unfold inner3, cross3 in *. cbn [qx qy qz] in *.
  transitivity ((a * x + b * y + d * z) * (c * c) + s * s * ((i * i + j * j + l * l) * (a * x + b * y + d * z) - (i * a + j * b + l * d) * (i * x + j * y + l * z))
    + (i * a + j * b + l * d) * (i * x + j * y + l * z) * (2 * c * (1 - c) + (i * i + j * j + l * l) * ((1 - c) * (1 - c)))).
  { ring. }
  rewrite K. transitivity ((a * x + b * y + d * z) * (s * s + c * c) + (i * a + j * b + l * d) * (i * x + j * y + l * z) * (1 - (s * s + c * c))); [ring|]. rewrite H. ring.
Qed.
(** a vector perpendicular to the axis turns by t towards axis x v *)
Lemma rodrigues_turn v k t : inner3 k k = 1 -> inner3 k v = 0 -> inner3 (rodrigues v k t) v = inner3 v v * cos t /\ inner3 (rodrigues v k t) (cross3 k v) = inner3 v v * sin t.
Proof.
  intros K O. unfold rodrigues. rewrite O. cbv zeta. destruct v as [x y z], k as [i j l]. unfold inner3, cross3 in *. cbn [qx qy qz] in *. split; [ring|].
  transitivity (sin t * ((i * i + j * j + l * l) * (x * x + y * y + z * z) - (i * x + j * y + l * z) * (i * x + j * y + l * z))); [ring|]. rewrite K, O. ring.
Qed.
Lemma rodrigues_axis v k t : inner3 k k = 1 -> inner3 k (rodrigues v k t) = inner3 k v.
Proof.
  intros K. unfold rodrigues. cbv zeta. destruct v as [x y z], k as [i j l]. unfold inner3, cross3 in *. cbn [qx qy qz] in *.
  transitivity ((i * x + j * y + l * z) * (cos t + (i * i + j * j + l * l) * (1 - cos t))); [ring|]. rewrite K. ring.
Qed.
Lemma tangentBasis_ok v : v <> mk3 0 0 0 -> let (x, y) := buildTangentBasis v in
  inner3 x x = 1 /\ inner3 y y = 1 /\ inner3 x y = 0 /\ inner3 x v = 0 /\ inner3 y v = 0 /\ v = mul3 (cross3 x y) (len3 v).
Proof.
  intros N. destruct (normalize3_ok v N) as (K & E & L). unfold buildTangentBasis. cbv zeta. set (k := normalize3 v) in *. set (l := len3 v) in *. clearbody k l.
  set (test := if Rgt_dec _ _ then _ else _).
  assert (G : exists c, cross3 test k = c /\ c <> mk3 0 0 0 /\ inner3 c k = 0).
  { eexists. split; [reflexivity|]. split; [|unfold inner3, cross3; cbn [qx qy qz]; ring].
    unfold test, dot3. cbn [qx qy qz]. destruct (Rgt_dec _ _) as [A|A]; unfold cross3; cbn [qx qy qz]; intros X; injection X as X1 X2 X3.
    - assert (qx k = 0) by lra. assert (qz k = 0) by lra. assert (Z : 1 * qx k + 0 * qy k + 0 * qz k = 0) by lra. change (Rabs (1 * qx k + 0 * qy k + 0 * qz k) > 9 / 10) in A. rewrite Z in A. rewrite Rabs_R0 in A. lra.
    - assert (qy k = 0) by lra. assert (qz k = 0) by lra. unfold inner3 in K. rewrite H, H0 in K. assert (Q : qx k * qx k = 1) by lra.
      apply A. change (Rabs (1 * qx k + 0 * qy k + 0 * qz k) > 9 / 10). replace (1 * qx k + 0 * qy k + 0 * qz k) with (qx k) by lra. unfold Rabs. destruct (Rcase_abs (qx k)); nra. }
  destruct G as (c & EC & NC & OC). rewrite EC. clear EC test. destruct (normalize3_ok c NC) as (X & EX & LX). set (x := normalize3 c) in *. set (lc := len3 c) in *. clearbody x lc.
  assert (OX : inner3 x k = 0). { apply Rmult_eq_reg_r with lc; [|lra]. rewrite Rmult_0_l, <- OC. rewrite EX. unfold inner3, mul3. cbn [qx qy qz]. ring. }
  set (g := cross3 k x).
  assert (GG : inner3 g g = 1). { unfold g. transitivity (inner3 k k * inner3 x x - inner3 x k * inner3 x k); [unfold inner3, cross3; cbn [qx qy qz]; ring|]. rewrite K, X, OX. ring. }
  assert (NG : normalize3 g = g). { unfold normalize3. fold (inner3 g g). rewrite GG, sqrt_1. unfold mul3. apply eq3; cbn [qx qy qz]; field. }
  rewrite NG. split; [auto|]. split; [auto|]. split; [unfold g, inner3, cross3; cbn [qx qy qz]; ring|].
  split. { rewrite E. transitivity (inner3 x k * l); [unfold inner3, mul3; cbn [qx qy qz]; ring|rewrite OX; ring]. }
  split. { rewrite E. unfold g, inner3, cross3, mul3. cbn [qx qy qz]. ring. }
  assert (C : cross3 x g = k). { unfold g. transitivity (sub3 (mul3 k (inner3 x x)) (mul3 x (inner3 x k))); [apply eq3; unfold cross3, sub3, mul3, inner3; cbn [qx qy qz]; ring|].
    rewrite X, OX. apply eq3; unfold sub3, mul3; cbn [qx qy qz]; ring. }
  rewrite C. exact E.
Qed.

(** ** regularizeAngle *)
Lemma regularize_ok t : 0 <= regularizeAngle t < 2 * PI /\ exists k : Z, t = regularizeAngle t + 2 * PI * IZR k.
Proof.
  unfold regularizeAngle. pose proof PI_RGT_0 as P. destruct (base_Int_part (t / (2 * PI))) as (A & B). set (n := IZR (Int_part (t / (2 * PI)))) in *. split.
  - assert (E : t = t / (2 * PI) * (2 * PI)) by (field; lra). set (q := t / (2 * PI)) in *. rewrite E.
    assert (0 <= (q - n) * (2 * PI)) by (apply Rmult_le_pos; lra). assert (0 < (1 - (q - n)) * (2 * PI)) by (apply Rmult_lt_0_compat; lra). lra.
  - exists (Int_part (t / (2 * PI))). fold n. ring.
Qed.

(** ** tetFourthPoint *)
Lemma dist3_eq a b c d : (qx a - qx b) * (qx a - qx b) + (qy a - qy b) * (qy a - qy b) + (qz a - qz b) * (qz a - qz b) =
  (qx c - qx d) * (qx c - qx d) + (qy c - qy d) * (qy c - qy d) + (qz c - qz d) * (qz c - qz d) -> dist3 a b = dist3 c d.
Proof. intros H. unfold dist3, Rsqr. rewrite H. reflexivity. Qed.
Lemma frame3 e1 e2 v : inner3 e1 e1 = 1 -> inner3 e2 e2 = 1 -> inner3 e1 e2 = 0 ->
  inner3 v v = inner3 v e1 * inner3 v e1 + inner3 v e2 * inner3 v e2 + inner3 v (cross3 e1 e2) * inner3 v (cross3 e1 e2).
Proof.
  intros A B C. assert (G : inner3 v (cross3 e1 e2) * inner3 v (cross3 e1 e2) = inner3 v v * (inner3 e1 e1 * inner3 e2 e2 - inner3 e1 e2 * inner3 e1 e2)
    - inner3 v e1 * (inner3 v e1 * inner3 e2 e2 - inner3 e1 e2 * inner3 v e2) + inner3 v e2 * (inner3 v e1 * inner3 e1 e2 - inner3 e1 e1 * inner3 v e2)).
  { destruct v as [x y z], e1 as [i j k], e2 as [a b c]. unfold inner3, cross3. cbn [qx qy qz]. ring. }
  rewrite G, A, B, C. ring.
Qed.
Lemma tet_ok a b c d0 : spread3 a b c ->
  let d := tetFourthPoint a b c (dist3 a d0) (dist3 b d0) (dist3 c d0) in
  dist3 a d = dist3 a d0 /\ dist3 b d = dist3 b d0 /\ dist3 c d = dist3 c d0 /\ vol6 a b c d = - Rabs (vol6 a b c d0).
Proof.
  intros SP. cbv zeta.
  set (u := sub3 b a). set (v := sub3 c a). set (w := sub3 d0 a).
  assert (NU : u <> mk3 0 0 0). { intros E. apply SP. exists 1, 0. split; [left; lra|]. unfold u, sub3 in E. injection E as E1 E2 E3. rewrite E1, E2, E3. repeat split; ring. }
  unfold tetFourthPoint. fold u v. change (norm3d u) with (len3 u).
  destruct (normalize3_ok u NU) as (K1 & U1 & LU). set (e1 := div3 u (len3 u)).
  assert (E1 : e1 = normalize3 u) by (unfold e1, div3, normalize3, mul3; apply eq3; cbn [qx qy qz]; reflexivity).
  rewrite <- E1 in *. set (f := sub3 v (mul3 e1 (dot3 v e1))). change (norm3d f) with (len3 f).
  assert (NF : f <> mk3 0 0 0).
  { intros E. apply SP. exists (- dot3 v e1 * / len3 u), 1. split; [right; lra|].
    unfold f in E. set (k := dot3 v e1) in *. clearbody k. unfold sub3 in E at 1. unfold mul3, e1, div3 in E. injection E as X Y Z. cbn [qx qy qz] in X, Y, Z.
    assert (I : 1 / len3 u = / len3 u) by (field; lra). rewrite I in X, Y, Z.
    split; [|split]; lra. }
  destruct (normalize3_ok f NF) as (K2 & U2 & LF). set (e2 := div3 f (len3 f)).
  assert (E2 : e2 = normalize3 f) by (unfold e2, div3, normalize3, mul3; apply eq3; cbn [qx qy qz]; reflexivity).
  rewrite <- E2 in *. clearbody e2. assert (OF : inner3 e1 f = 0). { transitivity (dot3 v e1 * (1 - inner3 e1 e1)); [|rewrite K1; ring]. unfold f, inner3, sub3, mul3, dot3. cbn [qx qy qz]. ring. }
  assert (K12 : inner3 e1 e2 = 0). { apply Rmult_eq_reg_r with (len3 f); [|lra]. rewrite Rmult_0_l, <- OF. rewrite U2 at 2. unfold inner3, mul3. cbn [qx qy qz]. ring. }
  set (lu := len3 u) in *. set (lf := len3 f) in *. clear E1 E2.
  assert (VF : v = add3 (mul3 e1 (dot3 v e1)) (mul3 e2 lf)).
  { rewrite <- U2. unfold f. apply eq3; unfold add3, sub3, mul3; cbn [qx qy qz]; ring. }
  clearbody lu. clearbody e1. set (x3 := dot3 v e1) in *. clearbody lf. clearbody x3. clear f U2 NF OF.
  assert (X2 : dot3 u e1 = lu). { rewrite U1. transitivity (inner3 e1 e1 * lu); [unfold dot3, inner3, mul3; cbn [qx qy qz]; ring|rewrite K1; ring]. }
  assert (Y3 : dot3 v e2 = lf). { rewrite VF. transitivity (inner3 e1 e2 * x3 + inner3 e2 e2 * lf); [unfold dot3, inner3, mul3, add3; cbn [qx qy qz]; ring|rewrite K2, K12; ring]. }
  rewrite X2, Y3.
  (* components of w *)
  pose proof (frame3 e1 e2 w K1 K2 K12) as FW. set (e3 := cross3 e1 e2) in *.
  set (wx := inner3 w e1) in *. set (wy := inner3 w e2) in *. set (wz := inner3 w e3) in *.
  assert (DA : dist3 a d0 * dist3 a d0 = wx * wx + wy * wy + wz * wz). { rewrite dist3_sq, <- FW. unfold w, inner3, sub3. cbn [qx qy qz]. ring. }
  assert (DB : dist3 b d0 * dist3 b d0 = dist3 a d0 * dist3 a d0 - 2 * lu * wx + lu * lu).
  { rewrite !dist3_sq. transitivity (inner3 w w - 2 * inner3 w u + inner3 u u); [unfold w, u, inner3, sub3; cbn [qx qy qz]; ring|].
    replace (inner3 w u) with (wx * lu) by (rewrite U1; unfold wx, inner3, mul3; cbn [qx qy qz]; ring).
    replace (inner3 u u) with (lu * lu). 2:{ rewrite U1. transitivity (inner3 e1 e1 * (lu * lu)); [rewrite K1; ring|unfold inner3, mul3; cbn [qx qy qz]; ring]. }
    unfold w, inner3, sub3. cbn [qx qy qz]. ring. }
  assert (DC : dist3 c d0 * dist3 c d0 = dist3 a d0 * dist3 a d0 - 2 * (wx * x3 + wy * lf) + x3 * x3 + lf * lf).
  { rewrite !dist3_sq. transitivity (inner3 w w - 2 * inner3 w v + inner3 v v); [unfold w, v, inner3, sub3; cbn [qx qy qz]; ring|].
    replace (inner3 w v) with (wx * x3 + wy * lf) by (rewrite VF; unfold wx, wy, inner3, mul3, add3; cbn [qx qy qz]; ring).
    replace (inner3 v v) with (x3 * x3 + lf * lf). 2:{ rewrite VF. transitivity (inner3 e1 e1 * (x3 * x3) + 2 * inner3 e1 e2 * x3 * lf + inner3 e2 e2 * (lf * lf)); [rewrite K1, K2, K12; ring|unfold inner3, mul3, add3; cbn [qx qy qz]; ring]. }
    unfold w, inner3, sub3. cbn [qx qy qz]. ring. }
  set (x4 := (dist3 a d0 * dist3 a d0 - dist3 b d0 * dist3 b d0 + lu * lu) / (2 * lu)).
  assert (X4 : x4 = wx) by (unfold x4; rewrite DB; field; lra).
  set (y4 := (dist3 a d0 * dist3 a d0 - dist3 c d0 * dist3 c d0 + x3 * x3 + lf * lf - 2 * x4 * x3) / (2 * lf)).
  assert (Y4 : y4 = wy) by (unfold y4; rewrite X4, DC; field; lra).
  set (z4 := sqrt _). assert (Z4 : z4 = Rabs wz).
  { unfold z4. rewrite X4, Y4, DA. replace (wx * wx + wy * wy + wz * wz - wx * wx - wy * wy) with (Rsqr wz) by (unfold Rsqr; ring).
    rewrite Rmax_right by apply Rle_0_sqr. apply sqrt_Rsqr_abs. }
  rewrite X4, Y4, Z4. clear x4 X4 y4 Y4 z4 Z4. set (az := Rabs wz).
  assert (AZ : az * az = wz * wz). { unfold az. pose proof (Rsqr_abs wz) as H. unfold Rsqr in H. lra. }
  assert (AP : 0 <= az) by apply Rabs_pos.
  assert (K3 : inner3 e3 e3 = 1). { unfold e3. transitivity (inner3 e1 e1 * inner3 e2 e2 - inner3 e1 e2 * inner3 e1 e2); [unfold inner3, cross3; cbn [qx qy qz]; ring|rewrite K1, K2, K12; ring]. }
  assert (K13 : inner3 e1 e3 = 0) by (unfold e3, inner3, cross3; cbn [qx qy qz]; ring).
  assert (K23 : inner3 e2 e3 = 0) by (unfold e3, inner3, cross3; cbn [qx qy qz]; ring).
  assert (CR : cross3 u v = mul3 e3 (lu * lf)).
  { rewrite VF, U1. unfold e3. apply eq3; unfold cross3, mul3, add3; cbn [qx qy qz]; ring. }
  assert (VOL : forall d, vol6 a b c d = inner3 (sub3 d a) (cross3 u v)) by (intros d; unfold vol6, u, v, inner3, cross3, sub3; cbn [qx qy qz]; ring).
  (* the point at height z *)
  assert (PT : forall z d, sub3 d a = add3 (add3 (mul3 e1 wx) (mul3 e2 wy)) (mul3 e3 z) -> z * z = wz * wz ->
     dist3 a d = dist3 a d0 /\ dist3 b d = dist3 b d0 /\ dist3 c d = dist3 c d0 /\ vol6 a b c d = lu * lf * z).
  { intros z d E Q. set (g := sub3 d a) in *.
    assert (G1 : inner3 g e1 = wx). { rewrite E. transitivity (inner3 e1 e1 * wx + inner3 e1 e2 * wy + inner3 e1 e3 * z); [unfold inner3, mul3, add3; cbn [qx qy qz]; ring|rewrite K1, K12, K13; ring]. }
    assert (G2 : inner3 g e2 = wy). { rewrite E. transitivity (inner3 e1 e2 * wx + inner3 e2 e2 * wy + inner3 e2 e3 * z); [unfold inner3, mul3, add3; cbn [qx qy qz]; ring|rewrite K2, K12, K23; ring]. }
    assert (G3 : inner3 g e3 = z). { rewrite E. transitivity (inner3 e1 e3 * wx + inner3 e2 e3 * wy + inner3 e3 e3 * z); [unfold inner3, mul3, add3; cbn [qx qy qz]; ring|rewrite K3, K13, K23; ring]. }
    pose proof (frame3 e1 e2 g K1 K2 K12) as FG. fold e3 in FG. rewrite G1, G2, G3, Q in FG.
    assert (GW : inner3 g g = inner3 w w) by (rewrite FG, FW; ring).
    split; [|split; [|split]].
    - apply dist3_eq. transitivity (inner3 g g); [unfold g, inner3, sub3; cbn [qx qy qz]; ring|]. rewrite GW. unfold w, inner3, sub3. cbn [qx qy qz]. ring.
    - apply dist3_eq. transitivity (inner3 g g - 2 * (inner3 g e1 * lu) + inner3 u u).
      + replace (inner3 g e1 * lu) with (inner3 g u) by (rewrite U1; unfold inner3, mul3; cbn [qx qy qz]; ring). unfold g, u, inner3, sub3. cbn [qx qy qz]. ring.
      + rewrite GW, G1. unfold wx. replace (inner3 w e1 * lu) with (inner3 w u) by (rewrite U1; unfold inner3, mul3; cbn [qx qy qz]; ring). unfold w, u, inner3, sub3. cbn [qx qy qz]. ring.
    - apply dist3_eq. transitivity (inner3 g g - 2 * (inner3 g e1 * x3 + inner3 g e2 * lf) + inner3 v v).
      + replace (inner3 g e1 * x3 + inner3 g e2 * lf) with (inner3 g v) by (rewrite VF; unfold inner3, mul3, add3; cbn [qx qy qz]; ring). unfold g, v, inner3, sub3. cbn [qx qy qz]. ring.
      + rewrite GW, G1, G2. unfold wx, wy. replace (inner3 w e1 * x3 + inner3 w e2 * lf) with (inner3 w v) by (rewrite VF; unfold inner3, mul3, add3; cbn [qx qy qz]; ring). unfold w, v, inner3, sub3. cbn [qx qy qz]. ring.
    - rewrite VOL, CR. fold g. transitivity (inner3 g e3 * (lu * lf)); [unfold inner3, mul3; cbn [qx qy qz]; ring|rewrite G3; ring]. }
  assert (V0 : vol6 a b c d0 = lu * lf * wz). { rewrite VOL, CR. fold w. unfold wz, inner3, mul3. cbn [qx qy qz]. ring. }
  assert (LL : 0 < lu * lf) by (apply Rmult_lt_0_compat; auto).
  assert (AV : Rabs (vol6 a b c d0) = lu * lf * az). { rewrite V0, Rabs_mult. rewrite (Rabs_right (lu * lf)) by lra. reflexivity. }
  set (d1 := add3 (add3 (add3 a (mul3 e1 wx)) (mul3 e2 wy)) (mul3 e3 az)). set (d2 := sub3 (add3 (add3 a (mul3 e1 wx)) (mul3 e2 wy)) (mul3 e3 az)).
  destruct (PT az d1) as (_ & _ & _ & VV1); [unfold d1; apply eq3; unfold sub3, add3, mul3; cbn [qx qy qz]; ring|auto|].
  destruct (PT (- az) d2) as (P1 & P2 & P3 & VV2); [unfold d2; apply eq3; unfold sub3, add3, mul3; cbn [qx qy qz]; ring|rewrite <- AZ; ring|].
  change (dot3 (sub3 d1 a) (cross3 u v)) with (inner3 (sub3 d1 a) (cross3 u v)). rewrite <- VOL, VV1.
  destruct (Rlt_dec (lu * lf * az) 0) as [X|X].
  - exfalso. pose proof (Rmult_le_pos (lu * lf) az). lra.
  - split; [exact P1|]. split; [exact P2|]. split; [exact P3|]. rewrite VV2, AV. ring.
Qed.

(** ** barycentric permutations *)
Lemma hindex_ok m h : Valid m -> triangular m -> liveH m h -> ~ ext m h -> exists k, halfedgeIndexInTriangle m h = Ok k /\ (k < 3)%nat /\ h = Nat.iter k (nx m) (fh m (fa m h)).
Proof.
  intros V T L I. pose proof (live_face_of m V h L I) as F. unfold halfedgeIndexInTriangle. rewrite (p_face m V) by auto. cbn [bind].
  assert (FL : liveFL m (fa m h)) by (left; auto). rewrite (p_fHe m V) by auto. cbn [bind]. destruct (cn_fh _ (va_cn _ V) _ FL) as (Lf & _).
  assert (L1 := cn_nx _ (va_cn _ V) _ Lf). rewrite (p_next m V) by auto. cbn [bind]. rewrite (p_next m V) by auto. cbn [bind].
  destruct (Z.eqb_spec h (fh m (fa m h))) as [E|E]; [exists 0%nat; split; [reflexivity|]; split; [lia|exact E]|].
  destruct (Z.eqb_spec h (nx m (fh m (fa m h)))) as [E1|E1]; [exists 1%nat; split; [reflexivity|]; split; [lia|exact E1]|].
  destruct (Z.eqb_spec h (nx m (nx m (fh m (fa m h))))) as [E2|E2]; [exists 2%nat; split; [reflexivity|]; split; [lia|exact E2]|].
  exfalso. destruct (tri_touch m V (fa m h) h T F L eq_refl) as [X|[X|X]]; congruence.
Qed.
Lemma permute_ok m h b : Valid m -> triangular m -> liveH m h -> ~ ext m h ->
  exists c, permuteBarycentricToCanonical m b h = Ok c /\ permuteBarycentricFromCanonical m c h = Ok b /\
    (forall data, valueAt m data (PFace (fa m h) (qx c) (qy c) (qz c)) = qx b * data (ve m h) + qy b * data (ve m (nx m h)) + qz b * data (ve m (nx m (nx m h)))).
Proof.
  intros V T L I. destruct (hindex_ok m h V T L I) as (k & E & K & H). unfold permuteBarycentricToCanonical, permuteBarycentricFromCanonical. rewrite E. cbn [bind].
  pose proof (live_face_of m V h L I) as F. assert (FL : liveFL m (fa m h)) by (left; auto). destruct (cn_fh _ (va_cn _ V) _ FL) as (Lf & Ff).
  assert (If : ~ ext m (fh m (fa m h))) by (apply liveF_not_ext; auto; rewrite Ff; auto). destruct (T _ Lf If) as (_ & N3 & _).
  eexists. split; [reflexivity|].
  destruct k as [|[|[|k]]]; [| | |lia]; cbn [Nat.iter nat_rect] in H; (split; [f_equal; apply eq3; reflexivity|]); intros data; unfold valueAt; cbn [weights fold_right fold_left Nat.add Nat.modulo Nat.divmod fst snd Nat.sub setComp comp qx qy qz]; rewrite H at 4 5 6; cbn; rewrite ?N3.
  all: try (unfold valueAt; cbn; lra).
Qed.
Lemma permute_ok' m h b : Valid m -> triangular m -> liveH m h -> ~ ext m h ->
  exists c, permuteBarycentricFromCanonical m b h = Ok c /\ permuteBarycentricToCanonical m c h = Ok b.
Proof.
  intros V T L I. destruct (hindex_ok m h V T L I) as (k & E & K & H). unfold permuteBarycentricToCanonical, permuteBarycentricFromCanonical. rewrite E. cbn [bind].
  eexists. split; [reflexivity|]. destruct k as [|[|[|k]]]; [| | |lia]; f_equal; apply eq3; reflexivity.
Qed.
