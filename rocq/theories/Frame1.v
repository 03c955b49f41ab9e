From Coq Require Import Reals Lra Permutation.
From Verif Require Import Base DataModel MeshModel MeshSpec MeshBase MeshOpSpec GeoModel GeoSpec GeoProofs GeoVec IntrinsicModel IntrinsicSpec TangentSpec Intrinsic1 EmbeddedModel EmbeddedSpec Embedded1 Embedded3 FrameModel FrameSpec.
Open Scope R_scope.
(** vectors of the plane orthogonal to a unit vector *)
Lemma V2_eq u v : px u = px v -> py u = py v -> u = v. Proof. destruct u, v. cbn. intros -> ->. reflexivity. Qed.
Lemma norm_one u : norm2_3 u = 1 -> norm3d u = 1. Proof. intros E. unfold norm3d. change (sqrt (norm2_3 u) = 1). rewrite E. apply sqrt_1. Qed.
Lemma one_norm u : norm3d u = 1 -> norm2_3 u = 1. Proof. intros E. rewrite <- norm_sq, E. ring. Qed.
Lemma normalize_unit u : norm2_3 u = 1 -> normalize3 u = u.
Proof. intros E. unfold normalize3. cbv zeta. change (qx u * qx u + qy u * qy u + qz u * qz u) with (norm2_3 u). rewrite E, sqrt_1. apply V3_eq; cbn; field. Qed.
Lemma normalize_scaled u r : norm2_3 u = 1 -> 0 < r -> normalize3 (mul3 u r) = u.
Proof.
  intros E P. unfold normalize3. cbv zeta. replace (qx (mul3 u r) * qx (mul3 u r) + qy (mul3 u r) * qy (mul3 u r) + qz (mul3 u r) * qz (mul3 u r)) with (r * r) by (unfold norm2_3 in E; unfold mul3; cbn [qx qy qz]; replace (r * r) with (r * r * (qx u * qx u + qy u * qy u + qz u * qz u)) by (rewrite E; ring); ring).
  rewrite sqrt_square by lra. apply V3_eq; unfold mul3; cbn [qx qy qz]; field; lra.
Qed.
Lemma ne_unit u : norm2_3 u = 1 -> u <> mk3 0 0 0. Proof. intros E ->. unfold norm2_3 in E. cbn in E. lra. Qed.
Lemma frame_ok n s : norm2_3 n = 1 -> dot3 n s = 0 -> s <> mk3 0 0 0 -> rightHanded (frameOf n s) n.
Proof.
  intros N O S. pose proof (unit_norm s S) as U. destruct (dot_unit n s O) as [O1 _]. unfold frameOf, rightHanded. cbv zeta. cbn [fst snd]. set (x := normalize3 s) in *. clearbody x.
  assert (B : norm2_3 (cross3 n x) = 1) by (rewrite lagrange, N, U, O1; ring). split; [apply norm_one; auto|]. split; [apply norm_one; auto|]. destruct (cross_orth n x) as [C1 C2]. split; auto. split; [unfold dot3 in *; lra|]. split; [unfold dot3 in *; lra|].
  unfold norm2_3, dot3 in U, O1. destruct n as [a b c], x as [d e f]. cbn [qx qy qz] in *. apply V3_eq; unfold cross3; cbn [qx qy qz].
  - transitivity (a * (d * d + e * e + f * f) - d * (a * d + b * e + c * f)); [ring|]. rewrite U, O1. ring.
  - transitivity (b * (d * d + e * e + f * f) - e * (a * d + b * e + c * f)); [ring|]. rewrite U, O1. ring.
  - transitivity (c * (d * d + e * e + f * f) - f * (a * d + b * e + c * f)); [ring|]. rewrite U, O1. ring.
Qed.
(** a vector of the plane is determined by its components along and across a unit vector of the plane *)
Lemma in_plane n x u : norm2_3 n = 1 -> norm2_3 x = 1 -> dot3 n x = 0 -> dot3 n u = 0 -> u = add3 (mul3 x (dot3 x u)) (mul3 (cross3 n x) (dot3 (cross3 n x) u)).
Proof.
  intros N X O U. set (w := sub3 u (add3 (mul3 x (dot3 x u)) (mul3 (cross3 n x) (dot3 (cross3 n x) u)))). assert (Q : w = mk3 0 0 0).
  { apply norm_zero. assert (B : norm2_3 (cross3 n x) = 1) by (rewrite lagrange, N, X, O; ring).
    assert (E : norm2_3 w = norm2_3 u - dot3 x u * dot3 x u - dot3 (cross3 n x) u * dot3 (cross3 n x) u).
    { destruct (cross_orth n x) as [_ C2]. set (y := cross3 n x) in *. unfold w. clearbody y. transitivity (norm2_3 u - 2 * (dot3 x u * dot3 x u) - 2 * (dot3 y u * dot3 y u) + dot3 x u * dot3 x u * norm2_3 x + dot3 y u * dot3 y u * norm2_3 y + 2 * (dot3 x u * dot3 y u * dot3 x y)); [unfold norm2_3, dot3, sub3, add3, mul3; cbn [qx qy qz]; ring|]. rewrite X, B, C2. ring. }
    rewrite E. assert (DT : dot3 (cross3 n x) u * dot3 (cross3 n x) u = norm2_3 n * norm2_3 x * norm2_3 u + 2 * (dot3 n x * dot3 x u * dot3 n u) - norm2_3 n * (dot3 x u * dot3 x u) - norm2_3 x * (dot3 n u * dot3 n u) - norm2_3 u * (dot3 n x * dot3 n x)) by (unfold norm2_3, dot3, cross3; cbn [qx qy qz]; ring).
    rewrite DT, N, X, O, U. ring. }
  unfold w in Q. apply V3_eq; [pose proof (f_equal qx Q) as K|pose proof (f_equal qy Q) as K|pose proof (f_equal qz Q) as K]; cbn [qx qy qz sub3] in K; lra.
Qed.
Lemma turned_0 n u : turned n 0 u = u.
Proof. unfold turned. rewrite cos_0, sin_0. apply V3_eq; unfold add3, mul3; cbn [qx qy qz]; ring. Qed.
Lemma turned_orth n t u : dot3 n u = 0 -> dot3 n (turned n t u) = 0.
Proof. intros O. unfold turned. transitivity (dot3 n u * cos t); [unfold dot3, add3, mul3, cross3; cbn [qx qy qz]; ring|rewrite O; ring]. Qed.
Lemma cross_twice n u : norm2_3 n = 1 -> dot3 n u = 0 -> cross3 n (cross3 n u) = mul3 u (-1).
Proof.
  intros N O. unfold norm2_3, dot3 in *. destruct n as [a b c], u as [d e f]. cbn [qx qy qz] in *. apply V3_eq; unfold cross3, mul3; cbn [qx qy qz].
  - transitivity (a * (a * d + b * e + c * f) - d * (a * a + b * b + c * c)); [ring|rewrite N, O; ring].
  - transitivity (b * (a * d + b * e + c * f) - e * (a * a + b * b + c * c)); [ring|rewrite N, O; ring].
  - transitivity (c * (a * d + b * e + c * f) - f * (a * a + b * b + c * c)); [ring|rewrite N, O; ring].
Qed.
Lemma turned_twice n s t u : norm2_3 n = 1 -> dot3 n u = 0 -> turned n t (turned n s u) = turned n (s + t) u.
Proof.
  intros N O. pose proof (cross_twice n u N O) as C. unfold turned. rewrite cos_plus, sin_plus. set (w := cross3 n u) in *.
  assert (E : cross3 n (add3 (mul3 u (cos s)) (mul3 w (sin s))) = add3 (mul3 w (cos s)) (mul3 (cross3 n w) (sin s))) by (unfold w; apply V3_eq; unfold cross3, add3, mul3; cbn [qx qy qz]; ring).
  rewrite E, C. apply V3_eq; unfold add3, mul3; cbn [qx qy qz]; ring.
Qed.
Lemma turned_mul n t u r : turned n t (mul3 u r) = mul3 (turned n t u) r.
Proof. unfold turned. apply V3_eq; unfold add3, mul3, cross3; cbn [qx qy qz]; ring. Qed.
Lemma turned_norm n t u : norm2_3 n = 1 -> dot3 n u = 0 -> norm2_3 (turned n t u) = norm2_3 u.
Proof.
  intros N O. unfold turned. pose proof (sin2_cos2 t) as T. unfold Rsqr in T. transitivity (cos t * cos t * norm2_3 u + sin t * sin t * norm2_3 (cross3 n u)); [unfold norm2_3, add3, mul3, cross3; cbn [qx qy qz]; ring|].
  rewrite lagrange, N, O. transitivity ((sin t * sin t + cos t * cos t) * norm2_3 u); [ring|rewrite T; ring].
Qed.
Lemma flat_orth u n : norm2_3 n = 1 -> dot3 n (flat u n) = 0.
Proof. intros N. unfold flat. transitivity (dot3 u n * (1 - norm2_3 n)); [unfold dot3, norm2_3, sub3, mul3; cbn [qx qy qz]; ring|rewrite N; ring]. Qed.
Lemma flat_id u n : dot3 u n = 0 -> flat u n = u.
Proof. intros O. unfold flat. rewrite O. apply V3_eq; unfold sub3, mul3; cbn [qx qy qz]; ring. Qed.
Lemma rotate_turned u n t : norm2_3 n = 1 -> rotateAround (removeComponent u n) n t = turned n t (flat u n).
Proof.
  intros N. assert (E : removeComponent u n = flat u n) by (unfold removeComponent, flat; apply V3_eq; unfold sub3, mul3, dot3; cbn [qx qy qz]; ring). rewrite E.
  rewrite rotateAround_rod by (apply ne_unit; auto). rewrite normalize_unit by auto. pose proof (flat_orth u n N) as O. set (w := flat u n) in *. clearbody w. unfold rodrigues, turned. cbv zeta. change (inner3 n w) with (dot3 n w). rewrite O. apply V3_eq; unfold add3, mul3; cbn [qx qy qz]; ring.
Qed.
(** the angle of a vector *)
Lemma atan2_scale r y x : 0 < r -> atan2 (y * r) (x * r) = atan2 y x.
Proof.
  intros P. assert (S : forall z, (0 < z * r <-> 0 < z) /\ (z * r < 0 <-> z < 0) /\ (0 <= z * r <-> 0 <= z)) by (intros z; split; [|split]; nra).
  destruct (S x) as (X1 & X2 & X3), (S y) as (Y1 & Y2 & Y3). unfold atan2. destruct (Rlt_dec 0 (x * r)) as [A|A], (Rlt_dec 0 x) as [B|B]; try tauto; [f_equal; field; lra|].
  destruct (Rlt_dec (x * r) 0) as [C|C], (Rlt_dec x 0) as [E|E]; try tauto; [replace (y * r / (x * r)) with (y / x) by (field; lra); destruct (Rle_dec 0 (y * r)), (Rle_dec 0 y); tauto|].
  destruct (Rlt_dec 0 (y * r)), (Rlt_dec 0 y); try tauto. destruct (Rlt_dec (y * r) 0), (Rlt_dec y 0); tauto.
Qed.
Lemma arg_ok t r : 0 < r -> cos (arg2 (mul2 (fromAngle t) r)) = cos t /\ sin (arg2 (mul2 (fromAngle t) r)) = sin t.
Proof.
  intros P. unfold arg2, mul2, fromAngle. cbn [px py]. rewrite atan2_scale by auto. pose proof (sin2_cos2 t) as T. unfold Rsqr in T. destruct (atan2_spec (sin t) (cos t)) as (A & B & _); [lra|]. auto.
Qed.
Lemma turned_trig n s t u : cos s = cos t -> sin s = sin t -> turned n s u = turned n t u.
Proof. intros C S. unfold turned. rewrite C, S. reflexivity. Qed.
Lemma polar v : v <> mk2 0 0 -> exists t r, 0 < r /\ v = mul2 (fromAngle t) r /\ r * r = norm2_2 v.
Proof.
  intros N. assert (P : 0 < norm2_2 v). { unfold norm2_2. destruct (Req_dec (px v) 0) as [A|A]; [destruct (Req_dec (py v) 0) as [B|B]; [exfalso; apply N, V2_eq; auto|nra]|nra]. }
  set (r := sqrt (norm2_2 v)). assert (R : 0 < r) by (apply sqrt_lt_R0; auto). assert (RR : r * r = norm2_2 v) by (apply sqrt_sqrt; lra).
  destruct (atan2_spec (py v / r) (px v / r)) as (C & S & _). { transitivity ((px v * px v + py v * py v) / (r * r)); [field; lra|]. rewrite RR. unfold norm2_2. field. unfold norm2_2 in P. lra. }
  exists (atan2 (py v / r) (px v / r)), r. split; auto. split; auto. unfold fromAngle. rewrite C, S. apply V2_eq; unfold mul2; cbn [px py]; field; lra.
Qed.
