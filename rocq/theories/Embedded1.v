From Coq Require Import Reals Lra Psatz.
From Verif Require Import Base DataModel GeoModel IntrinsicModel IntrinsicSpec Intrinsic2 EmbeddedModel EmbeddedSpec.
Open Scope R_scope.
Lemma V3_eq u v : qx u = qx v -> qy u = qy v -> qz u = qz v -> u = v. Proof. destruct u, v. cbn. intros -> -> ->. reflexivity. Qed.
Lemma norm2_nonneg u : 0 <= norm2_3 u.
Proof. unfold norm2_3. pose proof (Rle_0_sqr (qx u)). pose proof (Rle_0_sqr (qy u)). pose proof (Rle_0_sqr (qz u)). unfold Rsqr in *. lra. Qed.
Lemma norm_sq u : norm3d u * norm3d u = norm2_3 u. Proof. apply sqrt_sqrt. apply norm2_nonneg. Qed.
Lemma norm_nonneg u : 0 <= norm3d u. Proof. apply sqrt_pos. Qed.
Lemma norm_zero u : norm2_3 u = 0 -> u = mk3 0 0 0.
Proof.
  unfold norm2_3. intros E. pose proof (Rle_0_sqr (qx u)). pose proof (Rle_0_sqr (qy u)). pose proof (Rle_0_sqr (qz u)). unfold Rsqr in *.
  apply V3_eq; cbn; apply Rsqr_0_uniq; unfold Rsqr; lra.
Qed.
Lemma norm_pos u : u <> mk3 0 0 0 -> 0 < norm3d u.
Proof. intros N. destruct (norm_nonneg u) as [|E]; auto. exfalso. apply N, norm_zero. rewrite <- norm_sq, <- E. ring. Qed.
Lemma lagrange u v : norm2_3 (cross3 u v) = norm2_3 u * norm2_3 v - dot3 u v * dot3 u v.
Proof. unfold norm2_3, cross3, dot3. cbn [qx qy qz]. ring. Qed.
Lemma cosine u v : norm2_3 (sub3 u v) = norm2_3 u + norm2_3 v - 2 * dot3 u v.
Proof. unfold norm2_3, sub3, dot3. cbn [qx qy qz]. ring. Qed.
Lemma norm_sub u v : norm3d (sub3 u v) = norm3d (sub3 v u).
Proof. unfold norm3d, sub3. cbn [qx qy qz]. f_equal. ring. Qed.
Lemma cross_zero_l v : cross3 (mk3 0 0 0) v = mk3 0 0 0. Proof. unfold cross3. cbn. f_equal; ring. Qed.
(** the sides of a triangle that is not degenerate *)
Lemma cross_sq u v : cross3 u v <> mk3 0 0 0 -> dot3 u v * dot3 u v < norm2_3 u * norm2_3 v.
Proof. intros N. pose proof (lagrange u v). pose proof (norm_pos _ N) as P. rewrite <- (norm_sq (cross3 u v)) in H. assert (0 < norm3d (cross3 u v) * norm3d (cross3 u v)) by (apply Rmult_lt_0_compat; auto). lra. Qed.
Lemma cross_ne u v : cross3 u v <> mk3 0 0 0 -> u <> mk3 0 0 0 /\ v <> mk3 0 0 0.
Proof. intros N. split; intros ->; apply N; unfold cross3; cbn; f_equal; ring. Qed.
Lemma strict_tri u v : cross3 u v <> mk3 0 0 0 -> norm3d (sub3 u v) < norm3d u + norm3d v.
Proof.
  intros N. destruct (cross_ne u v N) as [Nu Nv]. pose proof (norm_pos u Nu) as Pu. pose proof (norm_pos v Nv) as Pv. apply Rsqr_incrst_0; [|apply norm_nonneg|lra]. unfold Rsqr. rewrite norm_sq, cosine.
  pose proof (cross_sq u v N) as S. rewrite <- !norm_sq in *. assert (- dot3 u v < norm3d u * norm3d v). { assert (0 < norm3d u * norm3d v) by (apply Rmult_lt_0_compat; auto). set (p := norm3d u * norm3d v) in *. replace (norm3d u * norm3d u * (norm3d v * norm3d v)) with (p * p) in S by (unfold p; ring). nra. }
  nra.
Qed.
Lemma heron_cross u v : cross3 u v <> mk3 0 0 0 -> tri (norm3d u) (norm3d v) (norm3d (sub3 u v)) -> heron (norm3d u) (norm3d v) (norm3d (sub3 u v)) = 1 / 2 * norm3d (cross3 u v).
Proof.
  intros N T. destruct (heron_sq _ _ _ T) as [H1 H2]. pose proof (norm_pos _ N). apply Rsqr_inj; [lra|lra|]. unfold Rsqr. pose proof (norm_sq (cross3 u v)) as Q. rewrite lagrange in Q.
  pose proof (norm_sq u) as Q1. pose proof (norm_sq v) as Q2. pose proof (norm_sq (sub3 u v)) as Q3. rewrite cosine in Q3. set (a := norm3d u) in *. set (b := norm3d v) in *. set (c := norm3d (sub3 u v)) in *. 
  assert (E : q16 a b c = 4 * (a * a) * (b * b) - (a * a + b * b - c * c) * (a * a + b * b - c * c)) by (unfold q16; ring). rewrite Q1, Q2, Q3 in E.
  replace (norm2_3 u + norm2_3 v - (norm2_3 u + norm2_3 v - 2 * dot3 u v)) with (2 * dot3 u v) in E by ring. nra.
Qed.
Lemma dot_normal u v : u <> mk3 0 0 0 -> v <> mk3 0 0 0 -> dot3 (normalize3 u) (normalize3 v) = dot3 u v / (norm3d u * norm3d v).
Proof. intros Nu Nv. pose proof (norm_pos u Nu). pose proof (norm_pos v Nv). unfold dot3, normalize3, mul3. cbn [qx qy qz]. fold (norm3d u) (norm3d v). field. split; lra. Qed.
Lemma angle_cross u v : cross3 u v <> mk3 0 0 0 -> angleBetween u v = angleOf (norm3d u) (norm3d (sub3 u v)) (norm3d v).
Proof.
  intros N. destruct (cross_ne u v N) as [Nu Nv]. pose proof (norm_pos u Nu). pose proof (norm_pos v Nv). unfold angleBetween, angleOf. f_equal. f_equal. rewrite dot_normal by auto. rewrite !norm_sq, cosine. field. split; lra.
Qed.
Lemma cot_cross u v : cross3 u v <> mk3 0 0 0 -> dot3 u v / norm3d (cross3 u v) / 2 = cotWeight (norm3d (sub3 u v)) (norm3d u) (norm3d v) (1 / 2 * norm3d (cross3 u v)).
Proof. intros N. pose proof (norm_pos _ N). unfold cotWeight. replace (- norm3d (sub3 u v) * norm3d (sub3 u v)) with (- (norm3d (sub3 u v) * norm3d (sub3 u v))) by ring. rewrite !norm_sq, cosine. field. lra. Qed.
Lemma unit_norm u : u <> mk3 0 0 0 -> norm2_3 (normalize3 u) = 1.
Proof. intros N. pose proof (norm_pos u N) as P. unfold norm2_3, normalize3, mul3. cbn [qx qy qz]. fold (norm3d u). pose proof (norm_sq u) as Q. unfold norm2_3 in Q. replace (qx u * (1 / norm3d u) * (qx u * (1 / norm3d u)) + qy u * (1 / norm3d u) * (qy u * (1 / norm3d u)) + qz u * (1 / norm3d u) * (qz u * (1 / norm3d u))) with ((qx u * qx u + qy u * qy u + qz u * qz u) / (norm3d u * norm3d u)) by (field; lra). rewrite <- Q. field. lra. Qed.
Lemma unit_scale u : u <> mk3 0 0 0 -> mul3 (normalize3 u) (norm3d u) = u.
Proof. intros N. pose proof (norm_pos u N) as P. apply V3_eq; unfold normalize3, mul3; cbn [qx qy qz]; fold (norm3d u); field; lra. Qed.
(** atan2 *)
Lemma atan2_spec y x : x * x + y * y = 1 -> cos (atan2 y x) = x /\ sin (atan2 y x) = y /\ - PI < atan2 y x <= PI.
Proof.
  intros E. pose proof PI_RGT_0 as PP. unfold atan2.
  assert (SQ : x <> 0 -> sqrt (1 + (y / x)²) = 1 / Rabs x). { intros N. replace (1 + (y / x)²) with ((1 / Rabs x)²). - apply sqrt_Rsqr. apply Rlt_le. apply Rdiv_lt_0_compat; [lra|]. apply Rabs_pos_lt; auto. - unfold Rsqr. assert (Rabs x * Rabs x = x * x) by (rewrite <- Rabs_mult; apply Rabs_pos_eq; apply Rle_0_sqr). replace (1 / Rabs x * (1 / Rabs x)) with (1 / (Rabs x * Rabs x)) by (field; apply Rabs_no_R0; auto). rewrite H. rewrite <- E at 1. field. auto. }
  destruct (Rlt_dec 0 x) as [P|P]; [|destruct (Rlt_dec x 0) as [Q|Q]].
  - pose proof (atan_bound (y / x)). rewrite cos_atan, sin_atan, SQ by lra. rewrite Rabs_pos_eq by lra. split; [field; lra|]. split; [field; lra|]. lra.
  - pose proof (atan_bound (y / x)) as AB. assert (C : cos (atan (y / x)) = - x) by (rewrite cos_atan, SQ by lra; rewrite Rabs_left by lra; field; lra). assert (S : sin (atan (y / x)) = - y) by (rewrite sin_atan, SQ by lra; rewrite Rabs_left by lra; field; lra).
    destruct (Rle_dec 0 y) as [Y|Y].
    + rewrite neg_cos, neg_sin. split; [lra|]. split; [lra|]. split; [lra|]. assert (atan (y / x) <= 0); [|lra]. rewrite <- atan_0. destruct (Req_dec y 0) as [->|NY]; [unfold Rdiv; rewrite Rmult_0_l; lra|]. apply Rlt_le, atan_increasing. unfold Rdiv. assert (/ x < 0) by (apply Rinv_lt_0_compat; auto). nra.
    + replace (atan (y / x) - PI) with (atan (y / x) + PI - 2 * PI) by ring. assert (0 < atan (y / x)). { rewrite <- atan_0. apply atan_increasing. unfold Rdiv. assert (/ x < 0) by (apply Rinv_lt_0_compat; auto). nra. }
      replace (cos (atan (y / x) + PI - 2 * PI)) with (cos (atan (y / x) + PI)) by (rewrite <- (cos_period (atan (y / x) + PI - 2 * PI) 1); f_equal; cbn [INR]; ring). replace (sin (atan (y / x) + PI - 2 * PI)) with (sin (atan (y / x) + PI)) by (rewrite <- (sin_period (atan (y / x) + PI - 2 * PI) 1); f_equal; cbn [INR]; ring).
      rewrite neg_cos, neg_sin. lra.
  - assert (x = 0) as -> by lra. assert (YY : y * y = 1) by lra. destruct (Rlt_dec 0 y) as [Y|Y]; [|destruct (Rlt_dec y 0) as [Y'|Y']].
    + assert (y = 1) as -> by nra. rewrite cos_PI2, sin_PI2. lra.
    + assert (y = -1) as -> by nra. rewrite cos_neg, sin_neg, cos_PI2, sin_PI2. lra.
    + exfalso. assert (y = 0) by lra. subst. lra.
Qed.
(** turning one unit normal of an edge into the other *)
Lemma dihedral_ok d n1 n2 : norm2_3 d = 1 -> norm2_3 n1 = 1 -> norm2_3 n2 = 1 -> dot3 d n1 = 0 -> dot3 d n2 = 0 ->
  let t := atan2 (dot3 d (cross3 n1 n2)) (dot3 n1 n2) in - PI < t <= PI /\ turned d t n1 = n2.
Proof.
  intros D N1 N2 O1 O2 t. set (c := dot3 n1 n2) in *. set (s := dot3 d (cross3 n1 n2)) in *.
  (* cross3 n1 n2 = s d *)
  assert (X : cross3 n1 n2 = mul3 d s).
  { assert (W : norm2_3 (sub3 (cross3 n1 n2) (mul3 d s)) = 0).
    { rewrite cosine. replace (norm2_3 (mul3 d s)) with (s * s * norm2_3 d) by (unfold norm2_3, mul3; cbn [qx qy qz]; ring). replace (dot3 (cross3 n1 n2) (mul3 d s)) with (s * s) by (unfold s, dot3, mul3; cbn [qx qy qz]; ring). rewrite D, lagrange, N1, N2. fold c.
      (* Gram determinant *)
      assert (G : s * s = 1 - c * c).
      { transitivity (norm2_3 d * norm2_3 n1 * norm2_3 n2 + 2 * dot3 d n1 * dot3 n1 n2 * dot3 d n2 - norm2_3 d * (dot3 n1 n2 * dot3 n1 n2) - norm2_3 n1 * (dot3 d n2 * dot3 d n2) - norm2_3 n2 * (dot3 d n1 * dot3 d n1)); [unfold s, dot3, cross3, norm2_3; cbn [qx qy qz]; ring|]. rewrite D, N1, N2, O1, O2. fold c. ring. }
      lra. }
    apply norm_zero in W. apply V3_eq; [pose proof (f_equal qx W) as Q|pose proof (f_equal qy W) as Q|pose proof (f_equal qz W) as Q]; cbn [qx qy qz sub3] in Q; lra. }
  assert (G : c * c + s * s = 1). { pose proof (lagrange n1 n2) as Q. rewrite X, N1, N2 in Q. fold c in Q. replace (norm2_3 (mul3 d s)) with (s * s * norm2_3 d) in Q by (unfold norm2_3, mul3; cbn [qx qy qz]; ring). rewrite D in Q. lra. }
  destruct (atan2_spec s c G) as (C & S & B). fold t in C, S, B. split; auto. unfold turned. rewrite C, S.
  (* n2 = c n1 + s (d x n1) = c n1 + (n1 x n2) x n1 = c n1 + n2 (n1.n1) - n1 (n1.n2) *)
  assert (Y : mul3 (cross3 d n1) s = sub3 n2 (mul3 n1 c)).
  { transitivity (cross3 (mul3 d s) n1); [unfold cross3, mul3; cbn [qx qy qz]; f_equal; ring|]. rewrite <- X. unfold c. apply V3_eq; unfold cross3, sub3, mul3, dot3; cbn [qx qy qz]; unfold norm2_3 in N1; [replace (qx n2) with (qx n2 * (qx n1 * qx n1 + qy n1 * qy n1 + qz n1 * qz n1)) at 3 by (rewrite N1; ring)|replace (qy n2) with (qy n2 * (qx n1 * qx n1 + qy n1 * qy n1 + qz n1 * qz n1)) at 3 by (rewrite N1; ring)|replace (qz n2) with (qz n2 * (qx n1 * qx n1 + qy n1 * qy n1 + qz n1 * qz n1)) at 3 by (rewrite N1; ring)]; ring. }
  rewrite Y. apply V3_eq; unfold add3, sub3, mul3; cbn [qx qy qz]; ring.
Qed.
