(** The Euclidean and the hyperbolic flip rule: a bad edge is good after its flip. *)
From Verif Require Import Base MeshModel MeshSpec GeoModel GeoSpec GeoProofs DelaunayModel DelaunayProofs DelaunaySpec.
From Coq Require Import Reals Lra Psatz.
Open Scope R_scope.

Definition TriGood (s : @T3 R) : Prop := let '(x, y, z) := s in 0 < x /\ 0 < y /\ 0 < z /\ x < y + z /\ y < z + x /\ z < x + y.
Definition PosGood (s : @T3 R) : Prop := let '(x, y, z) := s in 0 < x /\ 0 < y /\ 0 < z.
Lemma TriGood_rot x y z : TriGood (x, y, z) -> TriGood (y, z, x). Proof. cbn. intuition lra. Qed.
Lemma PosGood_rot x y z : PosGood (x, y, z) -> PosGood (y, z, x). Proof. cbn. tauto. Qed.

Lemma area_rot a b c : triangleArea a b c = triangleArea b c a.
Proof. unfold triangleArea. do 2 f_equal. replace ((b + c + a) / 2) with ((a + b + c) / 2) by lra. ring. Qed.
Lemma dist2_sym a b : dist2 a b = dist2 b a.
Proof. unfold dist2. f_equal. unfold Rsqr. ring. Qed.

(** the weight of one side, with its triangle laid out *)
Definition cotOf (s : @T3 R) : R := let '(a, b, c) := s in (- a * a + b * b + c * c) / (4 * triangleArea a b c) / 2.
Lemma weight_rot s t : rotated s t -> halfedgeCotanWeight (s, t) = cotOf s.
Proof.
  destruct s as ((x, y), z). unfold rotated, halfedgeCotanWeight, cotOf. intros [->|[->| ->]]; auto.
  - rewrite <- (area_rot x y z). auto.
  - rewrite (area_rot z x y). auto.
Qed.
Lemma cotOf_points p a b : 0 < area2 p a b -> cotOf (dist2 a b, dist2 b p, dist2 p a) = cotAt p a b / 2.
Proof.
  intros A. unfold cotOf, cotAt. rewrite triangleArea_points. assert (E : area2 a b p = area2 p a b) by (unfold area2; ring). rewrite E, Rabs_pos_eq by lra.
  assert (Q : - dist2 a b * dist2 a b + dist2 b p * dist2 b p + dist2 p a * dist2 p a = 2 * ((px a - px p) * (px b - px p) + (py a - py p) * (py b - py p))).
  { pose proof (dist2_sq a b). pose proof (dist2_sq b p). pose proof (dist2_sq p a). replace (- dist2 a b * dist2 a b) with (- (dist2 a b * dist2 a b)) by ring. rewrite H, H0, H1. ring. }
  rewrite Q. field. lra.
Qed.

Lemma strict_tri a b c : 0 < area2 a b c -> TriGood (dist2 a b, dist2 b c, dist2 c a).
Proof.
  intros A. pose proof (dist2_pos a b) as P1. pose proof (dist2_pos b c) as P2. pose proof (dist2_pos c a) as P3.
  pose proof (heron (dist2 a b) (dist2 b c) (dist2 c a)) as H. cbv zeta in H. rewrite !dist2_sq in H.
  assert (Q : 16 * ((dist2 a b + dist2 b c + dist2 c a) / 2 * ((dist2 a b + dist2 b c + dist2 c a) / 2 - dist2 a b) * ((dist2 a b + dist2 b c + dist2 c a) / 2 - dist2 b c) * ((dist2 a b + dist2 b c + dist2 c a) / 2 - dist2 c a)) = 4 * (area2 a b c * area2 a b c)) by (rewrite H; unfold area2; ring).
  assert (Q2 : 0 < area2 a b c * area2 a b c) by nra. clear H A.
  set (x := dist2 a b) in *. set (y := dist2 b c) in *. set (z := dist2 c a) in *. clearbody x y z. set (q := area2 a b c * area2 a b c) in *. clearbody q.
  assert (K : 0 < (x + y + z) * ((y + z - x) * ((x + z - y) * (x + y - z)))).
  { replace ((x + y + z) * ((y + z - x) * ((x + z - y) * (x + y - z)))) with (16 * ((x + y + z) / 2 * ((x + y + z) / 2 - x) * ((x + y + z) / 2 - y) * ((x + y + z) / 2 - z))) by field. lra. }
  clear Q Q2 q.
  assert (S : 0 < x + y + z). { destruct (Rle_lt_or_eq_dec 0 (x + y + z)) as [?|E]; [lra|auto|]. rewrite <- E in K. rewrite Rmult_0_l in K. lra. }
  assert (K2 : 0 < (y + z - x) * ((x + z - y) * (x + y - z))) by (apply Rmult_lt_reg_l with (x + y + z); lra). clear K.
  assert (U : 0 < y + z - x /\ 0 < x + z - y /\ 0 < x + y - z).
  { destruct (Rlt_le_dec 0 (y + z - x)) as [U1|U1], (Rlt_le_dec 0 (x + z - y)) as [U2|U2], (Rlt_le_dec 0 (x + y - z)) as [U3|U3]; auto; exfalso;
      set (u := y + z - x) in *; set (v := x + z - y) in *; set (w := x + y - z) in *.
    - assert (0 < u * v) by (apply Rmult_lt_0_compat; auto). assert (0 <= u * v * - w) by (apply Rmult_le_pos; lra). lra.
    - assert (0 < u * w) by (apply Rmult_lt_0_compat; auto). assert (0 <= u * w * - v) by (apply Rmult_le_pos; lra). lra.
    - assert (v = 0 /\ w = 0) as (Z1 & Z2) by (unfold u, v, w in *; lra). rewrite Z1 in K2. lra.
    - assert (0 < v * w) by (apply Rmult_lt_0_compat; auto). assert (0 <= v * w * - u) by (apply Rmult_le_pos; lra). lra.
    - assert (u = 0 /\ w = 0) as (Z1 & Z2) by (unfold u, v, w in *; lra). rewrite Z1 in K2. lra.
    - assert (u = 0 /\ v = 0) as (Z1 & Z2) by (unfold u, v, w in *; lra). rewrite Z1 in K2. lra.
    - assert (u = 0 /\ v = 0) as (Z1 & Z2) by (unfold u, v, w in *; lra). rewrite Z1 in K2. lra. }
  unfold TriGood. lra.
Qed.

(** two triangles on one edge, laid out by the code *)
Lemma layout_diamond l02 l01 l12 l23 l30 : TriGood (l02, l01, l12) -> TriGood (l02, l23, l30) ->
  exists p0 p1 p2 p3, dist2 p2 p0 = l02 /\ dist2 p0 p1 = l01 /\ dist2 p1 p2 = l12 /\ dist2 p2 p3 = l23 /\ dist2 p3 p0 = l30 /\
    0 < area2 p2 p0 p1 /\ 0 < area2 p0 p2 p3 /\ layoutLen l01 l12 l23 l30 l02 = dist2 p1 p3.
Proof.
  intros (A1 & A2 & A3 & A4 & A5 & A6) (B1 & B2 & B3 & B4 & B5 & B6).
  set (p3 := mk2 0 0). set (p0 := mk2 l30 0).
  assert (D30 : dist2 p3 p0 = l30) by (apply sqrt_eq; [lra|unfold p3, p0, Rsqr; cbn [px py]; ring]).
  assert (N30 : p3 <> p0) by (intros E; apply (f_equal px) in E; cbn in E; lra).
  destruct (layout_ok p3 p0 l02 l23 N30) as (C1 & C2 & _ & C3); try lra. set (p2 := layoutTriangleVertex p3 p0 l02 l23) in *.
  specialize (C3 ltac:(lra) ltac:(lra) ltac:(lra)).
  assert (N20 : p2 <> p0). { intros E. rewrite E in C2. unfold dist2 in C2. replace (px p0 - px p0) with 0 in C2 by ring. replace (py p0 - py p0) with 0 in C2 by ring. rewrite Rsqr_0, Rplus_0_r, sqrt_0 in C2. lra. }
  destruct (layout_ok p2 p0 l01 l12 N20) as (E1 & E2 & _ & E3); try lra. set (p1 := layoutTriangleVertex p2 p0 l01 l12) in *.
  specialize (E3 ltac:(lra) ltac:(lra) ltac:(lra)).
  exists p0, p1, p2, p3. split; [auto|]. split; [rewrite dist2_sym; auto|]. split; [auto|]. split; [auto|]. split; [auto|]. split; [auto|].
  split. { replace (area2 p0 p2 p3) with (area2 p3 p0 p2) by (unfold area2; ring). auto. }
  unfold layoutLen. fold p3 p0. cbv zeta. fold p2. fold p1. unfold norm2d, sub2, dist2, Rsqr. cbn [px py]. reflexivity.
Qed.

(** the sign of the two cotangent sums is the opposite of each other *)
Lemma diamond_flip p0 p1 p2 p3 : 0 < area2 p2 p0 p1 -> 0 < area2 p0 p2 p3 -> cotAt p1 p2 p0 + cotAt p3 p0 p2 < 0 ->
  0 < area2 p3 p0 p1 /\ 0 < area2 p1 p2 p3 /\ 0 <= cotAt p0 p1 p3 + cotAt p2 p3 p1.
Proof.
  intros A B C. unfold cotAt in C.
  assert (EA : area2 p1 p2 p0 = area2 p2 p0 p1) by (unfold area2; ring). assert (EB : area2 p3 p0 p2 = area2 p0 p2 p3) by (unfold area2; ring). rewrite EA, EB in C.
  set (d1 := (px p2 - px p1) * (px p0 - px p1) + (py p2 - py p1) * (py p0 - py p1)) in C.
  set (d3 := (px p0 - px p3) * (px p2 - px p3) + (py p0 - py p3) * (py p2 - py p3)) in C.
  assert (C2 : d1 * area2 p0 p2 p3 + d3 * area2 p2 p0 p1 < 0).
  { replace (d1 * area2 p0 p2 p3 + d3 * area2 p2 p0 p1) with ((d1 / area2 p2 p0 p1 + d3 / area2 p0 p2 p3) * (area2 p2 p0 p1 * area2 p0 p2 p3)) by (field; lra).
    assert (0 < area2 p2 p0 p1 * area2 p0 p2 p3) by (apply Rmult_lt_0_compat; auto). nra. }
  set (n02 := (px p0 - px p2) * (px p0 - px p2) + (py p0 - py p2) * (py p0 - py p2)).
  set (sq := fun u v => (px u - px v) * (px u - px v) + (py u - py v) * (py u - py v)).
  assert (SQ : forall u v, 0 <= sq u v) by (intros; apply sos2_ge).
  assert (I1 : n02 * area2 p3 p0 p1 = area2 p0 p2 p3 * sq p1 p0 + area2 p2 p0 p1 * sq p3 p0 - (d1 * area2 p0 p2 p3 + d3 * area2 p2 p0 p1)) by (unfold n02, sq, d1, d3, area2; ring).
  assert (I2 : n02 * area2 p1 p2 p3 = area2 p0 p2 p3 * sq p1 p2 + area2 p2 p0 p1 * sq p3 p2 - (d1 * area2 p0 p2 p3 + d3 * area2 p2 p0 p1)) by (unfold n02, sq, d1, d3, area2; ring).
  assert (N : 0 <= n02) by apply sos2_ge.
  assert (P1 : 0 < area2 p3 p0 p1).
  { assert (0 <= area2 p0 p2 p3 * sq p1 p0) by (apply Rmult_le_pos; [lra|apply SQ]). assert (0 <= area2 p2 p0 p1 * sq p3 p0) by (apply Rmult_le_pos; [lra|apply SQ]).
    assert (0 < n02 * area2 p3 p0 p1) by lra. destruct (Rlt_le_dec 0 (area2 p3 p0 p1)) as [?|H2]; auto. assert (0 <= n02 * - area2 p3 p0 p1) by (apply Rmult_le_pos; lra). lra. }
  assert (P2 : 0 < area2 p1 p2 p3).
  { assert (0 <= area2 p0 p2 p3 * sq p1 p2) by (apply Rmult_le_pos; [lra|apply SQ]). assert (0 <= area2 p2 p0 p1 * sq p3 p2) by (apply Rmult_le_pos; [lra|apply SQ]).
    assert (0 < n02 * area2 p1 p2 p3) by lra. destruct (Rlt_le_dec 0 (area2 p1 p2 p3)) as [?|H2]; auto. assert (0 <= n02 * - area2 p1 p2 p3) by (apply Rmult_le_pos; lra). lra. }
  split; auto. split; auto. unfold cotAt.
  assert (EC : area2 p0 p1 p3 = area2 p3 p0 p1) by (unfold area2; ring). assert (ED : area2 p2 p3 p1 = area2 p1 p2 p3) by (unfold area2; ring). rewrite EC, ED.
  set (d0 := (px p1 - px p0) * (px p3 - px p0) + (py p1 - py p0) * (py p3 - py p0)). set (d2 := (px p3 - px p2) * (px p1 - px p2) + (py p3 - py p2) * (py p1 - py p2)).
  assert (I3 : d0 * area2 p1 p2 p3 + d2 * area2 p3 p0 p1 = - (d1 * area2 p0 p2 p3 + d3 * area2 p2 p0 p1)) by (unfold d0, d1, d2, d3, area2; ring).
  replace (d0 / area2 p3 p0 p1 + d2 / area2 p1 p2 p3) with ((d0 * area2 p1 p2 p3 + d2 * area2 p3 p0 p1) / (area2 p3 p0 p1 * area2 p1 p2 p3)) by (field; lra).
  apply Rle_mult_inv_pos; [lra|]. apply Rmult_lt_0_compat; auto.
Qed.

Lemma ltb_true a b : ltb a b = true <-> a < b. Proof. unfold ltb. destruct (Rlt_dec a b); intuition discriminate. Qed.
Lemma ltb_false a b : ltb a b = false <-> b <= a. Proof. unfold ltb. destruct (Rlt_dec a b); split; intros; try discriminate; auto; lra. Qed.

(** the Euclidean rule *)
Lemma euclid_rule l02 l01 l12 l23 l30 ta tb : TriGood (l02, l01, l12) -> TriGood (l02, l23, l30) ->
  rotated (l02, l01, l12) ta -> rotated (l02, l23, l30) tb -> edgeCotanWeight ((l02, l01, l12), ta) ((l02, l23, l30), tb) < 0 ->
  let x := layoutLen l01 l12 l23 l30 l02 in
  TriGood (x, l30, l01) /\ TriGood (x, l12, l23) /\ 0 <= edgeCotanWeight ((x, l30, l01), (x, l30, l01)) ((x, l12, l23), (x, l12, l23)).
Proof.
  intros GA GB RA RB W. cbv zeta. destruct (layout_diamond _ _ _ _ _ GA GB) as (p0 & p1 & p2 & p3 & <- & <- & <- & <- & <- & A & B & ->).
  unfold edgeCotanWeight in *. rewrite !weight_rot in * by (auto; left; auto).
  assert (EA : area2 p1 p2 p0 = area2 p2 p0 p1) by (unfold area2; ring). assert (EB : area2 p3 p0 p2 = area2 p0 p2 p3) by (unfold area2; ring).
  rewrite (cotOf_points p1 p2 p0) in W by lra.
  assert (W3 : cotOf (dist2 p2 p0, dist2 p2 p3, dist2 p3 p0) = cotAt p3 p0 p2 / 2).
  { rewrite <- (cotOf_points p3 p0 p2) by lra. rewrite (dist2_sym p2 p0). auto. }
  rewrite W3 in W. destruct (diamond_flip p0 p1 p2 p3 A B ltac:(lra)) as (C & D & S).
  split; [|split].
  - pose proof (strict_tri p3 p0 p1 C) as G. do 2 apply TriGood_rot. exact G.
  - pose proof (strict_tri p1 p2 p3 D) as G. rewrite (dist2_sym p1 p3). do 2 apply TriGood_rot. exact G.
  - assert (EC : area2 p0 p1 p3 = area2 p3 p0 p1) by (unfold area2; ring). assert (ED : area2 p2 p3 p1 = area2 p1 p2 p3) by (unfold area2; ring).
    rewrite (cotOf_points p0 p1 p3) by lra.
    assert (E : cotOf (dist2 p1 p3, dist2 p1 p2, dist2 p2 p3) = cotAt p2 p3 p1 / 2) by (rewrite <- (cotOf_points p2 p3 p1) by lra; rewrite (dist2_sym p1 p3); auto).
    rewrite E. lra.
Qed.
(** a triangle folded onto itself along the edge *)
Lemma euclid_folded l l3 : TriGood (l, l, l3) -> 0 < cotOf (l, l, l3) /\ 0 < cotOf (l, l3, l).
Proof.
  intros (A1 & A2 & A3 & A4 & A5 & A6). assert (AR : 0 < triangleArea l l l3).
  { unfold triangleArea. rewrite Rmax_right; [apply sqrt_lt_R0|left]; apply heron_pos_lt; lra. }
  assert (AR2 : 0 < triangleArea l l3 l) by (rewrite <- area_rot; auto).
  unfold cotOf. split; (apply Rdiv_lt_0_compat; [apply Rdiv_lt_0_compat|]); nra.
Qed.

(** the hyperbolic rule *)
Lemma hyper_score l a b c d t u : 0 < l -> 0 < a -> 0 < b -> 0 < c -> 0 < d ->
  hyperbolicScore ((l, a, b), t) ((l, c, d), u) = (a * a + b * b - l * l) / (a * b * l) + (c * c + d * d - l * l) / (c * d * l).
Proof. intros. unfold hyperbolicScore, hyperbolicTerm. field. lra. Qed.
Lemma hyper_rule l02 l01 l12 l23 l30 ta tb : PosGood (l02, l01, l12) -> PosGood (l02, l23, l30) ->
  hyperbolicScore ((l02, l01, l12), ta) ((l02, l23, l30), tb) < 0 ->
  let x := ptolemyLen l01 l12 l23 l30 l02 in
  PosGood (x, l30, l01) /\ PosGood (x, l12, l23) /\ 0 <= hyperbolicScore ((x, l30, l01), (x, l30, l01)) ((x, l12, l23), (x, l12, l23)).
Proof.
  intros (A1 & A2 & A3) (B1 & B2 & B3) S. cbv zeta.
  assert (X : 0 < ptolemyLen l01 l12 l23 l30 l02).
  { unfold ptolemyLen. apply Rdiv_lt_0_compat; auto. assert (0 < l01 * l23) by (apply Rmult_lt_0_compat; auto). assert (0 < l12 * l30) by (apply Rmult_lt_0_compat; auto). lra. }
  split; [cbn; auto|]. split; [cbn; auto|]. rewrite hyper_score in * by auto. unfold ptolemyLen in *.
  set (p := l01 * l23 + l12 * l30) in *. set (q := l01 * l30 + l12 * l23). set (s := l23 * l30 + l01 * l12).
  assert (PP : 0 < p) by (unfold p; assert (0 < l01 * l23) by (apply Rmult_lt_0_compat; auto); assert (0 < l12 * l30) by (apply Rmult_lt_0_compat; auto); lra).
  assert (E1 : (l01 * l01 + l12 * l12 - l02 * l02) / (l01 * l12 * l02) + (l23 * l23 + l30 * l30 - l02 * l02) / (l23 * l30 * l02)
    = (p * q - l02 * l02 * s) / (l01 * l12 * l23 * l30 * l02)) by (unfold p, q, s; field; lra).
  assert (E2 : (l30 * l30 + l01 * l01 - p / l02 * (p / l02)) / (l30 * l01 * (p / l02)) + (l12 * l12 + l23 * l23 - p / l02 * (p / l02)) / (l12 * l23 * (p / l02))
    = - (p * q - l02 * l02 * s) / (l01 * l12 * l23 * l30 * l02)).
  { unfold q, s. unfold p in PP |- *. field. lra. }
  rewrite E1 in S. rewrite E2.
  assert (Y : 0 < l01 * l12 * l23 * l30 * l02) by (repeat apply Rmult_lt_0_compat; auto).
  assert (p * q - l02 * l02 * s < 0). { replace (p * q - l02 * l02 * s) with ((p * q - l02 * l02 * s) / (l01 * l12 * l23 * l30 * l02) * (l01 * l12 * l23 * l30 * l02)) by (field; lra). nra. }
  apply Rle_mult_inv_pos; lra.
Qed.
