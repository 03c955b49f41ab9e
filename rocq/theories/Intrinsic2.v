From Coq Require Import Reals Lra Psatz.
From Verif Require Import Base GeoModel IntrinsicModel IntrinsicSpec.
Open Scope R_scope.

(** ** one Euclidean triangle *)
Definition tri (a b c : R) : Prop := 0 < a /\ 0 < b /\ 0 < c /\ a < b + c /\ b < a + c /\ c < a + b.
Lemma tri_rot a b c : tri a b c -> tri b c a. Proof. unfold tri. lra. Qed.
Lemma tri_swap a b c : tri a b c -> tri b a c. Proof. unfold tri. lra. Qed.
Definition q16 (a b c : R) : R := (a + b + c) * (- a + b + c) * (a - b + c) * (a + b - c).
Lemma q16_pos a b c : tri a b c -> 0 < q16 a b c.
Proof. intros (A & B & C & D & E & F). unfold q16. repeat apply Rmult_lt_0_compat; lra. Qed.
Lemma heron_arg a b c : (a + b + c) / 2 * ((a + b + c) / 2 - a) * ((a + b + c) / 2 - b) * ((a + b + c) / 2 - c) = q16 a b c / 16.
Proof. unfold q16. field. Qed.
Lemma heron_sq a b c : tri a b c -> 0 < heron a b c /\ 16 * (heron a b c * heron a b c) = q16 a b c.
Proof.
  intros T. pose proof (q16_pos a b c T) as P. unfold heron. cbv zeta. rewrite heron_arg. rewrite Rmax_right by lra. split; [apply sqrt_lt_R0; lra|].
  rewrite sqrt_sqrt by lra. lra.
Qed.
Lemma heron_sym1 a b c : heron a b c = heron b a c.
Proof. unfold heron. cbv zeta. rewrite !heron_arg. f_equal. f_equal. unfold q16. field. Qed.
Lemma heron_sym2 a b c : heron a b c = heron b c a.
Proof. unfold heron. cbv zeta. rewrite !heron_arg. f_equal. f_equal. unfold q16. field. Qed.

(** the cosine *)
Definition cosOf (a b c : R) : R := (a * a + b * b - c * c) / (2 * a * b).
Lemma cosOf_range a b c : tri a b c -> -1 < cosOf a b c < 1.
Proof.
  intros (A & B & C & D & E & F). unfold cosOf. assert (0 < 2 * a * b) by (repeat apply Rmult_lt_0_compat; lra). split.
  - apply Rmult_lt_reg_r with (2 * a * b); auto. replace ((a * a + b * b - c * c) / (2 * a * b) * (2 * a * b)) with (a * a + b * b - c * c) by (field; split; lra). assert (0 < (a + b - c) * (a + b + c)) by (apply Rmult_lt_0_compat; lra). lra.
  - apply Rmult_lt_reg_r with (2 * a * b); auto. replace ((a * a + b * b - c * c) / (2 * a * b) * (2 * a * b)) with (a * a + b * b - c * c) by (field; split; lra). assert (0 < (c - a + b) * (c + a - b)) by (apply Rmult_lt_0_compat; lra). lra.
Qed.
Lemma angle_acos a b c : tri a b c -> angleOf a c b = acos (cosOf a b c).
Proof.
  intros T. pose proof (cosOf_range a b c T) as [P Q]. unfold angleOf, clamp. fold (cosOf a b c). destruct (Rgt_dec _ _); [lra|]. destruct (Rlt_dec _ _); [lra|]. reflexivity.
Qed.
Lemma angle_ok a b c : tri a b c -> isAngle a b c (angleOf a c b) /\ cos (angleOf a c b) = cosOf a b c /\ sin (angleOf a c b) = 2 * heron a b c / (a * b).
Proof.
  intros T. pose proof (cosOf_range a b c T) as [P Q]. rewrite (angle_acos a b c T). destruct T as (A & B & C & D & E & F).
  assert (AB : 0 < a * b) by (apply Rmult_lt_0_compat; auto).
  split; [split|split].
  - apply acos_bound_lt. lra.
  - rewrite cos_acos by lra. unfold cosOf. field. split; lra.
  - apply cos_acos. lra.
  - rewrite sin_acos by lra. destruct (heron_sq a b c (conj A (conj B (conj C (conj D (conj E F)))))) as [H1 H2].
    replace (1 - (cosOf a b c)²) with ((2 * heron a b c / (a * b))²).
    + apply sqrt_Rsqr. apply Rlt_le. apply Rdiv_lt_0_compat; lra.
    + unfold Rsqr, cosOf. replace (2 * heron a b c / (a * b) * (2 * heron a b c / (a * b))) with (16 * (heron a b c * heron a b c) / (4 * (a * b) * (a * b))) by (field; split; lra).
      rewrite H2. unfold q16. field. split; lra.
Qed.
Lemma isAngle_unique a b c t t' : 0 < a -> 0 < b -> isAngle a b c t -> isAngle a b c t' -> t = t'.
Proof.
  intros A B [T1 T2] [T3 T4]. assert (AB : 0 < a * b) by (apply Rmult_lt_0_compat; auto). assert (E : cos t = cos t').
  { apply Rmult_eq_reg_l with (2 * a * b); [|nra]. lra. }
  rewrite <- (acos_cos t), <- (acos_cos t') by lra. congruence.
Qed.
(** the angles of a triangle *)
Lemma angles_sum a b c : tri a b c -> angleOf a c b + angleOf b a c + angleOf c b a = PI.
Proof.
  intros T. pose proof (tri_rot _ _ _ T) as T2. pose proof (tri_rot _ _ _ T2) as T3.
  destruct (angle_ok a b c T) as ([A1 _] & C1 & S1). destruct (angle_ok b c a T2) as ([A2 _] & C2 & S2). destruct (angle_ok c a b T3) as ([A3 _] & C3 & S3).
  rewrite <- (heron_sym2 a b c) in S2. rewrite (heron_sym2 c a b) in S3.
  destruct (heron_sq a b c T) as [H1 H2].
  set (al := angleOf a c b) in *. set (be := angleOf b a c) in *. set (ga := angleOf c b a) in *. destruct T as (A & B & C & _).
  assert (SS : 0 < sin (al + be)).
  { rewrite sin_plus, C1, C2, S1, S2. unfold cosOf. replace (2 * heron a b c / (a * b) * ((b * b + c * c - a * a) / (2 * b * c)) + (a * a + b * b - c * c) / (2 * a * b) * (2 * heron a b c / (b * c))) with (2 * heron a b c / (a * c)) by (field; repeat split; lra).
    apply Rdiv_lt_0_compat; [lra|]. apply Rmult_lt_0_compat; auto. }
  assert (LP : al + be < PI).
  { destruct (Rlt_le_dec (al + be) PI) as [|K]; auto. pose proof (sin_le_0 (al + be) K). lra. }
  assert (CC : cos (al + be) = cos (PI - ga)).
  { rewrite Rtrigo_facts.cos_pi_minus, cos_plus, C1, C2, C3, S1, S2. unfold cosOf.
    replace (2 * heron a b c / (a * b) * (2 * heron a b c / (b * c))) with (16 * (heron a b c * heron a b c) / (4 * a * b * b * c)) by (field; repeat split; lra).
    rewrite H2. unfold q16. field. repeat split; lra. }
  assert (E : al + be = PI - ga).
  { rewrite <- (acos_cos (al + be)), <- (acos_cos (PI - ga)) by lra. congruence. }
  lra.
Qed.
Lemma area_ok a b c : tri a b c -> isArea a b c (heron a b c).
Proof.
  intros T. destruct (angle_ok a b c T) as (A & C & S). exists (angleOf a c b). split; auto. rewrite S. destruct T as (P & Q & _). field. split; lra.
Qed.
Lemma isArea_unique a b c A A' : 0 < a -> 0 < b -> isArea a b c A -> isArea a b c A' -> A = A'.
Proof. intros P Q (t & T & ->) (t' & T' & ->). rewrite (isAngle_unique a b c t t'); auto. Qed.
(** the cotangent of the angle opposite to side a *)
Lemma cot_ok a b c : tri a b c -> cotWeight a b c (heron a b c) = cos (angleOf b a c) / sin (angleOf b a c) / 2.
Proof.
  intros T. pose proof (tri_rot _ _ _ T) as T2. destruct (angle_ok b c a T2) as (_ & C & S). rewrite C, S. rewrite <- (heron_sym2 a b c).
  destruct (heron_sq a b c T) as [H1 _]. destruct T as (A & B & D & _). unfold cotWeight, cosOf. field. repeat split; lra.
Qed.
(** the quadratic form of one triangle *)
Lemma tri_form a b c u v w : tri a b c -> u + v + w = 0 -> exists p q : R, 0 < p /\ 0 < q /\
  cotWeight a b c (heron a b c) * (u * u) + cotWeight b c a (heron a b c) * (v * v) + cotWeight c a b (heron a b c) * (w * w) =
  ((2 * (b * b) * u + (- c * c + a * a + b * b) * v) * (2 * (b * b) * u + (- c * c + a * a + b * b) * v) + q * (v * v)) / p.
Proof.
  intros T E. destruct (heron_sq a b c T) as [H1 H2]. set (A := heron a b c) in *. destruct T as (Pa & Pb & Pc & _).
  unfold cotWeight. set (x := - a * a + b * b + c * c). set (y := - b * b + c * c + a * a). set (z := - c * c + a * a + b * b).
  assert (D : x * y + y * z + z * x = 16 * (A * A)). { rewrite H2. unfold x, y, z, q16. ring. }
  assert (XZ : x + z = 2 * (b * b)) by (unfold x, z; ring).
  assert (W : w = - (u + v)) by lra. subst w.
  assert (0 < b * b) by (apply Rmult_lt_0_compat; auto). assert (0 < A * A) by (apply Rmult_lt_0_compat; auto).
  exists (8 * A * (x + z)), (x * y + y * z + z * x). split; [rewrite XZ; apply Rmult_lt_0_compat; lra|]. split; [rewrite D; lra|]. rewrite <- XZ. field. split; lra.
Qed.
Lemma tri_energy a b c u v w : tri a b c -> u + v + w = 0 ->
  0 <= cotWeight a b c (heron a b c) * (u * u) + cotWeight b c a (heron a b c) * (v * v) + cotWeight c a b (heron a b c) * (w * w).
Proof.
  intros T E. destruct (tri_form a b c u v w T E) as (p & q & P & Q & ->). set (r := 2 * (b * b) * u + _ * v). pose proof (Rle_0_sqr v) as K1. pose proof (Rle_0_sqr r) as K2. unfold Rsqr in K1, K2.
  apply Rmult_le_pos; [|apply Rlt_le, Rinv_0_lt_compat; auto]. assert (0 <= q * (v * v)) by (apply Rmult_le_pos; lra). lra.
Qed.
Lemma tri_energy_zero a b c u v w : tri a b c -> u + v + w = 0 ->
  cotWeight a b c (heron a b c) * (u * u) + cotWeight b c a (heron a b c) * (v * v) + cotWeight c a b (heron a b c) * (w * w) = 0 -> u = 0 /\ v = 0 /\ w = 0.
Proof.
  intros T E Z. destruct (tri_form a b c u v w T E) as (p & q & P & Q & R). rewrite R in Z. clear R. set (z := - c * c + a * a + b * b) in *. set (r := 2 * (b * b) * u + z * v) in *. pose proof (Rle_0_sqr v) as K1. pose proof (Rle_0_sqr r) as K2. unfold Rsqr in K1, K2.
  assert (K3 : 0 <= q * (v * v)) by (apply Rmult_le_pos; lra). assert (S : r * r + q * (v * v) = 0).
  { apply (Rmult_eq_reg_r (/ p)); [rewrite Rmult_0_l; exact Z|]. apply Rinv_neq_0_compat. lra. }
  assert (V : v = 0). { assert (q * (v * v) = 0) by lra. apply Rmult_integral in H as [H|H]; [lra|]. apply Rmult_integral in H as [H|H]; auto. }
  assert (U : r = 0). { assert (r * r = 0) by lra. apply Rmult_integral in H as [H|H]; auto. }
  unfold r in U. rewrite V, Rmult_0_r, Rplus_0_r in U. destruct T as (Pa & Pb & Pc & _). assert (0 < b * b) by (apply Rmult_lt_0_compat; auto).
  apply Rmult_integral in U as [U|U]; [lra|]. lra.
Qed.
