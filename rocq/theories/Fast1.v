(** The update in one triangle. *)
From Coq Require Import Reals Lra Psatz.
From Verif Require Import Base GeoModel GeoVec IntrinsicSpec Intrinsic2 FastModel FastSpec.
Open Scope R_scope.
Lemma planeFront_swap a b th x y r : planeFront a b th x y r -> planeFront b a th y x r.
Proof.
  intros (P & Q & g & HP & HQ & HD & HG & HX & HY & s & t & Hs & Ht & E). exists Q, P, g. split; auto. split; auto. split; [|split; auto; split; auto; split; auto].
  - unfold dot2 in *. rewrite (Rmult_comm b a). rewrite <- HD. ring.
  - exists t, s. split; auto. split; auto. rewrite <- E. destruct P, Q. unfold add2, mul2. cbn. f_equal; ring.
Qed.
Lemma overHeight_swap a b c th x y r : overHeight a b c th x y r -> overHeight b a c th y x r.
Proof. intros (H & h & E & ->). split; auto. exists h. split; [rewrite E; ring|]. rewrite Rmax_comm. reflexivity. Qed.
(** the quadratic: a front with u < t through the triangle *)
Lemma front a b th u t x : 0 < a -> 0 < b -> 0 < th <= PI / 2 -> 0 < t -> (a * a + b * b - 2 * a * b * cos th) * (t * t) + 2 * b * u * (a * cos th - b) * t + b * b * (u * u - a * a * (1 - cos th * cos th)) = 0 ->
  a * cos th < b * (t - u) / t -> (cos th = 0 \/ b * (t - u) / t < a / cos th) -> planeFront b a th x (x + u) (x + t).
Proof.
  intros Ha Hb Hth Ht QE Y1 Y2. pose proof PI_RGT_0. set (c := cos th) in *. set (s := sin th). assert (S : 0 < s) by (apply sin_gt_0; lra). assert (C : 0 <= c) by (apply cos_ge_0; lra). assert (SC : s * s = 1 - c * c) by (pose proof (sin2_cos2 th) as Q; unfold Rsqr in Q; fold s c in Q; lra).
  set (w := t - u) in *. assert (W1 : a * c * t < b * w). { apply (Rmult_lt_compat_r t) in Y1; auto. replace (b * w / t * t) with (b * w) in Y1 by (field; lra). lra. }
  assert (W2 : w * b * c < t * a). { destruct Y2 as [Z|Y2]; [rewrite Z; nra|]. destruct (Req_dec c 0) as [Z|Z]; [rewrite Z; nra|]. apply (Rmult_lt_compat_r (t * c)) in Y2; [|apply Rmult_lt_0_compat; lra]. replace (b * w / t * (t * c)) with (w * b * c) in Y2 by (field; lra). replace (a / c * (t * c)) with (t * a) in Y2 by (field; lra). exact Y2. }
  set (al := (t * a - w * b * c) / (a * b * b * (s * s))). set (be := (w * b - t * a * c) / (a * a * b * (s * s))).
  assert (D1 : 0 < a * b * b * (s * s)) by (repeat apply Rmult_lt_0_compat; auto). assert (D2 : 0 < a * a * b * (s * s)) by (repeat apply Rmult_lt_0_compat; auto).
  assert (E1 : al * (b * b) + be * (a * b * c) = t). { unfold al, be. replace (c * 1) with c by ring. apply (Rmult_eq_reg_r (a * (s * s))); [|apply Rgt_not_eq; apply Rmult_lt_0_compat; nra]. replace (((t * a - w * b * c) / (a * b * b * (s * s)) * (b * b) + (w * b - t * a * c) / (a * a * b * (s * s)) * (a * b * c)) * (a * (s * s))) with ((t * a - w * b * c) + (w * b - t * a * c) * c) by (field; lra). rewrite SC. ring. }
  assert (E2 : al * (a * b * c) + be * (a * a) = w). { unfold al, be. apply (Rmult_eq_reg_r (b * (s * s))); [|apply Rgt_not_eq; apply Rmult_lt_0_compat; nra]. replace (((t * a - w * b * c) / (a * b * b * (s * s)) * (a * b * c) + (w * b - t * a * c) / (a * a * b * (s * s)) * (a * a)) * (b * (s * s))) with ((t * a - w * b * c) * c + (w * b - t * a * c)) by (field; lra). rewrite SC. ring. }
  assert (E3 : al * t + be * w = 1). { unfold al, be. apply (Rmult_eq_reg_r (a * a * b * b * (s * s))); [|apply Rgt_not_eq; repeat apply Rmult_lt_0_compat; auto]. replace (((t * a - w * b * c) / (a * b * b * (s * s)) * t + (w * b - t * a * c) / (a * a * b * (s * s)) * w) * (a * a * b * b * (s * s))) with ((t * a - w * b * c) * t * a + (w * b - t * a * c) * w * b) by (field; lra). rewrite SC. assert (U : u = t - w) by (unfold w; ring). rewrite U in QE. lra. }
  exists (mk2 b 0), (mk2 (a * c) (a * s)), (mk2 (- (al * b + be * (a * c))) (- (be * (a * s)))). unfold norm2_2, dot2, add2, mul2. cbn [px py]. fold c.
  split; [ring|]. split; [replace (a * c * (a * c) + a * s * (a * s)) with (a * a * (c * c + s * s)) by ring; rewrite SC; ring|]. split; [ring|].
  assert (CS : c * c + s * s = 1) by (rewrite SC; ring).
  split. { transitivity (al * (al * (b * b) + be * (a * b * c)) + be * (al * (a * b * c) + be * (a * a) * (c * c + s * s))); [ring|]. rewrite CS, Rmult_1_r, E1, E2. exact E3. }
  split. { rewrite <- E1. ring. }
  split. { transitivity (x + t - w); [unfold w; ring|]. rewrite <- E2. replace (be * (a * a)) with (be * (a * a) * (c * c + s * s)) by (rewrite CS; ring). ring. }
  exists al, be. split; [apply Rdiv_lt_0_compat; lra|]. split; [apply Rdiv_lt_0_compat; lra|]. f_equal; ring.
Qed.
(** what the subroutine returns: one of the two edges, or a front over the triangle that arrives later than at both ends *)
Lemma eikonal_spec a b th dA dB : 0 < a -> 0 < b -> 0 < th < PI -> (forall x, dA = Some x -> x <= dB) ->
  let r := eikonal a b th dA dB in r = a + dB \/ exists x, dA = Some x /\ (r = b + x \/ (x < r /\ dB < r /\ (planeFront b a th x dB r \/ forall c, 0 < c -> c * c = a * a + b * b - 2 * a * b * cos th -> overHeight b a c th x dB r))).
Proof.
  intros Ha Hb Hth HX. cbv zeta. unfold eikonal. pose proof PI_RGT_0. destruct dA as [x|]; [|left; reflexivity]. specialize (HX x eq_refl).
  assert (FB : Rmin (b + x) (a + dB) = a + dB \/ exists x0, Some x = Some x0 /\ (Rmin (b + x) (a + dB) = b + x0 \/ (x0 < Rmin (b + x) (a + dB) /\ dB < Rmin (b + x) (a + dB) /\ (planeFront b a th x0 dB (Rmin (b + x) (a + dB)) \/ forall c, 0 < c -> c * c = a * a + b * b - 2 * a * b * cos th -> overHeight b a c th x0 dB (Rmin (b + x) (a + dB)))))).
  { unfold Rmin. destruct (Rle_dec (b + x) (a + dB)); [right; exists x; auto|left; reflexivity]. }
  destruct (Rle_dec th (PI / 2)) as [Hac|Hob].
  - cbv zeta. set (c := cos th) in *. set (u := dB - x). set (A := a * a + b * b - 2 * a * b * c). set (B := 2 * b * u * (a * c - b)). set (C := b * b * (u * u - a * a * (1 - c * c))). set (D := B * B - 4 * A * C).
    assert (C1 : c < 1). { unfold c. rewrite <- cos_0. apply cos_decreasing_1; lra. } assert (PA : 0 < A). { unfold A. replace (a * a + b * b - 2 * a * b * c) with ((a - b) * (a - b) + 2 * (a * b * (1 - c))) by ring. assert (0 < a * b * (1 - c)) by (repeat apply Rmult_lt_0_compat; lra). pose proof (Rle_0_sqr (a - b)) as Q. unfold Rsqr in Q. lra. }
    destruct (Rlt_dec D 0) as [|ND]; [exact FB|]. set (t := (- B + sqrt D) / (2 * A)). destruct (Req_EM_T t 0); [exact FB|]. destruct (Rlt_dec u t) as [Hu|]; [|exact FB]. destruct (Rlt_dec (a * c) (b * (t - u) / t)) as [Y1|]; [|exact FB].
    assert (QE : A * (t * t) + B * t + C = 0). { assert (SD : sqrt D * sqrt D = D) by (apply sqrt_sqrt; lra). apply (Rmult_eq_reg_r (4 * A)); [|lra]. replace ((A * (t * t) + B * t + C) * (4 * A)) with ((2 * A * t) * (2 * A * t) + 2 * B * (2 * A * t) + 4 * A * C) by ring. assert (T : 2 * A * t = - B + sqrt D) by (unfold t; field; lra). rewrite T. unfold D in *. nra. }
    assert (Hu0 : 0 <= u) by (unfold u; lra).
    assert (G : c = 0 \/ b * (t - u) / t < a / c -> x + t = a + dB \/ exists x0, Some x = Some x0 /\ (x + t = b + x0 \/ (x0 < x + t /\ dB < x + t /\ (planeFront b a th x0 dB (x + t) \/ forall c0, 0 < c0 -> c0 * c0 = a * a + b * b - 2 * a * b * cos th -> overHeight b a c0 th x0 dB (x + t))))).
    { intros Y2. right. exists x. split; auto. right. split; [lra|]. split; [unfold u in Hu; lra|]. left. replace dB with (x + u) by (unfold u; ring). apply front; auto; lra. }
    destruct (Req_EM_T c 0) as [Z|Z]; [apply G; auto|]. destruct (Rlt_dec (b * (t - u) / t) (a / c)) as [Y2|]; [apply G; auto|exact FB].
  - cbv zeta. set (c0 := sqrt (a * a + b * b - 2 * a * b * cos th)). assert (CN : cos th < 0) by (apply cos_lt_0; lra). assert (PP : 0 < a * a + b * b - 2 * a * b * cos th). { assert (0 < a * b) by (apply Rmult_lt_0_compat; auto). nra. }
    assert (PC : 0 < c0) by (apply sqrt_lt_R0; auto). assert (SQ : c0 * c0 = a * a + b * b - 2 * a * b * cos th) by (apply sqrt_sqrt; lra). assert (SN : 0 < sin th) by (apply sin_gt_0; lra).
    set (BD := Rmax x dB + 2 * (1 / 2 * sin th * a * b) / c0). assert (MN : Rmin (Rmin (b + x) (a + dB)) BD = Rmin (b + x) (a + dB) \/ Rmin (Rmin (b + x) (a + dB)) BD = BD) by (generalize (Rmin (b + x) (a + dB)); intros z; unfold Rmin; destruct (Rle_dec z BD); auto). destruct MN as [MN|MN]; rewrite MN; [exact FB|]. unfold BD. right. exists x. split; auto. right.
    assert (HP : 0 < 2 * (1 / 2 * sin th * a * b) / c0). { apply Rdiv_lt_0_compat; auto. assert (0 < sin th * a * b) by (repeat apply Rmult_lt_0_compat; auto). lra. } pose proof (Rmax_l x dB). pose proof (Rmax_r x dB). split; [lra|]. split; [lra|]. right.
    intros c Pc Ec. assert (c = c0) as ->. { apply Rsqr_inj; try lra. unfold Rsqr. lra. } split; [lra|]. exists (2 * (1 / 2 * sin th * a * b) / c0). split; [field; lra|reflexivity].
Qed.
Lemma eikonal_none a b th dB : eikonal a b th None dB = a + dB. Proof. reflexivity. Qed.
