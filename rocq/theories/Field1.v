From Coq Require Import Reals Lra Permutation.
From Verif Require Import Base DataModel DataSpec DataProofs MeshModel MeshSpec MeshBase MeshExec MeshOrbit MeshOpSpec MeshFlip MeshThms MeshSplit MeshHistorySpec MeshHistory MeshDataModel CollapseModel CollapseProofs CountSpec
  MatrixModel GeoModel GeoVec IntrinsicModel IntrinsicSpec TangentSpec EmbeddedModel EmbeddedSpec FrameModel FrameSpec FieldModel FieldSpec Intrinsic1 Intrinsic2 Intrinsic3 Intrinsic4 Intrinsic5 Intrinsic11 Embedded1 Frame1.
Open Scope R_scope.

(** equality of angles up to full turns *)
Definition eqm (a b : R) : Prop := exists k : Z, a - b = 2 * PI * IZR k.
Lemma eqm_refl a : eqm a a. Proof. exists 0%Z. cbn. lra. Qed.
Lemma eqm_eq a b : a = b -> eqm a b. Proof. intros ->. apply eqm_refl. Qed.
Lemma eqm_sym a b : eqm a b -> eqm b a. Proof. intros [k E]. exists (- k)%Z. rewrite opp_IZR. lra. Qed.
Lemma eqm_trans a b c : eqm a b -> eqm b c -> eqm a c. Proof. intros [k E] [j F]. exists (k + j)%Z. rewrite plus_IZR. lra. Qed.
Lemma eqm_plus a b c d : eqm a b -> eqm c d -> eqm (a + c) (b + d). Proof. intros [k E] [j F]. exists (k + j)%Z. rewrite plus_IZR. lra. Qed.
Lemma eqm_opp a b : eqm a b -> eqm (- a) (- b). Proof. intros [k E]. exists (- k)%Z. rewrite opp_IZR. lra. Qed.
Lemma eqm_minus a b c d : eqm a b -> eqm c d -> eqm (a - c) (b - d). Proof. intros. apply eqm_plus; auto. apply eqm_opp; auto. Qed.
Lemma eqm_scal n a b : eqm a b -> eqm (INR n * a) (INR n * b).
Proof. intros [k E]. exists (Z.of_nat n * k)%Z. rewrite mult_IZR, <- INR_IZR_INZ. replace (INR n * a - INR n * b) with (INR n * (a - b)) by ring. rewrite E. ring. Qed.
Lemma eqm_sum {A} (f g : A -> R) l : (forall a, In a l -> eqm (f a) (g a)) -> eqm (Rsum f l) (Rsum g l).
Proof. induction l as [|a t IH]; intros H; [apply eqm_refl|]. rewrite !Rsum_cons. apply eqm_plus; [apply H; left; auto|apply IH; intros; apply H; right; auto]. Qed.
Lemma eqm_turn a : eqm (a + 2 * PI) a. Proof. exists 1%Z. lra. Qed.
Lemma eqm_reg t : eqm (regularizeAngle t) t.
Proof. apply eqm_sym. destruct (regularize_ok t) as (_ & k & E). exists k. lra. Qed.
Lemma cos_period_Z x (k : Z) : cos (x + 2 * PI * IZR k) = cos x /\ sin (x + 2 * PI * IZR k) = sin x.
Proof.
  assert (P : forall y n, cos (y + 2 * PI * IZR (Z.of_nat n)) = cos y /\ sin (y + 2 * PI * IZR (Z.of_nat n)) = sin y).
  { intros y n. rewrite <- INR_IZR_INZ. replace (2 * PI * INR n) with (2 * INR n * PI) by ring. split; [apply cos_period|apply sin_period]. }
  destruct (Z_le_gt_dec 0 k) as [G|G].
  - rewrite <- (Z2Nat.id k) by lia. apply P.
  - destruct (P (x + 2 * PI * IZR k) (Z.to_nat (- k))) as [C S]. rewrite Z2Nat.id in C, S by lia. rewrite opp_IZR in C, S.
    replace (x + 2 * PI * IZR k + 2 * PI * - IZR k) with x in C, S by ring. auto.
Qed.
Lemma eqm_trig a b : eqm a b -> cos a = cos b /\ sin a = sin b.
Proof. intros [k E]. replace a with (b + 2 * PI * IZR k) by lra. apply cos_period_Z. Qed.
Lemma cos_one t : 0 <= t < 2 * PI -> cos t = 1 -> t = 0.
Proof.
  intros [A B] C. destruct (Req_dec t 0) as [|N]; auto. exfalso. pose proof (sin_gt_0 (t / 2) ltac:(lra) ltac:(lra)) as S.
  pose proof (cos_2a_sin (t / 2)) as D. replace (2 * (t / 2)) with t in D by field. nra.
Qed.
Lemma trig_eqm a b : cos a = cos b -> sin a = sin b -> eqm a b.
Proof.
  intros C S. assert (D : cos (a - b) = 1). { rewrite cos_minus, C, S. pose proof (sin2_cos2 b) as T. unfold Rsqr in T. lra. }
  destruct (regularize_ok (a - b)) as (R & k & E). pose proof (proj1 (cos_period_Z (regularizeAngle (a - b)) k)) as Q. rewrite <- E in Q. rewrite D in Q.
  symmetry in Q. apply cos_one in Q; auto. exists k. lra.
Qed.
Lemma fromAngle_eqm a b : fromAngle a = fromAngle b <-> eqm a b.
Proof.
  split; [intros E; injection E as C S; apply trig_eqm; auto|]. intros E. destruct (eqm_trig _ _ E) as [C S]. unfold fromAngle. rewrite C, S. reflexivity.
Qed.
Lemma cmul_angle a b : cmul (fromAngle a) (fromAngle b) = fromAngle (a + b).
Proof. apply V2_eq; unfold cmul, fromAngle; cbn [px py]; [rewrite cos_plus|rewrite sin_plus]; ring. Qed.
Lemma cmul_scale u v s : cmul u (mul2 v s) = mul2 (cmul u v) s. Proof. apply V2_eq; unfold cmul, mul2; cbn [px py]; ring. Qed.
Lemma mul2_mul2 u s t : mul2 (mul2 u s) t = mul2 u (s * t). Proof. apply V2_eq; unfold mul2; cbn [px py]; ring. Qed.
Lemma arg_eqm t r : 0 < r -> eqm (arg2 (mul2 (fromAngle t) r)) t.
Proof. intros P. destruct (arg_ok t r P). apply trig_eqm; auto. Qed.
Lemma angle_scale_inj a b s t : 0 < s -> 0 < t -> mul2 (fromAngle a) s = mul2 (fromAngle b) t -> eqm a b.
Proof. intros P Q E. apply eqm_trans with (arg2 (mul2 (fromAngle a) s)); [apply eqm_sym, arg_eqm; auto|]. rewrite E. apply arg_eqm; auto. Qed.
Lemma polar_arg v : v <> mk2 0 0 -> exists s, 0 < s /\ v = mul2 (fromAngle (arg2 v)) s.
Proof.
  intros N. destruct (polar v N) as (t & r & P & E & _). exists r. split; auto. rewrite E at 1. f_equal. apply fromAngle_eqm, eqm_sym. rewrite E. apply arg_eqm; auto.
Qed.
Lemma unit_arg r : norm2_2 r = 1 -> r = fromAngle (arg2 r).
Proof.
  intros N. destruct (polar r) as (t & s & P & E & Q). { intros ->. unfold norm2_2 in N. cbn in N. lra. }
  assert (s = 1) as -> by nra. assert (R : r = fromAngle t) by (rewrite E; apply V2_eq; unfold mul2; cbn [px py]; ring). rewrite R at 1. apply fromAngle_eqm, eqm_sym. rewrite E. apply arg_eqm; lra.
Qed.
Lemma cpown_angle t n : cpown (fromAngle t) n = fromAngle (INR n * t).
Proof.
  induction n as [|n IH]; cbn [cpown]; [unfold fromAngle; cbn [INR]; rewrite Rmult_0_l, cos_0, sin_0; reflexivity|].
  rewrite IH, cmul_angle. f_equal. rewrite S_INR. ring.
Qed.
(** the power of the library is the power *)
Lemma cpow_unit r n : norm2_2 r = 1 -> cpow r (INR n) = cpown r n.
Proof.
  intros N. rewrite (unit_arg r N) at 2. rewrite cpown_angle. unfold cpow. replace (norm2d r) with 1 by (unfold norm2d; unfold norm2_2 in N; rewrite N; symmetry; apply sqrt_1).
  replace (Rpower 1 (INR n)) with 1 by (unfold Rpower; rewrite ln_1, Rmult_0_r, exp_0; reflexivity). apply V2_eq; unfold mul2; cbn [px py]; ring.
Qed.
Section D.
Context (r x0 x1 : V2) (n : nat) (U : norm2_2 r = 1) (X0 : x0 <> mk2 0 0) (X1 : x1 <> mk2 0 0).
Local Notation delta := (deltaTheta r x0 x1 (INR n)).
Lemma delta_range : - PI <= delta < PI.
Proof. unfold deltaTheta. cbv zeta. match goal with |- context [regularizeAngle ?t] => destruct (regularize_ok t) as (A & _) end. lra. Qed.
Lemma moved : exists s, 0 < s /\ cmul (cpown r n) x0 = mul2 (fromAngle (INR n * arg2 r + arg2 x0)) s.
Proof.
  destruct (polar_arg x0 X0) as (s & P & E). exists s. split; auto. rewrite (unit_arg r U) at 1. rewrite E at 1. rewrite cpown_angle, cmul_scale, cmul_angle. reflexivity.
Qed.
Lemma delta_eqm : eqm delta (arg2 x1 - (INR n * arg2 r + arg2 x0)).
Proof.
  destruct moved as (s & P & E). unfold deltaTheta. cbv zeta. rewrite cpow_unit by auto. rewrite E.
  eapply eqm_trans; [apply eqm_minus; [apply eqm_reg|apply eqm_refl]|]. set (b := arg2 (mul2 _ _)). assert (B : eqm b (INR n * arg2 r + arg2 x0)) by (apply arg_eqm; auto).
  eapply eqm_trans; [apply eqm_eq; instantiate (1 := arg2 x1 - b); ring|]. apply eqm_minus; [apply eqm_refl|auto].
Qed.
Lemma delta_turns : turnsBy (cmul (cpown r n) x0) x1 delta.
Proof.
  split; [apply delta_range|]. destruct moved as (s & P & E). destruct (polar_arg x1 X1) as (t & Q & F). exists (t / s). split; [apply Rdiv_lt_0_compat; auto|].
  rewrite E, cmul_scale, cmul_angle, mul2_mul2. replace (s * (t / s)) with t by (field; lra). rewrite F at 1. f_equal. apply fromAngle_eqm, eqm_sym.
  eapply eqm_trans; [apply eqm_plus; [apply delta_eqm|apply eqm_refl]|]. apply eqm_eq. ring.
Qed.
Lemma turns_unique d : turnsBy (cmul (cpown r n) x0) x1 d -> d = delta.
Proof.
  intros (R & t & Q & F). destruct moved as (s & P & E). destruct delta_turns as (R' & t' & Q' & F'). rewrite F' in F. rewrite E, !cmul_scale, !cmul_angle, !mul2_mul2 in F.
  apply angle_scale_inj in F; try (apply Rmult_lt_0_compat; auto). destruct F as [k F]. pose proof PI_RGT_0 as PP. assert (k = 0)%Z; [|subst k; cbn in F; lra].
  assert (-1 < IZR k < 1) as [K1 K2] by (split; apply Rmult_lt_reg_l with (2 * PI); lra). apply lt_IZR in K1, K2. lia.
Qed.
End D.
Lemma round_int k : roundZ (2 * PI * IZR k / (2 * PI)) = k.
Proof.
  pose proof PI_RGT_0. replace (2 * PI * IZR k / (2 * PI)) with (IZR k) by (field; lra). assert (G : forall j, Int_part (IZR j + 1 / 2) = j).
  { intros j. destruct (base_Int_part (IZR j + 1 / 2)) as [A B]. set (i := Int_part _) in *. assert (C : IZR i < IZR (j + 1)) by (rewrite plus_IZR; lra). assert (D : IZR j < IZR (i + 1)) by (rewrite plus_IZR; lra). apply lt_IZR in C, D. lia. }
  unfold roundZ. destruct (Rle_dec 0 (IZR k)); [apply G|]. rewrite <- opp_IZR, G. lia.
Qed.
Lemma round_nearest x : nearest x (roundZ x).
Proof.
  unfold nearest, roundZ. destruct (Rle_dec 0 x) as [P|P].
  - destruct (base_Int_part (x + 1 / 2)) as [A B]. apply Rabs_le. lra.
  - destruct (base_Int_part (- x + 1 / 2)) as [A B]. rewrite opp_IZR. apply Rabs_le. lra.
Qed.
(** a field around a cycle *)
Lemma cycle_index (l : list Z) (a b : Z -> Z) (x r : Z -> V2) n K :
  (forall h, In h l -> norm2_2 (r h) = 1 /\ x (a h) <> mk2 0 0 /\ x (b h) <> mk2 0 0) -> eqm (Rsum (fun h => arg2 (r h)) l) K ->
  (forall g : Z -> R, Rsum (fun h => g (b h)) l = Rsum (fun h => g (a h)) l) ->
  exists k : Z, K * INR n + Rsum (fun h => deltaTheta (r h) (x (a h)) (x (b h)) (INR n)) l = 2 * PI * IZR k.
Proof.
  intros H HK HP. assert (E : eqm (Rsum (fun h => deltaTheta (r h) (x (a h)) (x (b h)) (INR n)) l) (- (INR n * K))).
  { eapply eqm_trans; [apply eqm_sum; intros h Hh; destruct (H h Hh) as (A & B & C); apply delta_eqm; auto|]. rewrite Rsum_minus, Rsum_plus, Rsum_scal.
    rewrite (HP (fun v => arg2 (x v))). eapply eqm_trans; [|apply eqm_opp, eqm_scal, HK]. apply eqm_eq. ring. }
  destruct E as [k E]. exists k. rewrite <- E. ring.
Qed.
(** the two directions of an edge *)
Lemma delta_back r x0 x1 n : norm2_2 r = 1 -> x0 <> mk2 0 0 -> x1 <> mk2 0 0 ->
  let d := deltaTheta r x0 x1 (INR n) in deltaTheta (conj2 r) x1 x0 (INR n) + d = if Req_EM_T d (- PI) then - (2 * PI) else 0.
Proof.
  intros U X0 X1 d. assert (U' : norm2_2 (conj2 r) = 1) by (unfold norm2_2, conj2 in *; cbn [px py]; lra). assert (A : eqm (arg2 (conj2 r)) (- arg2 r)).
  { apply fromAngle_eqm. rewrite <- unit_arg by auto. rewrite (unit_arg r U) at 1. unfold conj2, fromAngle. cbn [px py]. rewrite cos_neg, sin_neg. reflexivity. }
  pose proof (delta_range r x0 x1 n) as R. pose proof (delta_range (conj2 r) x1 x0 n) as R'. pose proof (delta_eqm r x0 x1 n U X0) as E. pose proof (delta_eqm (conj2 r) x1 x0 n U' X1) as E'. fold d in R, E. set (d' := deltaTheta (conj2 r) x1 x0 (INR n)) in *.
  assert (S : eqm (d' + d) 0).
  { eapply eqm_trans; [apply eqm_plus; [exact E'|exact E]|]. eapply eqm_trans; [apply eqm_plus; [apply eqm_minus; [apply eqm_refl|apply eqm_plus; [apply eqm_scal, A|apply eqm_refl]]|apply eqm_refl]|]. apply eqm_eq. ring. }
  destruct S as [k S]. rewrite Rminus_0_r in S. pose proof PI_RGT_0 as PP.
  assert (-2 < IZR k < 1) as [K1 K2] by (split; apply Rmult_lt_reg_l with (2 * PI); lra). apply lt_IZR in K1, K2. assert (k = 0 \/ k = -1)%Z as [->| ->] by lia; cbn in S; destruct (Req_EM_T d (- PI)); lra.
Qed.
