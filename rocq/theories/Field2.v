From Coq Require Import Reals Lra Permutation.
From Verif Require Import Base DataModel DataSpec DataProofs MeshModel MeshModel2 MeshSpec MeshBase MeshExec MeshOrbit MeshOpSpec MeshFlip MeshThms MeshConnect MeshSplit MeshHistorySpec MeshHistory MeshDataModel CollapseModel CollapseMap CollapseSpec CollapseProofs CollapseRun CollapseBnd CountSpec
  MatrixModel GeoModel GeoVec IntrinsicModel IntrinsicSpec TangentSpec EmbeddedModel EmbeddedSpec FrameModel FrameSpec FieldModel FieldSpec Intrinsic1 Intrinsic2 Intrinsic3 Intrinsic4 Intrinsic5 Intrinsic6 Intrinsic7 Intrinsic8 Intrinsic11 Intrinsic12 Intrinsic13 Intrinsic14 Embedded1 Frame1 Field1.
Open Scope R_scope.
Lemma foldM_add {A} (f : R -> A -> res R) (g : A -> R) l : (forall t a, In a l -> f t a = Ok (t + g a)) -> forall s, foldM f l s = Ok (s + Rsum g l).
Proof.
  induction l as [|a t IH]; intros H s; cbn [foldM]; [rewrite Rsum_nil, Rplus_0_r; reflexivity|]. rewrite H by (left; auto). cbn [bind]. rewrite IH by (intros; apply H; right; auto). rewrite Rsum_cons. f_equal. ring.
Qed.
(** two sides of a triangle *)
Lemma corner_turn u v w a b c t A : 0 < a -> 0 < b -> norm2_2 u = a * a -> norm2_2 v = c * c -> norm2_2 w = b * b -> add2 (add2 u v) w = mk2 0 0 -> cross2 u v = 2 * A -> isAngle a b c t -> A = a * b * sin t / 2 ->
  mul2 (neg2 w) a = mul2 (cmul (fromAngle t) u) b.
Proof.
  intros PA PB NU NV NW S C [_ T] EA. destruct u as [ux uy], v as [vx vy], w as [wx wy]. unfold add2, cross2, norm2_2, mul2, neg2, cmul, fromAngle in *. cbn [px py] in *. injection S as S1 S2.
  assert (vx = - wx - ux) as -> by lra. assert (vy = - wy - uy) as -> by lra.
  assert (D : - (ux * wx + uy * wy) = a * b * cos t) by nra. assert (X : - (ux * wy - uy * wx) = a * b * sin t) by nra. clear T C EA NV NW.
  apply V2_eq; cbn [px py]; apply Rmult_eq_reg_l with a; try lra.
  - transitivity (- wx * (a * a)); [ring|]. transitivity ((a * b * cos t) * ux - (a * b * sin t) * uy); [|ring]. rewrite <- D, <- X, <- NU. ring.
  - transitivity (- wy * (a * a)); [ring|]. transitivity ((a * b * cos t) * uy + (a * b * sin t) * ux); [|ring]. rewrite <- D, <- X, <- NU. ring.
Qed.
Lemma rot_eqm r u v : norm2_2 r = 1 -> u <> mk2 0 0 -> v <> mk2 0 0 -> cmul r u = mk2 (- px v) (- py v) -> eqm (arg2 r) (arg2 v + PI - arg2 u).
Proof.
  intros U NU NV E. destruct (polar_arg u NU) as (a & PA & EU), (polar_arg v NV) as (b & PB & EV). rewrite (unit_arg r U), EU, cmul_scale, cmul_angle in E. rewrite EV in E.
  assert (E' : mul2 (fromAngle (arg2 r + arg2 u)) a = mul2 (fromAngle (arg2 v + PI)) b). { rewrite E. apply V2_eq; unfold mul2, fromAngle; cbn [px py]; [rewrite neg_cos|rewrite neg_sin]; ring. }
  apply angle_scale_inj in E'; auto. eapply eqm_trans; [|apply eqm_minus; [exact E'|apply eqm_refl]]. apply eqm_eq. ring.
Qed.
Lemma norm_ne u l : 0 < l -> norm2_2 u = l * l -> u <> mk2 0 0. Proof. intros P E ->. unfold norm2_2 in E. cbn in E. nra. Qed.
Lemma corner_eqm u v w a b c t A : 0 < a -> 0 < b -> norm2_2 u = a * a -> norm2_2 v = c * c -> norm2_2 w = b * b -> add2 (add2 u v) w = mk2 0 0 -> cross2 u v = 2 * A -> isAngle a b c t -> A = a * b * sin t / 2 ->
  eqm (arg2 w) (arg2 u + t + PI).
Proof.
  intros PA PB NU NV NW S C T EA. pose proof (corner_turn u v w a b c t A PA PB NU NV NW S C T EA) as E. destruct (polar_arg u (norm_ne u a PA NU)) as (p & PP & EU), (polar_arg w (norm_ne w b PB NW)) as (q & PQ & EW).
  rewrite EU, cmul_scale, cmul_angle in E. rewrite EW in E. assert (E' : mul2 (fromAngle (arg2 w + PI)) (q * a) = mul2 (fromAngle (t + arg2 u)) (p * b)). { rewrite <- (mul2_mul2 _ p b). rewrite <- E. apply V2_eq; unfold mul2, neg2, fromAngle; cbn [px py]; [rewrite neg_cos|rewrite neg_sin]; ring. }
  apply angle_scale_inj in E'; try (apply Rmult_lt_0_compat; auto). apply eqm_trans with (arg2 w + PI + PI); [apply eqm_sym; eapply eqm_trans; [|apply eqm_turn]; apply eqm_eq; ring|].
  eapply eqm_trans; [apply eqm_plus; [exact E'|apply eqm_refl]|]. apply eqm_eq. ring.
Qed.
Lemma incoming_list m v : Valid m -> liveV m v -> exists l, incoming m v = Ok l /\ arriving m v l.
Proof.
  intros V Lv. pose proof (va_cn _ V) as CN. destruct (cn_vh _ CN v Lv) as [Lh Eh].
  destruct (prev_ok m V (vh m v) Lh) as (p & Lp & Np & Fp & _ & RP).
  assert (Lt : liveH m (tw p)) by (apply CN; auto). destruct (vert_cycle m V (tw p) Lt) as (l & Hl & C & ND & R & B).
  exists (map tw l). split; [|split].
  - unfold incoming. rewrite vHe_ok by (apply (liveV_bnd m V) in Lv; tauto). cbn [bind]. rewrite RP; [|intros x Hx; apply next_live; auto|destruct (va_st _ V); lia]. cbn [bind].
    apply orbit_loop_chain with (fun c => tw (nx m c)).
    + destruct l; cbn; congruence.
    + rewrite <- (tw_tw p). apply (chain_conj (ro m)); auto.
    + intros I. destruct l as [|x t]; [congruence|]. cbn [map tl] in I. apply in_map_iff in I as (y & E & Hy). cbn in C. destruct C as [-> C]. apply (cycle_tl_notin (tw p) (tw p :: t) ND); [exists (ro m); cbn; auto|].
      cbn. replace (tw p) with y by (rewrite <- E; symmetry; apply tw_tw). exact Hy.
    + intros x Hx. apply in_map_iff in Hx as (y & <- & Hy). apply R in Hy as [Ly _]. rewrite next_live by (auto; apply CN; auto). reflexivity.
    + rewrite map_length. pose proof (loopFuel_big m V). clear -B H. lia.
  - apply FinFun.Injective_map_NoDup; auto. intros a b E. rewrite <- (tw_tw a), E, tw_tw. reflexivity.
  - intros x. rewrite in_map_iff. rewrite <- (cn_vnx _ CN p Lp), Np, Eh in R. split.
    + intros (y & <- & Hy). apply R in Hy as [Ly Ey]. rewrite tw_tw. split; auto. apply CN; auto.
    + intros [Hx Ex]. exists (tw x). split; [apply tw_tw|]. apply R. split; auto. apply CN; auto.
Qed.
Section M.
Context (m : mesh) (V : Valid m) (TR : triangular m).
Let CN := va_cn m V.
Local Notation intH := (intH m).
Definition dlF (tr x : mdata V2) (n : nat) (h : Z) : R := deltaTheta (vecAt tr h) (vecAt x (ve m h)) (vecAt x (ve m (tw h))) (INR n).
Definition dlV (tr x : mdata V2) (n : nat) (h : Z) : R := deltaTheta (vecAt tr h) (vecAt x (fa m h)) (vecAt x (fa m (tw h))) (INR n).
(** ** the loops *)
Lemma vertexOf_live h : liveH m h -> vertexOf m h = Ok (ve m h).
Proof. intros K. apply vertexOf_ok. apply (liveH_bnd m V) in K. tauto. Qed.
Lemma faceIndex_ok tr K x n : length (dat tr) = Z.to_nat (heCap m) -> length (dat K) = Z.to_nat (fCap m - bFill m) -> length (dat x) = Z.to_nat (vCap m) ->
  exists d, computeFaceIndex m tr K x (INR n) = Ok d /\ forall f, liveF m f -> intAt d f = roundZ ((valAt K f * INR n + Rsum (fun h => if extb m (tw h) then 0 else dlF tr x n h) (ring3 m (fh m f))) / (2 * PI)).
Proof.
  intros LT LK LX. unfold computeFaceIndex.
  match goal with |- context [forEach _ _ ?b] => destruct (fill_all 0%Z m EFace b (fun f => roundZ ((valAt K f * INR n + Rsum (fun h => if extb m (tw h) then 0 else dlF tr x n h) (ring3 m (fh m f))) / (2 * PI))) EFace 0%Z V) as (d & E & _ & H & _) end.
  - intros f Lf. apply (f_cap m V); auto.
  - intros d f _ Lf. cbn [liveE] in Lf. rewrite (dataAt_in 0) by (rewrite LK; apply (f_cap m V); auto). cbn [bind]. rewrite ring3_face by auto. cbn [bind]. destruct (fh_int m V f Lf) as [K0 F0].
    rewrite (foldM_add _ (fun h => if extb m (tw h) then 0 else dlF tr x n h)). { cbn [bind]. reflexivity. }
    intros t h Hh. apply (ring3_ok m V TR) in Hh; auto. destruct Hh as [[Lh Xh] _]. pose proof (cn_tw _ CN h Lh) as Lt. rewrite isInterior_ok by auto. cbn [bind]. change (fFill m <=? fa m (tw h))%Z with (extb m (tw h)).
    destruct (extb m (tw h)); cbn [negb]; [rewrite Rplus_0_r; reflexivity|]. rewrite (vertexOf_live h), (vertexOf_live (tw h)) by auto. cbn [bind].
    rewrite !(dataAt_in (mk2 0 0) x) by (rewrite LX; apply (v_cap m V); apply CN; auto). cbn [bind]. rewrite (dataAt_in (mk2 0 0)) by (rewrite LT; apply (he_cap m V); auto). reflexivity.
  - exists d. split; [exact E|]. intros f Lf. apply (H f Lf).
Qed.
Lemma vertexIndex_ok tr K x n : length (dat tr) = Z.to_nat (heCap m) -> length (dat K) = Z.to_nat (vCap m) -> length (dat x) = Z.to_nat (fCap m - bFill m) ->
  exists d, computeVertexIndex m tr K x (INR n) = Ok d /\ forall v l, liveV m v -> arriving m v l -> intAt d v = roundZ ((valAt K v * INR n + if bdb m v then 0 else Rsum (dlV tr x n) l) / (2 * PI)).
Proof.
  intros LT LK LX. unfold computeVertexIndex.
  match goal with |- context [forEach _ _ ?b] => destruct (fill_all 0%Z m EVertex b (fun v => roundZ ((valAt K v * INR n + if bdb m v then 0 else Rsum (dlV tr x n) (match incoming m v with Ok l => l | _ => [] end)) / (2 * PI))) EVertex 0%Z V) as (d & E & _ & H & _) end.
  - intros v Lv. apply (v_cap m V); auto.
  - intros d v _ Lv. cbn [liveE] in Lv. rewrite (dataAt_in 0) by (rewrite LK; apply (v_cap m V); auto). cbn [bind]. rewrite (vIsB m V) by auto. cbn [bind]. destruct (bdb m v) eqn:B; cbn [negb bind]; [rewrite Rplus_0_r; reflexivity|].
    destruct (incoming_list m v V Lv) as (l & EL & ND & I). rewrite EL. cbn [bind]. rewrite (foldM_add _ (dlV tr x n)). { cbn [bind]. reflexivity. }
    intros t h Hh. apply I in Hh as [Lh Eh]. pose proof (cn_tw _ CN h Lh) as Lt. assert (XT : forall g, liveH m g -> ve m g = v -> ~ ext m g). { intros g Lg Eg Xg. assert (O : onBoundary m v) by (exists g; auto). apply (bdb_spec m V) in O; auto. congruence. }
    assert (Xt : ~ ext m (tw h)) by (apply XT; auto). assert (Xh : ~ ext m h). { intros X. apply (XT (nx m h)); [apply CN; auto|rewrite (cn_vnx _ CN) by auto; auto|]. rewrite (ext_nx m V) by auto. auto. }
    rewrite (faceOf_int m V h), (faceOf_int m V (tw h)) by (split; auto). cbn [bind]. rewrite !(dataAt_in (mk2 0 0) x) by (rewrite LX; apply (f_cap m V); apply (fa_liveF m V); split; auto). cbn [bind]. rewrite (dataAt_in (mk2 0 0)) by (rewrite LT; apply (he_cap m V); auto). reflexivity.
  - exists d. split; [exact E|]. intros v l Lv [ND I]. etransitivity; [apply (H v Lv)|]. destruct (incoming_list m v V Lv) as (l' & EL & ND' & I'). rewrite EL. rewrite (Rsum_set _ l' l); auto. intros h. rewrite I, I'. reflexivity.
Qed.
End M.
