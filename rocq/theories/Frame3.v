From Coq Require Import Reals Lra Permutation.
From Verif Require Import Base DataModel DataSpec DataProofs MeshModel MeshSpec MeshBase MeshExec MeshOrbit MeshOpSpec MeshFlip MeshThms MeshSplit MeshHistorySpec MeshHistory MeshDataModel CollapseProofs CountSpec
  MatrixModel MatrixSpec MatrixProofs GeoModel IntrinsicModel IntrinsicSpec TangentSpec Intrinsic1 Intrinsic2 Intrinsic3 Intrinsic4 Intrinsic5 Intrinsic6 Intrinsic7 Intrinsic8 Intrinsic9 Intrinsic11 Intrinsic12
  EmbeddedModel EmbeddedSpec Embedded1 Embedded2 Embedded3 Embedded4 FrameModel FrameSpec Frame1 Frame2.
Open Scope R_scope.
Lemma Vsum_app_dot n {A} (f : A -> V3) l : (forall a, In a l -> dot3 n (f a) = 0) -> dot3 n (Vsum f l) = 0.
Proof. induction l as [|a l IH]; intros H; [unfold Vsum, dot3; cbn; ring|]. rewrite Vsum_cons. transitivity (dot3 n (f a) + dot3 n (Vsum f l)); [unfold dot3, add3; cbn [qx qy qz]; ring|]. rewrite H by (left; auto). rewrite IH by (intros; apply H; right; auto). ring. Qed.
Lemma Vsum_mul {A} (u : V3) (g : A -> R) l : Vsum (fun a => mul3 u (g a)) l = mul3 u (Rsum g l).
Proof. unfold Vsum, mul3. cbn [qx qy qz]. f_equal; rewrite Rsum_scal; reflexivity. Qed.
Section M.
Context (m : mesh) (V : Valid m) (pos : mdata V3) (EB : Embedded m pos).
Let CN := va_cn m V.
Local Notation intH := (intH m).
Local Notation D := (along m pos).
Local Notation N := (N m pos).
Definition backV (vec : mdata V2) (n : V3) (h : Z) : V3 := rotateAround (removeComponent (D h) n) n (- arg2 (vecAt vec h)).
Lemma backToX_any vec h n : length (dat vec) = Z.to_nat (heCap m) -> liveH m h -> backToX m pos vec n h = Ok (backV vec n h).
Proof.
  intros LV K. unfold backToX, backV. rewrite next_live by auto. cbn [bind]. rewrite (posOf_ok m V pos EB) by (apply (cn_nx _ CN); auto). cbn [bind]. rewrite (posOf_ok m V pos EB) by auto. cbn [bind]. rewrite (dataAt_in (mk2 0 0)) by (rewrite LV; apply (he_cap m V); auto). cbn [bind].
  rewrite <- (along_nx m V pos) by auto. reflexivity.
Qed.
Lemma backV_turned vec n h t r : norm2_3 n = 1 -> 0 < r -> vecAt vec h = mul2 (fromAngle t) r -> backV vec n h = turned n (- t) (flat (D h) n).
Proof. intros U R E. unfold backV. rewrite rotate_turned by auto. rewrite E. destruct (arg_ok t r R) as [C S]. apply turned_trig; rewrite ?cos_neg, ?sin_neg; congruence. Qed.
Lemma vertexBasis_ok vn vec : length (dat vn) = Z.to_nat (vCap m) -> length (dat vec) = Z.to_nat (heCap m) ->
  exists d, vertexTangentBasis m pos vn vec = Ok d /\ forall v l, liveV m v -> leaving m v l -> frameAt d v = frameOf (pt vn v) (Vsum (backV vec (pt vn v)) l).
Proof.
  intros LN LV. unfold vertexTangentBasis. match goal with |- context [forEach _ _ ?b] => destruct (fill_all (mk3 0 0 0, mk3 0 0 0) m EVertex b (fun v => frameOf (pt vn v) (Vsum (backV vec (pt vn v)) (leavingAt m v))) EVertex (mk3 0 0 0, mk3 0 0 0) V) as (d & E & LD & V1 & V2) end.
  - intros e K. apply (v_cap m V); auto.
  - intros d v _ K. cbn [liveE] in K. rewrite (dataAt_in (mk3 0 0 0)) by (rewrite LN; apply (v_cap m V); auto). cbn [bind]. change (at_ (mk3 0 0 0) vn v) with (pt vn v). destruct (vertHalfedges_ok m V v K) as (hs & E & _ & _ & Nh & I). rewrite E. cbn [bind].
    rewrite (foldM_vsum (backV vec (pt vn v))).
    + cbn [bind]. rewrite add3_0. do 2 f_equal. destruct (leavingAt_ok m V v) as [N2 I2]. apply Vsum_set; auto. intros a. rewrite I, I2. tauto.
    + intros s h Hh. apply I in Hh as [Kh _]. rewrite backToX_any by auto. reflexivity.
  - exists d. split; auto. intros v l K O. unfold frameAt. rewrite V1 by auto. rewrite (leaving_vsum m V _ v l O). reflexivity.
Qed.
Context (TR : triangular m) (len : mdata R) (LL : length (dat len) = Z.to_nat (eCap m)) (HL : forall h, liveH m h -> lh len h = norm3d (D h)).
Let MT : Metric m len := metric m V TR pos EB len LL HL.
Local Notation angH := (angH m len).
(** crossing a corner in a plane: the next edge is the edge turned by the angle *)
Lemma corner_turn h : intH h -> let u := D h in let w := D (ccw m h) in mul3 w (/ norm3d w) = turned (N h) (angH h) (mul3 u (/ norm3d u)).
Proof.
  intros K u w. pose proof (intH_nx m V h K) as K1. pose proof (intH_nx m V _ K1) as K2. assert (W : w = sub3 (mk3 0 0 0) (D (nx m (nx m h)))) by (unfold w, ccw; apply (along_tw m pos)).
  pose proof (N_unit m pos EB h K) as NU. destruct (N_orth m pos h K) as [O0 O1].
  pose proof (faceSum m V TR pos h K) as SD. assert (W' : w = add3 u (D (nx m h))) by (rewrite W; unfold u; apply V3_eq; [pose proof (f_equal qx SD) as Q|pose proof (f_equal qy SD) as Q|pose proof (f_equal qz SD) as Q]; unfold add3, sub3 in *; cbn [qx qy qz] in *; lra).
  assert (Ru : 0 < norm3d u) by (apply norm_pos, (along_ne m V pos EB); apply K). assert (Rw : 0 < norm3d w) by (apply norm_pos, (along_ne m V pos EB); apply (ccw_live m V TR h K)).
  pose proof (angH_is m V TR len MT h K) as AI. pose proof (corner_dot m pos V TR len h (angH h) K HL AI) as DT. pose proof (angH_pos m V TR len MT h K) as [A1 A2].
  assert (NW : norm3d (D (nx m (nx m h))) = norm3d w) by (rewrite W; symmetry; apply norm_neg). rewrite NW in DT.
  assert (DW : dot3 u w = norm3d u * norm3d w * cos (angH h)) by (transitivity (- dot3 (D h) (D (nx m (nx m h)))); [rewrite W; unfold u, dot3, sub3; cbn [qx qy qz]; ring|unfold u; rewrite DT; ring]).
  assert (CW : cross3 u w = mul3 (N h) (norm3d (cross3 u w))). { assert (E : cross3 u w = cross3 (D h) (D (nx m h))) by (rewrite W'; unfold u; apply V3_eq; unfold cross3, add3; cbn [qx qy qz]; ring). rewrite E. symmetry. apply unit_scale, (eb_area _ _ EB); apply K. }
  assert (CS : norm3d (cross3 u w) = norm3d u * norm3d w * sin (angH h)).
  { apply Rsqr_inj; [apply norm_nonneg|apply Rmult_le_pos; [apply Rmult_le_pos; lra|]; apply sin_ge_0; lra|]. unfold Rsqr. rewrite norm_sq, lagrange. rewrite <- !norm_sq, DW. pose proof (sin2_cos2 (angH h)) as T. unfold Rsqr in T. replace (sin (angH h)) with (sin (angH h)) by auto. transitivity (norm3d u * norm3d w * (norm3d u * norm3d w) * (1 - cos (angH h) * cos (angH h))); [ring|]. replace (1 - cos (angH h) * cos (angH h)) with (sin (angH h) * sin (angH h)) by lra. ring. }
  set (n := N h) in *. set (x := mul3 u (/ norm3d u)).
  assert (XU : norm2_3 x = 1) by (unfold x; transitivity (norm2_3 u * / (norm3d u * norm3d u)); [unfold norm2_3, mul3; cbn [qx qy qz]; field; lra|rewrite norm_sq; apply Rinv_r; rewrite <- norm_sq; nra]).
  assert (O0' : dot3 n u = 0) by (clear - O0; unfold u, dot3 in *; lra). assert (OX : dot3 n x = 0) by (unfold x; transitivity (dot3 n u * / norm3d u); [unfold dot3, mul3; cbn [qx qy qz]; ring|rewrite O0'; ring]).
  assert (OW : dot3 n w = 0) by (rewrite W'; clear - O0' O1; unfold dot3, add3 in *; cbn [qx qy qz]; lra).
  rewrite (in_plane n x w NU XU OX OW) at 1. unfold turned.
  assert (E1 : dot3 x w = norm3d w * cos (angH h)) by (unfold x; transitivity (dot3 u w * / norm3d u); [unfold dot3, mul3; cbn [qx qy qz]; ring|rewrite DW; field; lra]).
  assert (E2 : dot3 (cross3 n x) w = norm3d w * sin (angH h)). { unfold x. transitivity (dot3 n (cross3 u w) * / norm3d u); [unfold dot3, cross3, mul3; cbn [qx qy qz]; ring|]. rewrite CW, CS. transitivity (norm2_3 n * (norm3d u * norm3d w * sin (angH h)) * / norm3d u); [unfold dot3, norm2_3, mul3; cbn [qx qy qz]; ring|]. rewrite NU. field. lra. }
  rewrite E1, E2. apply V3_eq; unfold add3, mul3; cbn [qx qy qz]; field; lra.
Qed.
Context (scaled : mdata R).
Local Notation th := (theta m scaled).
(** a vertex around which nothing is bent *)
Section Flat.
Context (v : Z) (Kv : liveV m v) (n : V3) (HN : forall h, intH h -> ve m h = v -> N h = n) (HS : forall h, intH h -> ve m h = v -> valAt scaled h = angH h).
Let e0 := mul3 (D (vh m v)) (/ norm3d (D (vh m v))).
Lemma flat_start : intH (vh m v).
Proof.
  destruct (cn_vh _ CN v Kv) as [Lh E]. split; auto. intros X.
  assert (OB : onBoundary m v) by (exists (vh m v); auto). assert (BB : bdb m v = true) by (apply (bdb_spec m V); auto). unfold bdb in BB. apply (extb_spec m) in BB. destruct (int_or m V (vh m v) Lh) as [[_ Q]|[_ Q]]; auto.
Qed.
Lemma flat_dirs h : liveH m h -> ve m h = v -> mul3 (D h) (/ norm3d (D h)) = turned n (th h) e0 /\ dot3 n (D h) = 0.
Proof.
  destruct (around_ok m V v Kv) as (t & EA & R & ND & B & LA & LB). pose proof flat_start as K0. destruct (cn_vh _ CN v Kv) as [Lh Ev].
  assert (TH : forall h, In h (vh m v :: t) -> before scaled h (vh m v :: t) = th h) by (intros x Hx; apply R in Hx as [_ Q]; unfold theta; rewrite Q, EA; reflexivity).
  assert (ST : steps scaled th (vh m v) t) by (apply (steps_ext scaled (fun h => before scaled h (vh m v :: t))); auto; apply (steps_before scaled _ ND []); reflexivity).
  assert (NU : norm2_3 n = 1) by (rewrite <- (HN _ K0 Ev); apply (N_unit m pos EB); auto).
  assert (E0 : dot3 n (D (vh m v)) = 0) by (rewrite <- (HN _ K0 Ev); pose proof (proj1 (N_orth m pos _ K0)) as O; clear - O; unfold dot3 in *; lra).
  assert (O0 : dot3 n e0 = 0) by (unfold e0; transitivity (dot3 n (D (vh m v)) * / norm3d (D (vh m v))); [unfold dot3, mul3; cbn [qx qy qz]; ring|rewrite E0; ring]).
  assert (G : forall t x, back m x t -> steps scaled th x t -> (forall h, In h (x :: t) -> liveH m h /\ ve m h = v) -> ~ In (vh m v) t -> (mul3 (D x) (/ norm3d (D x)) = turned n (th x) e0 /\ dot3 n (D x) = 0) -> forall h, In h (x :: t) -> mul3 (D h) (/ norm3d (D h)) = turned n (th h) e0 /\ dot3 n (D h) = 0).
  { clear - HN HS O0 NU V TR pos EB LL HL CN MT. induction t as [|y t IH]; intros x B ST A NI Hx h Hh; [destruct Hh as [<-|[]]; auto|]. destruct Hh as [<-|Hh]; auto. cbn in B, ST. destruct B as [B1 B2], ST as [S1 S2]. destruct (A x (or_introl eq_refl)) as [Lx Vx]. destruct (A y (or_intror (or_introl eq_refl))) as [Ly Vy].
    assert (Kx : intH x). { split; auto. intros X. apply NI. left. rewrite <- Vy. symmetry. apply (ext_last m V x y); auto. }
    assert (Ey : y = ccw m x). { destruct (ccw_live m V TR x Kx) as [Lc _]. apply (ro_inj m V); auto. rewrite (ro_ccw m V TR) by auto. auto. }
    apply (IH y); auto; [intros z Hz; apply A; right; auto|intros Q; apply NI; right; auto|]. pose proof (corner_turn x Kx) as CT. cbv zeta in CT. rewrite <- Ey in CT. rewrite (HN x Kx Vx) in CT. destruct Hx as [H1 H2]. rewrite H1 in CT. rewrite turned_twice in CT by auto. rewrite S1, (HS x Kx Vx). split; auto.
    assert (Ny : 0 < norm3d (D y)) by (apply norm_pos, (along_ne m V pos EB); auto). replace (D y) with (mul3 (mul3 (D y) (/ norm3d (D y))) (norm3d (D y))) by (apply V3_eq; unfold mul3; cbn [qx qy qz]; field; lra). rewrite CT. pose proof (turned_orth n (th x + angH x) e0 O0) as TO. clear - TO. unfold dot3, mul3 in *. cbn [qx qy qz]. set (s := norm3d (D y)). transitivity ((qx n * qx (turned n (th x + angH x) e0) + qy n * qy (turned n (th x + angH x) e0) + qz n * qz (turned n (th x + angH x) e0)) * s); [ring|rewrite TO; ring]. }
  intros Lx Vx. apply (G t (vh m v)); auto; [intros x Hx; apply R in Hx; auto|inversion ND; auto| |apply R; auto].
  split; auto. replace (th (vh m v)) with 0; [rewrite turned_0; reflexivity|]. rewrite <- TH by (left; auto). cbn. rewrite Z.eqb_refl. reflexivity.
Qed.
Lemma flat_lift vec l h : (forall h, liveH m h -> vecAt vec h = vecV m len scaled h) -> leaving m v l -> liveH m h -> ve m h = v ->
  D h = lift (frameOf n (Vsum (backV vec n) l)) (vecAt vec h).
Proof.
  intros HV O K E. destruct (cn_vh _ CN v Kv) as [Lh Ev]. assert (NU : norm2_3 n = 1) by (rewrite <- (HN _ flat_start Ev); apply (N_unit m pos EB), flat_start).
  assert (R0 : 0 < norm3d (D (vh m v))) by (apply norm_pos, (along_ne m V pos EB); auto).
  assert (U0 : norm2_3 e0 = 1) by (unfold e0; transitivity (norm2_3 (D (vh m v)) * / (norm3d (D (vh m v)) * norm3d (D (vh m v)))); [unfold norm2_3, mul3; cbn [qx qy qz]; field; lra|rewrite norm_sq; apply Rinv_r; rewrite <- norm_sq; nra]).
  assert (O0 : dot3 n e0 = 0). { destruct (flat_dirs (vh m v) Lh Ev) as [_ Q]. unfold e0. transitivity (dot3 n (D (vh m v)) * / norm3d (D (vh m v))); [unfold dot3, mul3; cbn [qx qy qz]; ring|rewrite Q; ring]. }
  assert (SM : Vsum (backV vec n) l = mul3 e0 (Rsum (fun h => norm3d (D h)) l)).
  { rewrite <- Vsum_mul. apply Vsum_ext. intros x Hx. apply O in Hx as [Kx Vx]. assert (Rx : 0 < norm3d (D x)) by (apply norm_pos, (along_ne m V pos EB); auto). rewrite (backV_turned vec n x (th x) (lh len x)); auto; [|rewrite HL by auto; auto|rewrite HV by auto; reflexivity].
    destruct (flat_dirs x Kx Vx) as [Q1 Q2]. rewrite flat_id by (clear - Q2; unfold dot3 in *; lra). replace (D x) with (mul3 (mul3 (D x) (/ norm3d (D x))) (norm3d (D x))) at 1 by (apply V3_eq; unfold mul3; cbn [qx qy qz]; field; lra). rewrite Q1, turned_mul, turned_twice by auto. replace (th x + - th x) with 0 by ring. rewrite turned_0. reflexivity. }
  assert (PS : 0 < Rsum (fun h => norm3d (D h)) l). { apply Rsum_pos; [intros Q; subst l; destruct (proj2 (proj2 O (vh m v)) (conj Lh Ev))|]. intros x Hx. apply O in Hx as [Kx Vx]. apply norm_pos, (along_ne m V pos EB); auto. }
  rewrite SM. unfold frameOf. rewrite normalize_scaled by auto. cbv zeta. rewrite HV by auto. unfold vecV, lift, fromAngle, mul2. cbn [fst snd px py]. rewrite HL by auto. destruct (flat_dirs h K E) as [Q _]. assert (Rh : 0 < norm3d (D h)) by (apply norm_pos, (along_ne m V pos EB); auto).
  replace (D h) with (mul3 (mul3 (D h) (/ norm3d (D h))) (norm3d (D h))) at 1 by (apply V3_eq; unfold mul3; cbn [qx qy qz]; field; lra). rewrite Q. unfold turned. apply V3_eq; unfold add3, mul3; cbn [qx qy qz]; ring.
Qed.
End Flat.
End M.
