From Coq Require Import Reals Lra Permutation.
From Verif Require Import Base DataModel DataSpec DataProofs MeshModel MeshSpec MeshBase MeshExec MeshOrbit MeshOpSpec MeshFlip MeshThms MeshSplit MeshHistorySpec MeshHistory MeshDataModel CollapseProofs CountSpec
  MatrixModel MatrixSpec MatrixProofs GeoModel IntrinsicModel IntrinsicSpec TangentSpec Intrinsic1 Intrinsic2 Intrinsic3 Intrinsic4 Intrinsic5 Intrinsic6 Intrinsic7 Intrinsic8 Intrinsic9 Intrinsic11 Intrinsic12
  EmbeddedModel EmbeddedSpec Embedded1 Embedded2 Embedded3 Embedded4 FrameModel FrameSpec Frame1.
Open Scope R_scope.
Section M.
Context (m : mesh) (V : Valid m) (TR : triangular m) (pos : mdata V3) (EB : Embedded m pos).
Let CN := va_cn m V.
Local Notation intH := (intH m).
Local Notation P := (pt pos).
Local Notation D := (along m pos).
Local Notation N := (N m pos).
Lemma backToX_ok vec h n t r : length (dat vec) = Z.to_nat (heCap m) -> liveH m h -> norm2_3 n = 1 -> 0 < r -> at_ (mk2 0 0) vec h = mul2 (fromAngle t) r -> backToX m pos vec n h = Ok (turned n (- t) (flat (D h) n)).
Proof.
  intros LV K U R E. unfold backToX. rewrite next_live by auto. cbn [bind]. rewrite (posOf_ok m V pos EB) by (apply (cn_nx _ CN); auto). cbn [bind]. rewrite (posOf_ok m V pos EB) by auto. cbn [bind]. rewrite (dataAt_in (mk2 0 0)) by (rewrite LV; apply (he_cap m V); auto). cbn [bind]. f_equal.
  rewrite rotate_turned by auto. rewrite <- (along_nx m V pos) by auto. rewrite E. destruct (arg_ok t r R) as [C S]. apply turned_trig; rewrite ?cos_neg, ?sin_neg; congruence.
Qed.
Context (len : mdata R) (LL : length (dat len) = Z.to_nat (eCap m)) (HL : forall h, liveH m h -> lh len h = norm3d (D h)).
Let MT : Metric m len := metric m V TR pos EB len LL HL.
Lemma vecF_first f : liveF m f -> vecF m len (fh m f) = mk2 (lh len (fh m f)) 0.
Proof. intros Lf. destruct (fh_int m V f Lf) as [K0 F0]. unfold vecF. rewrite F0. unfold layoutFace. cbv zeta. rewrite Z.eqb_refl. reflexivity. Qed.
Definition frameF (f : Z) : V3 * V3 := frameOf (N (fh m f)) (D (fh m f)).
Lemma frameF_right f : liveF m f -> rightHanded (frameF f) (N (fh m f)).
Proof.
  intros Lf. destruct (fh_int m V f Lf) as [K0 F0]. apply frame_ok; [apply (N_unit m pos EB); auto| |apply (along_ne m V pos EB); apply K0]. pose proof (proj1 (N_orth m pos _ K0)) as O. unfold dot3 in *. lra.
Qed.
Lemma lift_add fr a b : lift fr (add2 a b) = add3 (lift fr a) (lift fr b).
Proof. unfold lift. apply V3_eq; unfold add3, mul3, add2; cbn [qx qy qz px py]; ring. Qed.
Lemma faceSum h : intH h -> add3 (add3 (D h) (D (nx m h))) (D (nx m (nx m h))) = mk3 0 0 0.
Proof. intros K. destruct (around3 m V TR h K) as (A & B & C). unfold along. rewrite <- A, <- B, <- C. apply V3_eq; unfold add3, sub3; cbn [qx qy qz]; ring. Qed.
Lemma frameF_lift f h : liveF m f -> In h (ring3 m (fh m f)) -> D h = lift (frameF f) (vecF m len h).
Proof.
  intros Lf I. destruct (fh_int m V f Lf) as [K0 F0]. set (h0 := fh m f) in *. pose proof (intH_nx m V _ K0) as K1. pose proof (intH_nx m V _ K1) as K2. assert (L0 : 0 < norm3d (D h0)) by (apply norm_pos, (along_ne m V pos EB); apply K0).
  destruct (vecF_spec m V TR len MT h0 K0) as (_ & S & C). destruct (vecF_spec m V TR len MT _ K1) as (N1 & _). destruct (vecF_spec m V TR len MT _ K2) as (N2 & _). rewrite !HL in N1, N2 by (apply K1 || apply K2). rewrite !norm_sq in N1, N2. rewrite <- (area_cross m V TR pos EB len LL HL h0 K0) in C.
  pose proof (vecF_first f Lf) as E0. fold h0 in E0. rewrite (HL h0) in E0 by apply K0. pose proof (faceSum h0 K0) as SD. pose proof (N_unit m pos EB h0 K0) as NU. destruct (N_orth m pos h0 K0) as [O0 O1].
  assert (X : normalize3 (D h0) = mul3 (D h0) (/ norm3d (D h0))). { unfold normalize3. cbv zeta. fold (norm2_3 (D h0)). change (sqrt (norm2_3 (D h0))) with (norm3d (D h0)). unfold Rdiv. rewrite Rmult_1_l. reflexivity. }
  assert (A0 : D h0 = lift (frameF f) (vecF m len h0)). { rewrite E0. unfold lift, frameF, frameOf. fold h0. cbv zeta. cbn [fst snd px py]. rewrite X. apply V3_eq; unfold add3, mul3; cbn [qx qy qz]; field; lra. }
  assert (A1 : D (nx m h0) = lift (frameF f) (vecF m len (nx m h0))).
  { set (u := D (nx m h0)) in *. set (v1 := vecF m len (nx m h0)) in *. set (d0 := D h0) in *. set (n := N h0) in *. set (r := norm3d d0) in *.
    assert (XU : norm2_3 (normalize3 d0) = 1) by (apply unit_norm, (along_ne m V pos EB); apply K0).
    assert (PX : px v1 = dot3 (normalize3 d0) u).
    { assert (Q : r * px v1 = dot3 d0 u). { assert (W : vecF m len (nx m (nx m h0)) = mk2 (- (r + px v1)) (- py v1)) by (rewrite E0 in S; apply V2_eq; [pose proof (f_equal px S) as Q|pose proof (f_equal py S) as Q]; unfold add2 in Q; cbn [px py] in *; lra).
        assert (W' : D (nx m (nx m h0)) = sub3 (sub3 (mk3 0 0 0) d0) u) by (apply V3_eq; [pose proof (f_equal qx SD) as Q|pose proof (f_equal qy SD) as Q|pose proof (f_equal qz SD) as Q]; unfold add3, sub3 in *; cbn [qx qy qz] in *; lra).
        rewrite W, W' in N2. assert (RR : r * r = norm2_3 d0) by apply norm_sq. unfold norm2_2, norm2_3, dot3, sub3 in *. cbn [px py qx qy qz] in *. lra. }
      rewrite X. replace (dot3 (mul3 d0 (/ r)) u) with (dot3 d0 u * / r) by (unfold dot3, mul3; cbn [qx qy qz]; ring). rewrite <- Q. field. lra. }
    assert (PY : py v1 = dot3 (cross3 n (normalize3 d0)) u).
    { assert (Q : r * py v1 = norm3d (cross3 d0 u)) by (rewrite E0 in C; unfold cross2 in C; cbn [px py] in C; lra).
      rewrite X. replace (dot3 (cross3 n (mul3 d0 (/ r))) u) with (dot3 n (cross3 d0 u) * / r) by (unfold dot3, mul3, cross3; cbn [qx qy qz]; ring).
      assert (CN0 : cross3 d0 u = mul3 n (norm3d (cross3 d0 u))) by (symmetry; apply unit_scale, (eb_area _ _ EB); apply K0). rewrite CN0. replace (dot3 n (mul3 n (norm3d (cross3 d0 u)))) with (norm2_3 n * norm3d (cross3 d0 u)) by (unfold dot3, norm2_3, mul3; cbn [qx qy qz]; ring). rewrite NU, <- Q. field. lra. }
    unfold lift, frameF, frameOf. cbv zeta. cbn [fst snd]. fold h0 d0 n. rewrite PX, PY. assert (O0' : dot3 n d0 = 0) by (clear - O0; unfold dot3 in *; lra). assert (O1' : dot3 n u = 0) by (clear - O1; unfold dot3 in *; lra). apply in_plane; auto. exact (proj1 (dot_unit n d0 O0')). }
  destruct I as [<-|[<-|[<-|[]]]]; auto.
  assert (W : vecF m len (nx m (nx m h0)) = mk2 (- (px (vecF m len h0) + px (vecF m len (nx m h0)))) (- (py (vecF m len h0) + py (vecF m len (nx m h0))))) by (apply V2_eq; [pose proof (f_equal px S) as Q|pose proof (f_equal py S) as Q]; unfold add2 in Q; cbn [px py] in *; lra).
  rewrite W. apply V3_eq; [pose proof (f_equal qx SD) as Q; pose proof (f_equal qx A0) as Q0; pose proof (f_equal qx A1) as Q1|pose proof (f_equal qy SD) as Q; pose proof (f_equal qy A0) as Q0; pose proof (f_equal qy A1) as Q1|pose proof (f_equal qz SD) as Q; pose proof (f_equal qz A0) as Q0; pose proof (f_equal qz A1) as Q1]; unfold lift, add3, mul3 in *; cbn [qx qy qz px py] in *; lra.
Qed.
Lemma isTri_ok f : liveF m f -> isTriangle m f = Ok true.
Proof.
  intros Lf. destruct (fh_int m V f Lf) as [K0 F0]. pose proof (intH_nx m V _ K0) as K1. pose proof (intH_nx m V _ K1) as K2. unfold isTriangle. rewrite (fHe_live m V) by auto. cbn [bind]. rewrite next_live by (auto; apply K0). cbn [bind]. rewrite next_live by (auto; apply K1). cbn [bind]. rewrite next_live by (auto; apply K2). cbn [bind].
  destruct (three m V TR _ K0) as (-> & _). rewrite Z.eqb_refl. reflexivity.
Qed.
Lemma faceBasis_ok normals vec : length (dat normals) = Z.to_nat (fCap m - bFill m) -> (forall f, liveF m f -> pt normals f = N (fh m f)) -> length (dat vec) = Z.to_nat (heCap m) -> (forall h, intH h -> at_ (mk2 0 0) vec h = vecF m len h) ->
  exists d, faceTangentBasis m pos normals vec = Ok d /\ forall f, liveF m f -> frameAt d f = frameF f.
Proof.
  intros LN HN LV HV. unfold faceTangentBasis. match goal with |- context [forEach _ _ ?b] => destruct (fill_all (mk3 0 0 0, mk3 0 0 0) m EFace b frameF EFace (mk3 0 0 0, mk3 0 0 0) V) as (d & E & LD & V1 & V2) end.
  - intros e K. apply (f_cap m V); auto.
  - intros d f _ Lf. cbn [liveE] in Lf. destruct (fh_int m V f Lf) as [K0 F0]. rewrite (dataAt_in (mk3 0 0 0)) by (rewrite LN; apply (f_cap m V); auto). cbn [bind]. change (at_ (mk3 0 0 0) normals f) with (pt normals f). rewrite HN by auto. rewrite isTri_ok by auto. cbn [bind]. rewrite (ring3_face m V TR) by auto. cbn [bind]. unfold ring3. cbn [frame_loop].
    assert (L0 : 0 < lh len (fh m f)) by (apply MT; apply K0). pose proof (N_unit m pos EB _ K0) as NU. pose proof (N_orth m pos _ K0) as [O0 _].
    rewrite (backToX_ok vec (fh m f) (N (fh m f)) 0 (lh len (fh m f))); auto; [|apply K0|rewrite HV by auto; rewrite vecF_first by auto; unfold fromAngle; rewrite cos_0, sin_0; apply V2_eq; cbn; ring].
    cbn [bind]. rewrite Ropp_0, turned_0, flat_id by auto. rewrite add3_0. reflexivity.
  - exists d. split; auto.
Qed.
End M.
