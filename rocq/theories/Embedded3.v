From Coq Require Import Reals Lra Permutation.
From Verif Require Import Base DataModel DataSpec DataProofs MeshModel MeshSpec MeshBase MeshExec MeshOrbit MeshOpSpec MeshFlip MeshThms MeshSplit MeshHistorySpec MeshHistory MeshDataModel CollapseProofs CountSpec
  MatrixModel MatrixSpec MatrixProofs GeoModel IntrinsicModel IntrinsicSpec Intrinsic1 Intrinsic2 Intrinsic3 Intrinsic4 Intrinsic5 Intrinsic6 Intrinsic7 Intrinsic8 Intrinsic9 Intrinsic11 EmbeddedModel EmbeddedSpec Embedded1 Embedded2.
Open Scope R_scope.
Lemma Vsum_cons {A} (f : A -> V3) a l : Vsum f (a :: l) = add3 (f a) (Vsum f l).
Proof. unfold Vsum. rewrite !Rsum_cons. reflexivity. Qed.
Lemma add3_assoc a b c : add3 (add3 a b) c = add3 a (add3 b c). Proof. apply V3_eq; cbn; ring. Qed.
Lemma add3_0 a : add3 (mk3 0 0 0) a = a. Proof. apply V3_eq; cbn; ring. Qed.
Lemma add3_0r a : add3 a (mk3 0 0 0) = a. Proof. apply V3_eq; cbn; ring. Qed.
Lemma foldM_vsum {A} (f : A -> V3) (body : V3 -> A -> res V3) l : (forall s a, In a l -> body s a = Ok (add3 s (f a))) -> forall s, foldM body l s = Ok (add3 s (Vsum f l)).
Proof.
  induction l as [|a t IH]; intros H s; cbn [foldM]; [unfold Vsum; cbn; rewrite add3_0r; auto|]. rewrite H by (left; auto). cbn [bind]. rewrite IH by (intros; apply H; right; auto). rewrite Vsum_cons, add3_assoc. reflexivity.
Qed.
Lemma Vsum_set {A} (f : A -> V3) l l' : NoDup l -> NoDup l' -> (forall a, In a l <-> In a l') -> Vsum f l = Vsum f l'.
Proof. intros N N' I. unfold Vsum. f_equal; apply Rsum_set; auto. Qed.
Lemma Vsum_ext {A} (f g : A -> V3) l : (forall a, In a l -> f a = g a) -> Vsum f l = Vsum g l.
Proof. intros H. unfold Vsum. f_equal; apply Rsum_ext; intros a Ha; rewrite H; auto. Qed.
(** adding vectors at the places of a list of pairs *)
Lemma scatter3 n (l : list (Z * V3)) : forall d, length (dat d) = n -> (forall p, In p l -> (0 <= fst p < Z.of_nat n)%Z) ->
  exists d', foldM (fun d p => add3At d (fst p) (snd p)) l d = Ok d' /\ length (dat d') = n /\ forall i, (0 <= i)%Z -> at_ (mk3 0 0 0) d' i = add3 (at_ (mk3 0 0 0) d i) (Vsum (fun p => if (fst p =? i)%Z then snd p else mk3 0 0 0) l).
Proof.
  induction l as [|p t IH]; intros d Ld B; [exists d; cbn [foldM]; split; auto; split; auto; intros i _; unfold Vsum; cbn; rewrite add3_0r; auto|].
  cbn [foldM]. unfold add3At at 1. rewrite (dataAt_in (mk3 0 0 0)) by (rewrite Ld; apply B; left; auto). cbn [bind].
  destruct (setAt_in (mk3 0 0 0) d (fst p) (add3 (at_ (mk3 0 0 0) d (fst p)) (snd p))) as (d1 & S1 & L1 & V1); [rewrite Ld; apply B; left; auto|]. rewrite S1. cbn [bind].
  destruct (IH d1 (eq_trans L1 Ld) (fun q K => B q (or_intror K))) as (d2 & S2 & L2 & V2). exists d2. split; [exact S2|]. split; auto. intros i Hi. rewrite V2, V1, Vsum_cons by auto.
  rewrite ?(Z.eqb_sym i (fst p)). destruct (Z.eqb_spec (fst p) i) as [<-|N]; [rewrite add3_assoc; auto|]. rewrite add3_0. reflexivity.
Qed.
Lemma dihedral_sym n1 n2 a b : dihedral n2 n1 b a = dihedral n1 n2 a b.
Proof.
  unfold dihedral. f_equal; [|unfold dot3; ring].
  assert (E : normalize3 (sub3 a b) = sub3 (mk3 0 0 0) (normalize3 (sub3 b a))).
  { unfold normalize3. replace (sqrt (qx (sub3 a b) * qx (sub3 a b) + qy (sub3 a b) * qy (sub3 a b) + qz (sub3 a b) * qz (sub3 a b))) with (sqrt (qx (sub3 b a) * qx (sub3 b a) + qy (sub3 b a) * qy (sub3 b a) + qz (sub3 b a) * qz (sub3 b a))) by (f_equal; unfold sub3; cbn [qx qy qz]; ring). apply V3_eq; unfold mul3, sub3; cbn [qx qy qz]; ring. }
  rewrite E. unfold dot3, cross3, sub3. cbn [qx qy qz]. ring.
Qed.
Lemma cross_orth u v : dot3 u (cross3 u v) = 0 /\ dot3 v (cross3 u v) = 0.
Proof. split; unfold dot3, cross3; cbn [qx qy qz]; ring. Qed.
Lemma dot_unit u v : dot3 u v = 0 -> dot3 u (normalize3 v) = 0 /\ dot3 (normalize3 u) v = 0.
Proof.
  intros E. unfold normalize3. set (r := 1 / sqrt (qx v * qx v + qy v * qy v + qz v * qz v)). set (q := 1 / sqrt (qx u * qx u + qy u * qy u + qz u * qz u)). split; [replace (dot3 u (mul3 v r)) with (r * dot3 u v)|replace (dot3 (mul3 u q) v) with (q * dot3 u v)]; try (rewrite E; ring); unfold dot3, mul3; cbn [qx qy qz]; ring.
Qed.
Section M.
Context (m : mesh) (V : Valid m) (TR : triangular m) (pos : mdata V3) (EB : Embedded m pos).
Let CN := va_cn m V.
Local Notation intH := (intH m).
Local Notation P := (pt pos).
Local Notation D := (along m pos).
Definition N (h : Z) : V3 := normalize3 (cross3 (D h) (D (nx m h))).
Lemma cross_rot h : intH h -> cross3 (D (nx m h)) (D (nx m (nx m h))) = cross3 (D h) (D (nx m h)).
Proof. intros K. destruct (around3 m V TR h K) as (A & B & C). unfold along. rewrite <- A, <- B, <- C. apply V3_eq; cbn; ring. Qed.
Lemma N_rot h : intH h -> N (nx m h) = N h. Proof. intros K. unfold N. rewrite cross_rot by auto. reflexivity. Qed.
Lemma N_face h : intH h -> N (fh m (fa m h)) = N h.
Proof.
  intros K. pose proof (fa_liveF m V h K) as Lf. destruct (fh_int m V _ Lf) as [K0 F]. assert (I : In h (ring3 m (fh m (fa m h)))) by (apply (ring3_ok m V TR); auto). pose proof (intH_nx m V _ K0) as K1.
  destruct I as [E|[E|[E|[]]]]; rewrite <- E at 2; rewrite ?N_rot; auto.
Qed.
Lemma N_unit h : intH h -> norm2_3 (N h) = 1. Proof. intros K. apply unit_norm. apply (eb_area _ _ EB); apply K. Qed.
Lemma N_orth h : intH h -> dot3 (D h) (N h) = 0 /\ dot3 (D (nx m h)) (N h) = 0.
Proof. intros K. destruct (cross_orth (D h) (D (nx m h))) as [A B]. split; apply dot_unit; auto. Qed.
Lemma faceNormal_ok f : liveF m f -> faceNormal m pos f = Ok (N (fh m f)).
Proof.
  intros K. destruct (fh_int m V f K) as [K0 F]. unfold faceNormal. rewrite (ring3_face m V TR) by auto. cbn [bind]. unfold ring3. cbn [normal_loop]. rewrite (triPoints_ok m V TR pos EB) by auto. cbn [bind]. rewrite Z.eqb_refl. cbn [bind]. unfold N. do 2 f_equal. rewrite add3_0. rewrite <- (cross_side m V TR pos) by auto. rewrite (along_nx m V pos _ (proj1 K0)). reflexivity.
Qed.
Lemma faceNormals_ok : exists d, faceNormals m pos = Ok d /\ length (dat d) = Z.to_nat (fCap m - bFill m) /\ (forall f, liveF m f -> pt d f = N (fh m f)) /\ forall h, intH h -> pt d (fa m h) = N h.
Proof.
  unfold faceNormals. match goal with |- context [forEach _ _ ?b] => destruct (fill_all (mk3 0 0 0) m EFace b (fun f => N (fh m f)) EFace (mk3 0 0 0) V) as (d & E & LD & V1 & V2) end.
  - intros e K. apply (f_cap m V); auto.
  - intros d f _ K. rewrite faceNormal_ok by auto. reflexivity.
  - exists d. split; auto. split; auto. split; auto. intros h K. unfold pt. rewrite V1 by (apply fa_liveF; auto). apply N_face; auto.
Qed.
Lemma vertexNormals_ok normals ang : length (dat normals) = Z.to_nat (fCap m - bFill m) -> length (dat ang) = Z.to_nat (heCap m) ->
  exists d, vertexNormals m normals ang = Ok d /\ length (dat d) = Z.to_nat (vCap m) /\ forall v l, liveV m v -> cornersOf m v l -> pt d v = normalize3 (Vsum (fun c => mul3 (pt normals (fa m c)) (valAt ang c)) l).
Proof.
  intros LN LA. unfold vertexNormals. match goal with |- context [forEach _ _ ?b] => destruct (fill_all (mk3 0 0 0) m EVertex b (fun v => normalize3 (Vsum (fun c => mul3 (pt normals (fa m c)) (valAt ang c)) (cornersAt m v))) EVertex (mk3 0 0 0) V) as (d & E & LD & V1 & V2) end.
  - intros e K. apply (v_cap m V); auto.
  - intros d v _ K. destruct (corners_circulated m V v K) as (hs & hs' & E1 & E2 & C). rewrite E1. cbn [bind]. rewrite E2. cbn [bind].
    rewrite (foldM_vsum (fun c => mul3 (pt normals (fa m c)) (valAt ang c))).
    + cbn [bind]. rewrite add3_0. do 2 f_equal. destruct (cornersAt_ok m V v) as [N2 I2], C as [N1 I1]. apply Vsum_set; auto. intros a. rewrite I1, I2. tauto.
    + intros s c Hc. apply C in Hc as (A & B & _). assert (Kc : intH c) by (split; auto). rewrite (faceOf_int m V) by auto. cbn [bind]. rewrite (dataAt_in (mk3 0 0 0)) by (rewrite LN; apply (f_cap m V); apply fa_liveF; auto). cbn [bind]. rewrite (dataAt_in 0) by (rewrite LA; apply (he_cap m V); auto). reflexivity.
  - exists d. split; auto. split; auto. intros v l K C. unfold pt at 1. rewrite V1 by auto. f_equal. destruct (cornersAt_ok m V v) as [N2 I2], C as [N1 I1]. apply Vsum_set; auto. intros a. rewrite I1, I2. tauto.
Qed.
(** mean curvature normals *)
Definition hn (w : mdata R) (h : Z) : V3 := div3 (mul3 (sub3 (P (ve m h)) (P (ve m (tw h)))) (valAt w (edge h))) 2.
Definition leavingAt (v : Z) : list Z := filter (fun h => (ve m h =? v)%Z) (zl m EHalfedge).
Lemma leavingAt_ok v : leaving m v (leavingAt v).
Proof. split; [apply filter_NoDup, zl_NoDup; auto|]. intros h. unfold leavingAt. rewrite filter_In, zl_In, Z.eqb_eq by auto. reflexivity. Qed.
Lemma hn_ok w : length (dat w) = Z.to_nat (eCap m) -> exists d, vertexDualMeanCurvatureNormals m pos w = Ok d /\ forall v, liveV m v -> pt d v = Vsum (hn w) (leavingAt v).
Proof.
  intros LW. destruct (els_ok m EEdge V) as (E & Nd & _ & I). destruct (newData_R m EVertex (mk3 0 0 0) (mk3 0 0 0)) as [NL NV]. unfold vertexDualMeanCurvatureNormals. rewrite E. cbn [bind]. rewrite forEach_map. fold (zl m EEdge).
  set (part := fun e => [(ve m (eHe e), hn w (eHe e)); (ve m (tw (eHe e)), hn w (tw (eHe e)))]).
  rewrite (foldM_nested (fun _ d p => add3At d (fst p) (snd p)) part).
  2: { intros d e He. apply zl_In in He; auto. destruct (zl_tail m V e He) as (K & T1 & T2 & LT1 & LT2). rewrite (dataAt_in 0) by (rewrite LW; apply (e_cap m V); auto). cbn [bind]. rewrite T1, T2. cbn [bind]. rewrite !(pos_ok m V pos EB) by auto. cbn [bind foldM part fst snd].
       unfold hn. rewrite !tw_edge, !edge_eHe, !tw_tw. unfold valAt. destruct (add3At d (ve m (eHe e)) _) as [d'| |]; cbn [bind]; auto. destruct (add3At d' _ _); reflexivity. }
  set (ps := flat_map _ _).
  destruct (scatter3 (Z.to_nat (vCap m)) (map snd ps) (newData m EVertex (mk3 0 0 0)) NL) as (d & F & Ld & Vd).
  - intros p Hp. apply in_map_iff in Hp as ([e q] & <- & Hp). apply in_flat_map in Hp as (e' & He & Hp). apply zl_In in He; auto. destruct (zl_tail m V e' He) as (K & T1 & T2 & LT1 & LT2). apply in_map_iff in Hp as (q' & Q & Hq). injection Q as <- <-. cbn [snd]. destruct Hq as [<-|[<-|[]]]; cbn [fst]; apply (v_cap m V); auto.
  - exists d. split.
    + rewrite <- F. clear. induction ps as [|p t IH] in |- *; [reflexivity|]. generalize (newData m EVertex (mk3 0 0 0)). revert IH. intros _. assert (G : forall l d, foldM (fun s (p : Z * (Z * V3)) => add3At s (fst (snd p)) (snd (snd p))) l d = foldM (fun d p => add3At d (fst p) (snd p)) (map snd l) d). { induction l as [|q l IH]; intros d'; cbn [foldM map]; auto. destruct (add3At d' _ _); cbn [bind]; auto. } intros d0. apply (G (p :: t)).
    + intros v Kv. unfold pt. rewrite Vd by (pose proof (v_cap m V v Kv) as B0; clear - B0; lia). assert (Z0 : at_ (mk3 0 0 0) (newData m EVertex (mk3 0 0 0)) v = mk3 0 0 0) by (unfold at_, newData, md_new; cbn [dat]; apply nth_repeat). rewrite Z0, add3_0.
      assert (G : forall q : V3 -> R, q (mk3 0 0 0) = 0 -> Rsum (fun p : Z * V3 => q (if (fst p =? v)%Z then snd p else mk3 0 0 0)) (map snd ps) = Rsum (fun h => q (hn w h)) (leavingAt v)).
      { intros q Q0. rewrite Rsum_map. unfold ps. rewrite Rsum_flat. unfold leavingAt. rewrite <- (Rsum_if (fun h => (ve m h =? v)%Z)), (sum_edges m V). apply Rsum_ext. intros e He. unfold part. rewrite !Rsum_cons, Rsum_nil. cbn [fst snd].
        destruct (ve m (eHe e) =? v)%Z, (ve m (tw (eHe e)) =? v)%Z; rewrite ?Q0; ring. }
      unfold Vsum. rewrite !G by reflexivity. reflexivity.
Qed.
Lemma hn_total w : Vsum (fun v => Vsum (hn w) (leavingAt v)) (zl m EVertex) = mk3 0 0 0.
Proof.
  assert (G : forall q : V3 -> R, (forall h, q (hn w (tw h)) = - q (hn w h)) -> Rsum (fun v => Rsum (fun h => q (hn w h)) (leavingAt v)) (zl m EVertex) = 0).
  { intros q Q. unfold leavingAt. rewrite <- (Rsum_fiber Z.eqb zE (ve m)); [|apply zl_NoDup; auto|]. 2: { intros h Hh. apply zl_In in Hh; auto. apply zl_In; auto. cbn [liveE]. apply (cn_ve _ CN). auto. }
    rewrite (sum_edges m V). rewrite (Rsum_ext _ (fun _ => 0)) by (intros e He; rewrite Q; ring). rewrite Rsum_const. ring. }
  unfold Vsum. cbn [qx qy qz]. rewrite (G qx), (G qy), (G qz); auto; intros h; unfold hn; rewrite tw_edge, tw_tw; cbn; ring.
Qed.
Context (len : mdata R) (LL : length (dat len) = Z.to_nat (eCap m)) (HL : forall h, liveH m h -> lh len h = norm3d (D h)).
Lemma hn1_ok w v : (forall e, liveE m EEdge e -> valAt w e = wS m len (eHe e) + wS m len (tw (eHe e))) -> liveV m v -> vertexDualMeanCurvatureNormal m pos v = Ok (Vsum (hn w) (leavingAt v)).
Proof.
  intros HW K. destruct (vertHalfedges_ok m V v K) as (hs & E & _ & _ & Nh & I). unfold vertexDualMeanCurvatureNormal. rewrite E. cbn [bind]. rewrite (foldM_vsum (hn w)).
  - rewrite add3_0. f_equal. destruct (leavingAt_ok v) as [N2 I2]. apply Vsum_set; auto. intros h. rewrite I, I2. tauto.
  - intros s h Hh. apply I in Hh as [Kh Vh]. rewrite (pEdgeWeight_ok m V TR pos EB len LL HL) by (apply edge_live; auto). cbn [bind]. rewrite (pos_ok m V pos EB) by auto. cbn [bind]. unfold headOf. rewrite next_live by auto. cbn [bind]. rewrite (vof m V) by (apply (cn_nx _ CN); auto). cbn [bind]. rewrite (pos_ok m V pos EB) by (apply (cn_ve _ CN), (cn_nx _ CN); auto). cbn [bind].
    unfold hn. rewrite <- HW by (apply edge_live; auto). rewrite (cn_vnx _ CN) by auto. rewrite Vh. reflexivity.
Qed.
(** dual areas and Gaussian curvature *)
Local Notation areaH := (areaH m len).
Local Notation angH := (angH m len).
Lemma pDual_ok v : liveV m v -> pVertexDualArea m pos v = Ok (Rsum (fun h => areaH h / 3) (cornersAt m v)).
Proof.
  intros Lv. destruct (corners_circulated m V v Lv) as (hs & hs' & E1 & E2 & C). unfold pVertexDualArea. rewrite E1. cbn [bind]. rewrite E2. cbn [bind].
  rewrite (foldM_same _ (fun a h => let* x := (let* f := faceOf m h in pFaceArea m pos f) in Ok (a + x))) by (intros s a; destruct (faceOf m a) as [f| |]; cbn; auto; destruct (pFaceArea m pos f); auto).
  rewrite (foldM_sum (fun h => let* f := faceOf m h in pFaceArea m pos f) areaH Rplus). 2: { intros h Hh. apply C in Hh as (A & B & _). assert (K : intH h) by (split; auto). rewrite (faceOf_int m V) by auto.
    cbn [bind]. rewrite (pFaceArea_ok m V TR pos EB len LL HL) by (apply fa_liveF; auto). rewrite (areaH_face m V TR) by auto. reflexivity. }
  cbn [bind]. rewrite fold_plus, Rsum_map. f_equal. rewrite (cornersOf_sum m V _ v) by auto. rewrite (Rsum_ext (fun h => areaH h / 3) (fun h => / 3 * areaH h)) by (intros; field). rewrite Rsum_scal. rewrite (Rsum_ext (fun a : Z => areaH a) areaH) by auto. field.
Qed.
Lemma pGauss_ok v : liveV m v -> pVertexGaussianCurvature m pos v = Ok (if bdb m v then 0 else 2 * PI - Rsum angH (cornersAt m v)).
Proof.
  intros Lv. unfold pVertexGaussianCurvature. rewrite (vIsB m V) by auto. cbn [bind]. destruct (bdb m v); auto. destruct (corners_circulated m V v Lv) as (hs & hs' & E1 & E2 & C). rewrite E1. cbn [bind]. rewrite E2. cbn [bind].
  rewrite (foldM_sum (pCornerAngle m pos) angH Rminus). 2: { intros h Hh. apply C in Hh as (A & B & _). apply (pCornerAngle_ok m V TR pos EB len HL). split; auto. }
  rewrite fold_minus, Rsum_map. f_equal. f_equal. apply (cornersOf_sum m V). auto.
Qed.
(** dihedral angles *)
Definition dih (h : Z) : R := if extb m h || extb m (tw h) then 0 else dihedral (N h) (N (tw h)) (P (ve m h)) (P (ve m (tw h))).
Lemma dih_tw h : dih (tw h) = dih h.
Proof. unfold dih. rewrite tw_tw, orb_comm. destruct (_ || _); auto. apply dihedral_sym. Qed.
Lemma eHe_int e : liveE m EEdge e -> extb m (eHe e) = false.
Proof. clear len LL HL. intros K. destruct (extb m (eHe e)) eqn:X; auto. exfalso. apply (cn_ebd _ CN (eHe e)); auto; [unfold eHe; rewrite Z.mul_comm, Z.mod_mul; lia|]. apply (extb_spec m); auto. Qed.
Lemma eB e : liveE m EEdge e -> eIsBoundary m e = Ok (extb m (tw (eHe e))). Proof. intros K. apply eIsBoundary_ok; auto. Qed.
Lemma dihedralAngle_ok e : liveE m EEdge e -> edgeDihedralAngle m pos e = Ok (dih (eHe e)).
Proof.
  intros K. unfold edgeDihedralAngle. rewrite eB by auto. cbn [bind]. unfold dih. rewrite eHe_int by auto. cbn [orb]. destruct (extb m (tw (eHe e))) eqn:X; auto.
  assert (K0 : intH (eHe e)) by (split; [apply K|apply not_ext, eHe_int; auto]). assert (K1 : intH (tw (eHe e))) by (split; [apply (cn_tw _ CN); apply K|apply not_ext; auto]).
  rewrite !(faceOf_int m V) by auto. cbn [bind]. rewrite faceNormal_ok by (apply fa_liveF; auto). cbn [bind]. rewrite faceNormal_ok by (apply fa_liveF; auto). cbn [bind]. rewrite (posOf_ok m V pos EB) by apply K0. cbn [bind]. rewrite next_live by (auto; apply K0). cbn [bind]. rewrite (posOf_ok m V pos EB) by (apply (cn_nx _ CN), K0). cbn [bind].
  rewrite !N_face by auto. rewrite (cn_vnx _ CN) by apply K0. reflexivity.
Qed.
Lemma dihedralAngles_ok normals : length (dat normals) = Z.to_nat (fCap m - bFill m) -> (forall h, intH h -> pt normals (fa m h) = N h) ->
  exists d, edgeDihedralAngles m pos normals = Ok d /\ length (dat d) = Z.to_nat (eCap m) /\ forall h, liveH m h -> valAt d (edge h) = dih h.
Proof.
  clear len LL HL. intros LN HN. destruct (els_ok m EEdge V) as (E & Nd & _ & I). destruct (newData_R m EEdge 0 0) as [NL _]. unfold edgeDihedralAngles. rewrite E. cbn [bind]. rewrite forEach_map. fold (zl m EEdge).
  match goal with |- context [foldM ?b _ _] => destruct (fill_if_ok 0 b (fun e => negb (extb m (tw (eHe e)))) (fun e => dih (eHe e)) (Z.to_nat (eCap m)) (zl m EEdge) (newData m EEdge 0)) as (d & F & Ld & Vd); auto using zl_NoDup end.
  - intros e He. apply zl_In in He; auto. apply (e_cap m V). auto.
  - intros d e _ K. apply zl_In in K; auto. rewrite eB by auto. cbn [bind]. destruct (extb m (tw (eHe e))) eqn:X; auto. cbn [negb].
    assert (K0 : intH (eHe e)) by (split; [apply K|apply not_ext, eHe_int; auto]). assert (K1 : intH (tw (eHe e))) by (split; [apply (cn_tw _ CN); apply K|apply not_ext; auto]).
    rewrite !(faceOf_int m V) by auto. cbn [bind]. rewrite (dataAt_in (mk3 0 0 0)) by (rewrite LN; apply (f_cap m V), fa_liveF; auto). cbn [bind]. rewrite (dataAt_in (mk3 0 0 0)) by (rewrite LN; apply (f_cap m V), fa_liveF; auto). cbn [bind]. rewrite (posOf_ok m V pos EB) by apply K0. cbn [bind]. rewrite next_live by (auto; apply K0). cbn [bind]. rewrite (posOf_ok m V pos EB) by (apply (cn_nx _ CN), K0). cbn [bind].
    fold (pt normals (fa m (eHe e))) (pt normals (fa m (tw (eHe e)))). rewrite !HN by auto. rewrite (cn_vnx _ CN) by apply K0. unfold dih. rewrite X, (eHe_int e K). reflexivity.
  - exists d. split; [exact F|]. split; auto. intros h K. pose proof (edge_live m V h K) as KE. assert (Q : dih h = dih (eHe (edge h))) by (destruct (eHe_edge h) as [-> | ->]; rewrite ?dih_tw; auto). rewrite Q. set (e := edge h) in *. unfold valAt. rewrite Vd by (pose proof (e_cap m V e KE); lia).
    pose proof (existsb_at (fun e => negb (extb m (tw (eHe e)))) (zl m EEdge) e) as X. rewrite zl_In, negb_true_iff in X by auto. fold (valAt (newData m EEdge 0) e). rewrite valAt_new. destruct (existsb _ _); auto. unfold dih. destruct (extb m (tw (eHe e))); [rewrite orb_true_r; auto|]. destruct X as [_ X]. discriminate X. auto.
Qed.
Lemma dih_turns h : intH h -> intH (tw h) -> - PI < dih h <= PI /\ turned (normalize3 (D h)) (dih h) (N h) = N (tw h).
Proof.
  intros K KT. unfold dih. destruct (extb m h) eqn:X; [exfalso; apply K; apply (extb_spec m); auto|]. destruct (extb m (tw h)) eqn:X'; [exfalso; apply KT; apply (extb_spec m); auto|]. cbn [orb]. unfold dihedral. change (sub3 (P (ve m (tw h))) (P (ve m h))) with (D h).
  apply dihedral_ok; try (apply N_unit; auto). - apply unit_norm. apply (along_ne m V pos EB). apply K. - apply dot_unit. apply N_orth. auto.
  - apply dot_unit. destruct (N_orth (tw h) KT) as [Q _]. rewrite (along_tw m pos) in Q. revert Q. unfold dot3, sub3. cbn [qx qy qz]. lra.
Qed.
Lemma dih_bd h : liveH m h -> ext m h \/ ext m (tw h) -> dih h = 0.
Proof. intros K [X|X]; apply (extb_spec m) in X; unfold dih; rewrite X, ?orb_true_r; reflexivity. Qed.
(** mean curvature *)
Lemma mean_ok alpha : length (dat alpha) = Z.to_nat (eCap m) -> exists d, vertexMeanCurvatures m len alpha = Ok d /\ length (dat d) = Z.to_nat (vCap m) /\ forall v, liveV m v -> valAt d v = Rsum (fun h => valAt alpha (edge h) * lh len h / 4) (leavingAt v).
Proof.
  intros LA. unfold vertexMeanCurvatures. match goal with |- context [forEach _ _ ?b] => destruct (fill_all 0 m EVertex b (fun v => Rsum (fun h => valAt alpha (edge h) * lh len h / 4) (leavingAt v)) EVertex 0 V) as (d & E & LD & V1 & V2) end.
  - intros e K. apply (v_cap m V); auto.
  - intros d v _ K. destruct (vertHalfedges_ok m V v K) as (hs & E & _ & _ & Nh & I). rewrite E. cbn [bind].
    rewrite (foldM_same _ (fun s h => let* x := (let* l := dataAt len (edge h) in let* a := dataAt alpha (edge h) in Ok (a * l / 2)) in Ok (s + x))) by (intros s h; destruct (dataAt len (edge h)); cbn; auto; destruct (dataAt alpha (edge h)); auto).
    rewrite (foldM_sum _ (fun h => valAt alpha (edge h) * lh len h / 2) Rplus). 2: { intros h Hh. apply I in Hh as [Kh _]. pose proof (e_cap m V _ (edge_live m V h Kh)) as B. rewrite !(dataAt_in 0) by (rewrite ?LL, ?LA; auto). reflexivity. }
    cbn [bind]. rewrite fold_plus, Rsum_map. f_equal. destruct (leavingAt_ok v) as [N2 I2]. rewrite <- (Rsum_set _ hs (leavingAt v)); auto; [|intros h; rewrite I, I2; tauto].
    rewrite (Rsum_ext (fun h => valAt alpha (edge h) * lh len h / 4) (fun h => / 2 * (valAt alpha (edge h) * lh len h / 2))) by (intros; field). rewrite Rsum_scal. rewrite Rplus_0_l. lra.
  - exists d. auto.
Qed.
Lemma mean1_ok v : liveV m v -> vertexMeanCurvature m pos v = Ok (Rsum (fun h => dih h * lh len h / 4) (leavingAt v)).
Proof.
  intros K. destruct (vertHalfedges_ok m V v K) as (hs & E & _ & _ & Nh & I). unfold vertexMeanCurvature. rewrite E. cbn [bind].
  rewrite (foldM_same _ (fun s h => let* x := (let* l := pEdgeLength m pos (edge h) in let* a := edgeDihedralAngle m pos (edge h) in Ok (a * l / 2)) in Ok (s + x))) by (intros s h; destruct (pEdgeLength m pos (edge h)); cbn; auto; destruct (edgeDihedralAngle m pos (edge h)); auto).
  rewrite (foldM_sum _ (fun h => dih h * lh len h / 2) Rplus). 2: { intros h Hh. apply I in Hh as [Kh _]. pose proof (edge_live m V h Kh) as KE. rewrite (len_e m V pos EB) by auto. cbn [bind]. rewrite dihedralAngle_ok by auto. cbn [bind]. rewrite HL by auto. destruct (eHe_edge h) as [-> | ->]; rewrite ?dih_tw, ?(norm_tw m pos); auto. }
  cbn [bind]. rewrite fold_plus, Rsum_map. f_equal. destruct (leavingAt_ok v) as [N2 I2]. rewrite <- (Rsum_set _ hs (leavingAt v)); auto; [|intros h; rewrite I, I2; tauto].
  rewrite (Rsum_ext (fun h => dih h * lh len h / 4) (fun h => / 2 * (dih h * lh len h / 2))) by (intros; field). rewrite Rsum_scal. rewrite Rplus_0_l. lra.
Qed.
Lemma mean_total alpha : Rsum (fun v => Rsum (fun h => valAt alpha (edge h) * lh len h / 4) (leavingAt v)) (zl m EVertex) = Rsum (fun e => valAt alpha e * valAt len e / 2) (zl m EEdge).
Proof.
  unfold leavingAt. rewrite <- (Rsum_fiber Z.eqb zE (ve m)); [|apply zl_NoDup; auto|]. 2: { intros h Hh. apply zl_In in Hh; auto. apply zl_In; auto. cbn [liveE]. apply (cn_ve _ CN). auto. }
  rewrite (sum_edges m V). apply Rsum_ext. intros e He. unfold lh. rewrite !tw_edge, !edge_eHe. lra.
Qed.
End M.
(** principal curvatures *)
Lemma principal_ok A H K : 0 < A -> principal true A H K <= principal false A H K /\ principal true A H K + principal false A H K = 2 * (H / A) /\
  (K * A <= H * H -> principal true A H K * principal false A H K = K / A) /\ (H * H <= K * A -> principal true A H K = H / A /\ principal false A H K = H / A).
Proof.
  intros PA. unfold principal. set (h := H / A). set (k := K / A). set (c := sqrt (Rmax 0 (h * h - k))). assert (C : 0 <= c) by apply sqrt_pos.
  rewrite Rmin_left, Rmax_right by lra. assert (S : A * A * (h * h - k) = H * H - K * A) by (unfold h, k; field; lra). assert (PAA : 0 < A * A) by (apply Rmult_lt_0_compat; auto). split; [lra|]. split; [lra|]. split.
  - intros Q. assert (Q' : 0 <= h * h - k). { apply (Rmult_le_reg_l (A * A)); auto. rewrite S. lra. } assert (c * c = h * h - k). { unfold c. rewrite Rmax_right by auto. apply sqrt_sqrt. auto. } lra.
  - intros Q. assert (Q' : h * h - k <= 0). { apply (Rmult_le_reg_l (A * A)); auto. rewrite S. lra. } assert (c = 0) as ->. { unfold c. rewrite Rmax_left by auto. apply sqrt_0. } lra.
Qed.
