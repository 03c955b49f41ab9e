From Coq Require Import Reals Lra Permutation.
From Verif Require Import Base DataModel DataSpec DataProofs MeshModel MeshSpec MeshBase MeshExec MeshOrbit MeshOpSpec MeshFlip MeshThms MeshSplit MeshHistorySpec MeshHistory MeshDataModel CollapseProofs CountSpec
  MatrixModel MatrixSpec MatrixProofs GeoModel IntrinsicModel IntrinsicSpec EmbeddedModel EmbeddedSpec Intrinsic1 Intrinsic2 Intrinsic3 Intrinsic4 Intrinsic5 Intrinsic7 Intrinsic8 Embedded1 Embedded2 Embedded3 PolyModel PolySpec Poly1 Poly2 Poly5 Poly6.
Open Scope R_scope.
Lemma norm3_scale u s : 0 <= s -> norm3d (mul3 u s) = s * norm3d u.
Proof.
  intros H. pose proof (norm_nonneg u). pose proof (norm_nonneg (mul3 u s)). apply Rsqr_inj; auto; [apply Rmult_le_pos; auto|]. unfold Rsqr. rewrite norm_sq. replace (s * norm3d u * (s * norm3d u)) with (s * s * (norm3d u * norm3d u)) by ring. rewrite norm_sq. unfold norm2_3, mul3. cbn. ring.
Qed.
Lemma normalize3_scale u s : 0 < s -> u <> mk3 0 0 0 -> normalize3 (mul3 u s) = normalize3 u.
Proof.
  intros H N. pose proof (norm_pos u N) as P. pose proof (norm3_scale u s (Rlt_le _ _ H)) as E. unfold normalize3. change (sqrt (qx (mul3 u s) * qx (mul3 u s) + qy (mul3 u s) * qy (mul3 u s) + qz (mul3 u s) * qz (mul3 u s))) with (norm3d (mul3 u s)). rewrite E. fold (norm3d u). apply V3_eq; cbn; field; lra.
Qed.
Section M.
Context (m : mesh) (V : Valid m) (pos : mdata V3) (LP : length (dat pos) = Z.to_nat (vCap m)).
Let CN := va_cn m V.
Local Notation intH := (intH m).
Local Notation fl := (fl m).
Local Notation p h := (pt pos (ve m h)).
Lemma posOf_at h : liveH m h -> posOf m pos h = Ok (p h).
Proof. intros K. unfold posOf. rewrite vof by auto. cbn [bind]. apply (dataAt_in (mk3 0 0 0)). rewrite LP. apply (v_cap m V). apply (cn_ve _ CN). auto. Qed.
Lemma area_vec f : liveF m f -> Vsum (fun h => cross3 (p h) (p (nx m h))) (fl f) = mul3 (areaVector m pos f) 2.
Proof. intros L. unfold areaVector. rewrite (faceV m V) by auto. rewrite mul_Vsum. apply Vsum_ext. intros h _. apply V3_eq; cbn; field. Qed.
Lemma areas_ok : exists d, pFaceAreas m pos = Ok d /\ length (dat d) = Z.to_nat (fCap m - bFill m) /\ forall f, liveF m f -> valAt d f = norm3d (areaVector m pos f).
Proof.
  unfold pFaceAreas. match goal with |- context [forEach _ _ ?b] => destruct (fill_all 0 m EFace b (fun f => norm3d (areaVector m pos f)) EFace 0 V) as (d & E & LD & V1 & V2) end.
  - intros e K. apply (f_cap m V); auto.
  - intros d f _ K. destruct (fl_ok m V f K) as (EF & _ & _ & I & _). rewrite EF. cbn [bind]. rewrite (foldM_vsum (fun h => cross3 (p h) (p (nx m h)))).
    + cbn [bind]. rewrite add3_0, area_vec by auto. rewrite norm3_scale by lra. f_equal. field.
    + intros s h Hh. apply I in Hh as [[A B] _]. rewrite posOf_at by auto. cbn [bind]. rewrite next_live by auto. cbn [bind]. rewrite posOf_at by (apply (cn_nx _ CN); auto). reflexivity.
  - exists d. split; auto.
Qed.
Definition corner (h : Z) : V3 := cross3 (sub3 (p (nx m h)) (p h)) (sub3 (p (nx m (nx m h))) (p h)).
Local Notation nx3 h := (nx m (nx m (nx m h))).
Fixpoint nsum (hs : list Z) (s : V3) : V3 := match hs with [] => s | h :: t => if (nx3 h =? h)%Z then add3 s (corner h) else nsum t (add3 s (corner h)) end.
Lemma loop_ok : forall hs s, (forall h, In h hs -> intH h) -> normal_loop m pos hs s = Ok (nsum hs s).
Proof.
  induction hs as [|h t IH]; intros s H; cbn [normal_loop nsum]; auto. pose proof (H h (or_introl eq_refl)) as K. pose proof (intH_nx m V _ K) as K1. pose proof (intH_nx m V _ K1) as K2. unfold triPoints. rewrite posOf_at by apply K. cbn [bind]. rewrite next_live by (auto; apply K). cbn [bind]. rewrite posOf_at by apply K1. cbn [bind]. rewrite next_live by (auto; apply K1). cbn [bind]. rewrite posOf_at by apply K2. cbn [bind]. rewrite next_live by (auto; apply K2). cbn [bind].
  fold (corner h). destruct (nx3 h =? h)%Z; auto. apply IH. intros; apply H; right; auto.
Qed.
Lemma normals_ok : exists d, faceNormals m pos = Ok d /\ length (dat d) = Z.to_nat (fCap m - bFill m) /\ forall f, liveF m f -> pt d f = normalize3 (nsum (fl f) (mk3 0 0 0)).
Proof.
  unfold faceNormals. match goal with |- context [forEach _ _ ?b] => destruct (fill_all (mk3 0 0 0) m EFace b (fun f => normalize3 (nsum (fl f) (mk3 0 0 0))) EFace (mk3 0 0 0) V) as (d & E & LD & V1 & V2) end.
  - intros e K. apply (f_cap m V); auto.
  - intros d f _ K. destruct (fl_ok m V f K) as (EF & _ & _ & I & _). unfold faceNormal. rewrite EF. cbn [bind]. rewrite loop_ok; [reflexivity|]. intros h Hh. apply I in Hh. apply Hh.
  - exists d. split; auto.
Qed.
Lemma nsum_all : forall hs s, (forall h, In h hs -> nx3 h <> h) -> nsum hs s = add3 s (Vsum corner hs).
Proof.
  induction hs as [|h t IH]; intros s H; cbn [nsum]; [unfold Vsum; cbn; rewrite add3_0r; auto|]. destruct (Z.eqb_spec (nx3 h) h) as [E|_]; [exfalso; apply (H h (or_introl eq_refl) E)|]. rewrite IH by (intros; apply H; right; auto). rewrite Vsum_cons, add3_assoc. reflexivity.
Qed.
Lemma inv_face (P : Z -> Prop) : (forall h, P h -> P (nx m h)) -> forall a b, liveH m a -> liveH m b -> fa m a = fa m b -> P a -> P b.
Proof. intros S a b A B E Pa. destruct (cn_forb _ CN a b A B E) as (n & <-). clear - S Pa. induction n as [|n IH]; cbn; auto. Qed.
Lemma shift_V f (g : Z -> V3) : liveF m f -> Vsum (fun h => g (nx m h)) (fl f) = Vsum g (fl f).
Proof. intros L. unfold Vsum. f_equal; [apply (shift_face m V f (fun h => qx (g h)) L)|apply (shift_face m V f (fun h => qy (g h)) L)|apply (shift_face m V f (fun h => qz (g h)) L)]. Qed.
Lemma few_normal f : liveF m f -> fewSided m f -> exists s, 0 < s /\ nsum (fl f) (mk3 0 0 0) = mul3 (areaVector m pos f) s.
Proof.
  intros L FS. destruct (fl_ok m V f L) as (_ & NE & ND & I & S). destruct (fl f) as [|h0 t] eqn:EL; [congruence|]. assert (H0 : intH h0 /\ fa m h0 = f) by (apply I; left; auto). destruct H0 as [K0 F0].
  assert (I2 : forall h, In h (fl f) <-> intH h /\ fa m h = f) by (rewrite EL; exact I).
  destruct (Z.eq_dec (nx3 h0) h0) as [E3|N3].
  - exists 2. split; [lra|]. cbn [nsum]. rewrite E3, Z.eqb_refl. rewrite add3_0. rewrite <- area_vec by auto.
    pose proof (intH_nx m V _ K0) as K1. pose proof (intH_nx m V _ K1) as K2.
    assert (N12 : Vsum (fun h => cross3 (p h) (p (nx m h))) (fl f) = corner h0).
    { destruct (Z.eq_dec (nx m h0) h0) as [E1|N1].
      - rewrite (Vsum_ext _ (fun _ => mk3 0 0 0)).
        + unfold corner. rewrite !E1. unfold Vsum. cbn [qx qy qz]. rewrite !Rsum_zero by auto. apply V3_eq; cbn; ring.
        + intros h Hh. apply I2 in Hh as [K F]. rewrite (inv_face (fun x => nx m x = x) (fun x E => f_equal (nx m) E) h0 h) by (try apply K0; try apply K; congruence). apply V3_eq; cbn; ring.
      - transitivity (Vsum (fun h => cross3 (p h) (p (nx m h))) [h0; nx m h0; nx m (nx m h0)]).
        + apply Vsum_set.
          * rewrite EL. auto.
          * constructor; [|constructor; [|constructor; [|constructor]]]; cbn; intros Q; repeat destruct Q as [Q|Q]; try tauto; try congruence.
          * intros h. rewrite I2. cbn. split.
            -- intros [K F]. destruct (cn_forb _ CN h0 h) as (n & <-); [apply K0|apply K|congruence|]. clear - E3. assert (G : forall n, h0 = Nat.iter n (nx m) h0 \/ nx m h0 = Nat.iter n (nx m) h0 \/ nx m (nx m h0) = Nat.iter n (nx m) h0).
               { clear n. intros n. induction n as [|k IH]; [cbn; auto|]. change (Nat.iter (S k) (nx m) h0) with (nx m (Nat.iter k (nx m) h0)). destruct IH as [IH|[IH|IH]]; rewrite <- IH; auto. } destruct (G n) as [Q|[Q|Q]]; auto.
            -- intros [<-|[<-|[<-|[]]]]; (split; [auto|]); rewrite ?(cn_fnx _ CN) by (try apply K0; apply K1); auto.
        + rewrite !Vsum_cons. unfold Vsum. cbn [Rsum]. unfold corner. rewrite E3. apply V3_eq; cbn; ring. }
    rewrite N12. apply V3_eq; cbn; ring.
  - exists 4. split; [lra|]. rewrite <- EL.
    assert (A3 : forall h, In h (fl f) -> nx3 h <> h). { intros h Hh E. apply I2 in Hh as [K F]. apply N3. apply (inv_face (fun x => nx3 x = x) (fun x E => f_equal (nx m) E) h h0); [apply K|apply K0|congruence|auto]. }
    assert (A4 : forall h, In h (fl f) -> nx m (nx3 h) = h). { intros h Hh. pose proof Hh as Hh'. apply I2 in Hh' as [K F]. destruct (FS h (proj1 K) F) as [E|E]; auto. destruct (A3 h Hh E). }
    rewrite nsum_all by auto. rewrite add3_0.
    set (q := fun h => cross3 (p h) (p (nx m (nx m h)))).
    assert (Q0 : Vsum q (fl f) = mk3 0 0 0).
    { assert (E : Vsum q (fl f) = mul3 (Vsum q (fl f)) (-1)). { rewrite <- (shift_V f q L) at 1. rewrite <- (shift_V f (fun h => q (nx m h)) L). rewrite mul_Vsum. apply Vsum_ext. intros h Hh. unfold q. rewrite (A4 h Hh). apply V3_eq; cbn; ring. }
      pose proof (f_equal qx E) as E1. pose proof (f_equal qy E) as E2. pose proof (f_equal qz E) as E3. cbn [mul3 qx qy qz] in E1, E2, E3. apply V3_eq; cbn [qx qy qz]; lra. }
    transitivity (add3 (Vsum (fun h => cross3 (p h) (p (nx m h))) (fl f)) (Vsum (fun h => cross3 (p h) (p (nx m h))) (fl f))).
    + rewrite <- (shift_V f (fun h => cross3 (p h) (p (nx m h))) L) at 2. rewrite add_Vsum. transitivity (add3 (Vsum corner (fl f)) (Vsum q (fl f))); [rewrite Q0, add3_0r; auto|]. rewrite add_Vsum. apply Vsum_ext. intros h _. unfold corner, q. apply V3_eq; cbn; ring.
    + rewrite area_vec by auto. apply V3_eq; cbn; ring.
Qed.
Lemma aligned_ok : (forall f, liveF m f -> fewSided m f /\ areaVector m pos f <> mk3 0 0 0) -> exists d n, pFaceAreas m pos = Ok d /\ faceNormals m pos = Ok n /\ length (dat n) = Z.to_nat (fCap m - bFill m) /\ length (dat d) = Z.to_nat (fCap m - bFill m) /\ aligned m pos n d.
Proof.
  intros H. destruct areas_ok as (d & E1 & L1 & H1). destruct normals_ok as (n & E2 & L2 & H2). exists d, n. do 4 (split; auto). intros f L. destruct (H f L) as [FS NZ]. rewrite H1, H2 by auto. destruct (few_normal f L FS) as (s & SP & ->). rewrite normalize3_scale by auto. split; [apply norm_pos; auto|]. split; [apply unit_norm; auto|apply unit_scale; auto].
Qed.
End M.
