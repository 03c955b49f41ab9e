From Coq Require Import Reals Lra Permutation.
From Verif Require Import Base DataModel DataSpec DataProofs MeshModel MeshSpec MeshBase MeshExec MeshOrbit MeshOpSpec MeshFlip MeshThms MeshSplit MeshHistorySpec MeshHistory MeshDataModel CollapseProofs CountSpec
  MatrixModel MatrixSpec MatrixProofs GeoModel IntrinsicModel IntrinsicSpec EmbeddedModel EmbeddedSpec Intrinsic1 Intrinsic2 Intrinsic3 Intrinsic4 Intrinsic5 Intrinsic7 PolyModel PolySpec Poly1 Poly2.
Open Scope R_scope.
Section M.
Context (m : mesh) (V : Valid m) (pos : mdata V3) (LP : length (dat pos) = Z.to_nat (vCap m)) (wts : mdata (list R)) (wt : Z -> R) (CW : cornerWeights m wts wt).
Local Notation intH := (intH m).
Local Notation fl := (fl m).
Local Notation poly f := (map (fun h => pt pos (ve m h)) (fl f)).
Lemma wts_ok f : liveF m f -> dataAt wts f = Ok (map wt (fl f)).
Proof. intros L. destruct CW as [LW W]. destruct (W f L) as (l & E & A). rewrite (dataAt_in []) by (rewrite LW; apply (f_cap m V); auto). rewrite A. unfold Poly1.fl. rewrite E. reflexivity. Qed.
Lemma poly_nth f i : (i < length (fl f))%nat -> nth i (poly f) v0 = pt pos (vAt m f i).
Proof. intros H. rewrite (nth_map_lt _ _ _ 0%Z v0) by auto. reflexivity. Qed.
Lemma wt_nth f i : (i < length (fl f))%nat -> nth i (map wt (fl f)) 0 = wt (nth i (fl f) 0%Z).
Proof. intros H. rewrite (nth_map_lt _ _ _ 0%Z 0) by auto. reflexivity. Qed.
Lemma lin_mid f u : liveF m f -> lin (length (fl f)) (fun i => nth i (map wt (fl f)) 0) (fun i => u (vAt m f i)) = midValue m wt u f.
Proof.
  intros L. unfold midValue. rewrite (sum_face m V) by auto. rewrite <- (Rsum_nth _ _ 0%Z). apply Rsum_ext. intros i Hi. apply in_seq in Hi. rewrite wt_nth by lia. reflexivity.
Qed.
Lemma virtual_ok f : liveF m f -> virtualVertex (poly f) (map wt (fl f)) = Ok (midPoint m pos wt f).
Proof.
  intros L. unfold virtualVertex. rewrite !map_length, Nat.eqb_refl. f_equal. unfold midPoint. rewrite <- !lin_mid by auto. unfold lin.
  assert (G : forall is, (forall i, In i is -> (i < length (fl f))%nat) -> fold_right (fun i s => add3 (mul3 (nth i (poly f) v0) (nth i (map wt (fl f)) 0)) s) v0 is =
    mk3 (Rsum (fun i => nth i (map wt (fl f)) 0 * qx (pt pos (vAt m f i))) is) (Rsum (fun i => nth i (map wt (fl f)) 0 * qy (pt pos (vAt m f i))) is) (Rsum (fun i => nth i (map wt (fl f)) 0 * qz (pt pos (vAt m f i))) is)).
  { induction is as [|i t IH]; intros B; [reflexivity|]. cbn [fold_right]. rewrite IH by (intros; apply B; right; auto). rewrite poly_nth by (apply B; left; auto). rewrite !Rsum_cons. unfold add3, mul3. cbn [qx qy qz]. f_equal; ring. }
  apply G. intros i Hi. apply in_seq in Hi. lia.
Qed.
Definition loc (step : list V3 -> V3 -> dense * (nat -> R) -> nat -> dense * (nat -> R)) (f : Z) : dense :=
  prolong (map wt (fl f)) (length (poly f)) (fold_left (step (poly f) (midPoint m pos wt f)) (seq 0 (length (poly f))) (dzero (length (poly f)) (length (poly f)), fun _ => 0)).
Lemma fan_ok step f : liveF m f -> fanMatrix step m pos wts f = Ok (loc step f).
Proof. intros L. unfold fanMatrix. rewrite (positions_ok m V) by auto. cbn [bind]. rewrite wts_ok by auto. cbn [bind]. rewrite virtual_ok by auto. reflexivity. Qed.
Lemma leg_A f i : liveF m f -> (i < length (fl f))%nat -> Pl (poly f) (midPoint m pos wt f) i = legA m pos wt (nth i (fl f) 0%Z).
Proof. intros L H. destruct (fl_nth m V f i L H) as [_ F]. unfold Pl, legA. rewrite poly_nth by auto. rewrite F. reflexivity. Qed.
Lemma vAt_next f i : liveF m f -> (i < length (fl f))%nat -> vAt m f ((i + 1) mod length (fl f)) = ve m (nx m (nth i (fl f) 0%Z)).
Proof. intros L H. destruct (fl_ok m V f L) as (_ & _ & _ & _ & S). rewrite S by auto. reflexivity. Qed.
Lemma leg_B f i : liveF m f -> (i < length (fl f))%nat -> Ql (poly f) (midPoint m pos wt f) i = legB m pos wt (nth i (fl f) 0%Z).
Proof.
  intros L H. destruct (fl_nth m V f i L H) as [_ F]. unfold Ql, legB. rewrite map_length. rewrite poly_nth by (apply Nat.mod_upper_bound; lia). rewrite F, vAt_next by auto. reflexivity.
Qed.
(** the form of a face, side by side *)
Definition sideForm (x y : Z -> R) (h : Z) : R :=
  tform (legA m pos wt h) (legB m pos wt h) (x (ve m h) - midValue m wt x (fa m h)) (x (ve m (nx m h)) - midValue m wt x (fa m h)) (y (ve m h) - midValue m wt y (fa m h)) (y (ve m (nx m h)) - midValue m wt y (fa m h)).
Definition sideMass (x y : Z -> R) (h : Z) : R :=
  integral (fanArea m pos wt h) (x (ve m h)) (x (ve m (nx m h))) (midValue m wt x (fa m h)) (y (ve m h)) (y (ve m (nx m h))) (midValue m wt y (fa m h)).
Lemma face_form f x y : liveF m f -> bil (length (fl f)) (de (loc stiffStep f)) (fun i => x (vAt m f i)) (fun i => y (vAt m f i)) = Rsum (sideForm x y) (fl f).
Proof.
  intros L. unfold loc. pose proof (stiff_bil (poly f) (midPoint m pos wt f) (fun i => x (vAt m f i)) (fun i => y (vAt m f i)) (map wt (fl f))) as H. cbv zeta in H. rewrite map_length in *. rewrite H. clear H. rewrite !lin_mid by auto. rewrite <- (Rsum_nth _ (fl f) 0%Z). apply Rsum_ext. intros i Hi. apply in_seq in Hi.
  destruct (fl_nth m V f i L) as [_ F]; [lia|]. unfold sideForm. rewrite leg_A, leg_B, F by (auto; lia). rewrite <- !vAt_next by (auto; lia). reflexivity.
Qed.
Lemma face_mass f x y : liveF m f -> bil (length (fl f)) (de (loc massStep f)) (fun i => x (vAt m f i)) (fun i => y (vAt m f i)) = Rsum (sideMass x y) (fl f).
Proof.
  intros L. unfold loc. pose proof (mass_bil (poly f) (midPoint m pos wt f) (fun i => x (vAt m f i)) (fun i => y (vAt m f i)) (map wt (fl f))) as H. cbv zeta in H. rewrite map_length in *. rewrite H. clear H. rewrite !lin_mid by auto. rewrite <- (Rsum_nth _ (fl f) 0%Z). apply Rsum_ext. intros i Hi. apply in_seq in Hi.
  destruct (fl_nth m V f i L) as [_ F]; [lia|]. unfold sideMass, fanArea. rewrite leg_A, leg_B, F by (auto; lia). rewrite <- !vAt_next by (auto; lia). reflexivity.
Qed.
Lemma lap_ok : exists L, simplePolygonLaplacian m pos wts = Ok L /\ rows L = Z.to_nat (nVertices m) /\ cols L = Z.to_nat (nVertices m) /\ forall x y, form m L x y = Rsum (sideForm x y) (zl m ECorner).
Proof.
  destruct (assemble_ok m V false _ (loc stiffStep) (fan_ok stiffStep)) as (M & E & RM & C & F). exists M. split; auto. split; auto. split; auto. intros x y. rewrite F, (sum_all_faces m V). apply Rsum_ext. intros f Hf. apply zl_In in Hf; auto. apply face_form. exact Hf.
Qed.
Lemma mass_ok : exists L, simplePolygonGalerkin m pos wts = Ok L /\ rows L = Z.to_nat (nVertices m) /\ cols L = Z.to_nat (nVertices m) /\ forall x y, form m L x y = Rsum (sideMass x y) (zl m ECorner).
Proof.
  destruct (assemble_ok m V false _ (loc massStep) (fan_ok massStep)) as (M & E & RM & C & F). exists M. split; auto. split; auto. split; auto. intros x y. rewrite F, (sum_all_faces m V). apply Rsum_ext. intros f Hf. apply zl_In in Hf; auto. apply face_mass. exact Hf.
Qed.
Lemma lump_ok : exists L, simplePolygonLumped m pos wts = Ok L /\ rows L = Z.to_nat (nVertices m) /\ cols L = Z.to_nat (nVertices m) /\ forall x y, form m L x y = Rsum (sideMass (fun v => x v * y v) (fun _ => 1)) (zl m ECorner).
Proof.
  destruct (assemble_ok m V true _ (loc massStep) (fan_ok massStep)) as (M & E & RM & C & F). exists M. split; auto. split; auto. split; auto. intros x y. rewrite F, (sum_all_faces m V). apply Rsum_ext. intros f Hf. apply zl_In in Hf; auto. rewrite <- face_mass by exact Hf.
  unfold bil. apply Rsum_ext. intros j _. apply Rsum_ext. intros i _. ring.
Qed.
(** ** consequences *)
Lemma tform_sym P Q a b a' b' : tform P Q a b a' b' = tform P Q a' b' a b. Proof. unfold tform. ring. Qed.
Lemma sideForm_sym x y h : sideForm x y h = sideForm y x h. Proof. apply tform_sym. Qed.
Lemma midValue_const f c : liveF m f -> faceSum m wt f = 1 -> midValue m wt (fun _ => c) f = c.
Proof. intros L H. unfold midValue. rewrite !(sum_face m V) in * by auto. rewrite (Rsum_ext _ (fun h => c * wt h)) by (intros; ring). rewrite Rsum_scal, H. ring. Qed.
Lemma integral_nonneg A a b c : 0 <= A -> 0 <= integral A a b c a b c. Proof. intros H. unfold integral. apply Rmult_le_pos; [lra|]. pose proof (Rle_0_sqr ((a + b) / 2)). pose proof (Rle_0_sqr ((b + c) / 2)). pose proof (Rle_0_sqr ((c + a) / 2)). unfold Rsqr in *. lra. Qed.
Lemma fanArea_nonneg h : 0 <= fanArea m pos wt h. Proof. unfold fanArea. pose proof (norm3_nonneg (cross3 (legA m pos wt h) (legB m pos wt h))). lra. Qed.
Section L.
Context (L : smat R) (F : forall x y, form m L x y = Rsum (sideForm x y) (zl m ECorner)).
Lemma lap_sym a b : liveV m a -> liveV m b -> entryAt 0 m EVertex EVertex L a b = entryAt 0 m EVertex EVertex L b a.
Proof. intros A B. rewrite <- !(form_entry m V) by auto. rewrite !F. apply Rsum_ext. intros h _. apply sideForm_sym. Qed.
Lemma lap_psd x : 0 <= form m L x x.
Proof. rewrite F. apply Rsum_nonneg. intros h _. apply tform_nonneg. Qed.
Lemma lap_const : (forall f, liveF m f -> faceSum m wt f = 1) -> forall a, liveV m a -> Rsum (entryAt 0 m EVertex EVertex L a) (every m EVertex) = 0.
Proof.
  intros W a La. rewrite (Rsum_ext _ (fun b => entryAt 0 m EVertex EVertex L a b * (fun _ => 1) b)) by (intros; ring). change (every m EVertex) with (zl m EVertex). rewrite <- (form_row m V) by auto. rewrite F. apply Rsum_zero. intros h Hh. apply zl_In in Hh; auto. pose proof (fa_liveF m V h Hh) as LF.
  unfold sideForm. rewrite (midValue_const _ 1 LF (W _ LF)). unfold tform. ring.
Qed.
Lemma lap_grad u g : (forall h, liveH m h -> ~ ext m h -> fanGradient m pos wt u h (g h)) ->
  form m L u u = Rsum (fun h => if Rlt_dec (1 / 10000000) (2 * fanArea m pos wt h) then fanArea m pos wt h * dot3 (g h) (g h) else 0) (every m ECorner).
Proof.
  intros G. rewrite F. change (every m ECorner) with (zl m ECorner). apply Rsum_ext. intros h Hh. apply zl_In in Hh; auto. destruct (G h (proj1 Hh) (proj2 Hh)) as (G1 & G2 & G3). unfold sideForm. rewrite <- G1, <- G2. rewrite tform_grad by auto.
  unfold fanArea. replace (2 * (norm3d (cross3 (legA m pos wt h) (legB m pos wt h)) / 2)) with (norm3d (cross3 (legA m pos wt h) (legB m pos wt h))) by field. reflexivity.
Qed.
Lemma lap_small : (forall h, liveH m h -> ~ ext m h -> 2 * fanArea m pos wt h <= 1 / 10000000) -> forall x y, form m L x y = 0.
Proof.
  intros S x y. rewrite F. apply Rsum_zero. intros h Hh. apply zl_In in Hh; auto. specialize (S h (proj1 Hh) (proj2 Hh)). unfold sideForm, tform, T0, T1, T2, big. destruct (Rlt_dec _ _) as [Q|]; [|ring]. exfalso. unfold fanArea in S. lra.
Qed.
End L.
Section G.
Context (M : smat R) (F : forall x y, form m M x y = Rsum (sideMass x y) (zl m ECorner)).
Lemma mass_sym a b : liveV m a -> liveV m b -> entryAt 0 m EVertex EVertex M a b = entryAt 0 m EVertex EVertex M b a.
Proof. intros A B. rewrite <- !(form_entry m V) by auto. rewrite !F. apply Rsum_ext. intros h _. unfold sideMass, integral. ring. Qed.
Lemma mass_psd x : 0 <= form m M x x.
Proof. rewrite F. apply Rsum_nonneg. intros h _. apply integral_nonneg, fanArea_nonneg. Qed.
Lemma mass_total : (forall f, liveF m f -> faceSum m wt f = 1) -> form m M (fun _ => 1) (fun _ => 1) = Rsum (fanArea m pos wt) (every m ECorner).
Proof.
  intros W. rewrite F. change (every m ECorner) with (zl m ECorner). apply Rsum_ext. intros h Hh. apply zl_In in Hh; auto. pose proof (fa_liveF m V h Hh) as LF. unfold sideMass. rewrite (midValue_const _ 1 LF (W _ LF)). unfold integral. field.
Qed.
Context (K : smat R) (FK : forall x y, form m K x y = Rsum (sideMass (fun v => x v * y v) (fun _ => 1)) (zl m ECorner)).
Lemma lump_eq a b : liveV m a -> liveV m b -> entryAt 0 m EVertex EVertex K a b = if (a =? b)%Z then Rsum (entryAt 0 m EVertex EVertex M a) (every m EVertex) else 0.
Proof.
  intros A B. rewrite <- (form_entry m V) by auto. rewrite FK. destruct (Z.eqb_spec a b) as [<-|N].
  - rewrite (Rsum_ext (entryAt 0 m EVertex EVertex M a) (fun b => entryAt 0 m EVertex EVertex M a b * (fun _ => 1) b)) by (intros; ring). change (every m EVertex) with (zl m EVertex). rewrite <- (form_row m V) by auto. rewrite F. apply Rsum_ext. intros h _. unfold sideMass.
    assert (E : forall v, ind a v * ind a v = ind a v) by (intros v; unfold ind; destruct (v =? a)%Z; ring). unfold midValue, faceSum. rewrite !E. rewrite (Rsum_ext (fun h0 => wt h0 * (ind a (ve m h0) * ind a (ve m h0))) (fun h0 => wt h0 * ind a (ve m h0))) by (intros; rewrite E; auto). reflexivity.
  - apply Rsum_zero. intros h _. unfold sideMass. assert (E : forall v, ind a v * ind b v = 0) by (intros v; unfold ind; destruct (Z.eqb_spec v a), (Z.eqb_spec v b); try ring; congruence). rewrite !E. unfold midValue, faceSum. rewrite (Rsum_zero (fun h0 => wt h0 * (ind a (ve m h0) * ind b (ve m h0)))) by (intros; rewrite E; ring). unfold integral. field.
Qed.
End G.
End M.
