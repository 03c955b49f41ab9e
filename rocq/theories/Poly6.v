From Coq Require Import Reals Lra Permutation Nsatz.
From Verif Require Import Base DataModel DataSpec DataProofs MeshModel MeshSpec MeshBase MeshExec MeshOrbit MeshOpSpec MeshFlip MeshThms MeshSplit MeshHistorySpec MeshHistory MeshDataModel CollapseProofs CountSpec
  MatrixModel MatrixSpec MatrixProofs GeoModel IntrinsicModel IntrinsicSpec EmbeddedModel EmbeddedSpec Intrinsic1 Intrinsic2 Intrinsic3 Intrinsic4 Intrinsic5 Intrinsic7 Intrinsic8 Embedded1 Embedded2 Embedded3 PolyModel PolySpec Poly1 Poly2 Poly5.
Open Scope R_scope.
Lemma cross_Vsum {A} N (g : A -> V3) l : cross3 N (Vsum g l) = Vsum (fun a => cross3 N (g a)) l.
Proof. induction l as [|a t IH]; [apply V3_eq; cbn; ring|]. rewrite !Vsum_cons, <- IH. apply V3_eq; cbn; ring. Qed.
Lemma cross_Vsum_r {A} N (g : A -> V3) l : cross3 (Vsum g l) N = Vsum (fun a => cross3 (g a) N) l.
Proof. induction l as [|a t IH]; [apply V3_eq; cbn; ring|]. rewrite !Vsum_cons, <- IH. apply V3_eq; cbn; ring. Qed.
Lemma mul_Vsum {A} s (g : A -> V3) l : mul3 (Vsum g l) s = Vsum (fun a => mul3 (g a) s) l.
Proof. induction l as [|a t IH]; [apply V3_eq; cbn; ring|]. rewrite !Vsum_cons, <- IH. apply V3_eq; cbn; ring. Qed.
Lemma add_Vsum {A} (f g : A -> V3) l : add3 (Vsum f l) (Vsum g l) = Vsum (fun a => add3 (f a) (g a)) l.
Proof. induction l as [|a t IH]; [apply V3_eq; cbn; ring|]. rewrite !Vsum_cons, <- IH. apply V3_eq; cbn; ring. Qed.
Section M.
Context (m : mesh) (V : Valid m) (pos normals : mdata V3) (areas : mdata R) (PD : polygonData m pos normals areas).
Let CN := va_cn m V.
Local Notation intH := (intH m).
Local Notation fl := (fl m).
Local Notation poly f := (map (fun h => pt pos (ve m h)) (fl f)).
Local Notation D := (along m pos).
Lemma along_int h : intH h -> D h = sub3 (pt pos (ve m (nx m h))) (pt pos (ve m h)).
Proof. intros [K _]. unfold along. rewrite <- (cn_vnx _ CN h K). reflexivity. Qed.
Lemma faceV f g : liveF m f -> faceVsum m g f = Vsum g (fl f).
Proof. intros L. unfold faceVsum, Vsum. rewrite !(sum_face m V) by auto. reflexivity. Qed.
Lemma fl_two f : liveF m f -> (2 <= length (fl f))%nat.
Proof.
  intros L. destruct (fl_ok m V f L) as (_ & NE & ND & I & S). destruct (Nat.le_gt_cases 2 (length (fl f))) as [|Q]; auto. exfalso. destruct (fl f) as [|h [|]] eqn:E; cbn in Q; try congruence; try lia.
  destruct (fl_nth m V f 0%nat L) as [K _]; [rewrite E; cbn; lia|]. rewrite E in K. cbn in K. destruct PD as (_ & _ & _ & H). apply (H h); [apply K|apply K|]. rewrite <- E in S. specialize (S 0%nat). rewrite E in S. cbn in S. apply S. lia.
Qed.
Lemma ev_along f i : liveF m f -> (i < length (fl f))%nat -> ev (poly f) i = D (nth i (fl f) 0%Z).
Proof.
  intros L H. destruct (fl_nth m V f i L H) as [K _]. rewrite along_int by auto. unfold ev. rewrite map_length. destruct (fl_ok m V f L) as (_ & _ & _ & _ & S). rewrite S by auto. rewrite !(nth_map_lt _ _ _ 0%Z v0) by (auto; apply Nat.mod_upper_bound; lia). reflexivity.
Qed.
Lemma next_at f i u : liveF m f -> (i < length (fl f))%nat -> u (vAt m f ((i + 1) mod length (fl f))) = u (ve m (nx m (nth i (fl f) 0%Z))) :> R.
Proof. intros L H. destruct (fl_ok m V f L) as (_ & _ & _ & _ & S). rewrite S by auto. reflexivity. Qed.
(** sums around a face may be shifted *)
Lemma shift_face f (g : Z -> R) : liveF m f -> Rsum (fun h => g (nx m h)) (fl f) = Rsum g (fl f).
Proof.
  intros L. destruct (fl_ok m V f L) as (_ & _ & ND & I & _). apply Rsum_bij; auto.
  - intros h Hh. apply I in Hh as [K E]. apply I. split; [apply (intH_nx m V); auto|]. rewrite <- E. apply (cn_fnx _ CN). apply K.
  - intros a b Ha Hb E. apply I in Ha as [[Ka _] _], Hb as [[Kb _] _]. apply (cn_inj _ CN); auto.
Qed.
Definition avgU (u : Z -> R) (h : Z) : R := (u (ve m h) + u (ve m (nx m h))) / 2.
Definition difU (u : Z -> R) (h : Z) : R := u (ve m (nx m h)) - u (ve m h).
Lemma coG_sum f u : liveF m f -> toV (coG (poly f) (fun i => u (vAt m f i))) = Vsum (fun h => mul3 (D h) (avgU u h)) (fl f).
Proof.
  intros L. assert (E : forall j, coG (poly f) (fun i => u (vAt m f i)) j = Rsum (fun h => comp (mul3 (D h) (avgU u h)) j) (fl f)).
  { intros j. unfold coG. rewrite map_length. rewrite <- (Rsum_nth _ (fl f) 0%Z). apply Rsum_ext. intros i Hi. apply in_seq in Hi. rewrite ev_along, next_at by (auto; lia). unfold avgU, vAt. destruct j as [|[|j]]; reflexivity. }
  unfold toV. rewrite !E. reflexivity.
Qed.
Local Notation N f := (pt normals f).
Local Notation A f := (valAt areas f).
Local Notation MG := (meanGradient m pos normals areas).
Lemma MG_eq f u : liveF m f -> MG u f = mul3 (cross3 (N f) (Vsum (fun h => mul3 (D h) (avgU u h)) (fl f))) (- (1 / A f)).
Proof.
  intros L. unfold meanGradient. rewrite faceV by auto. rewrite cross_Vsum, !mul_Vsum. apply Vsum_ext. intros h _. fold (avgU u h). apply V3_eq; cbn; ring.
Qed.
(** summation by parts *)
Lemma by_parts f u c : liveF m f -> Vsum (fun h => mul3 (sub3 (div3 (add3 (pt pos (ve m h)) (pt pos (ve m (nx m h)))) 2) c) (difU u h)) (fl f) = mul3 (Vsum (fun h => mul3 (D h) (avgU u h)) (fl f)) (-1).
Proof.
  intros L. destruct (fl_ok m V f L) as (_ & _ & _ & I & _). assert (E : forall (P : Z -> R) k, Rsum (fun h => ((P (ve m h) + P (ve m (nx m h))) / 2 - k) * difU u h) (fl f) = - Rsum (fun h => (P (ve m (nx m h)) - P (ve m h)) * avgU u h) (fl f)).
  { intros P k. apply Rplus_eq_reg_r with (Rsum (fun h => (P (ve m (nx m h)) - P (ve m h)) * avgU u h) (fl f)). rewrite Rplus_opp_l, <- Rsum_plus.
    rewrite (Rsum_ext _ (fun h => (fun y => P (ve m y) * u (ve m y) - k * u (ve m y)) (nx m h) - (fun y => P (ve m y) * u (ve m y) - k * u (ve m y)) h)) by (intros h _; unfold difU, avgU; field).
    rewrite Rsum_minus. rewrite (shift_face f (fun y => P (ve m y) * u (ve m y) - k * u (ve m y)) L). ring. }
  apply V3_eq; cbn [Vsum mul3 qx qy qz].
  - rewrite (Rsum_ext _ (fun h => ((qx (pt pos (ve m h)) + qx (pt pos (ve m (nx m h)))) / 2 - qx c) * difU u h)) by (intros h _; cbn; field). rewrite (E (fun v => qx (pt pos v))). rewrite (Rsum_ext (fun h => qx (D h) * avgU u h) (fun h => (qx (pt pos (ve m (nx m h))) - qx (pt pos (ve m h))) * avgU u h)); [ring|]. intros h Hh. apply I in Hh as [K _]. rewrite along_int by auto. reflexivity.
  - rewrite (Rsum_ext _ (fun h => ((qy (pt pos (ve m h)) + qy (pt pos (ve m (nx m h)))) / 2 - qy c) * difU u h)) by (intros h _; cbn; field). rewrite (E (fun v => qy (pt pos v))). rewrite (Rsum_ext (fun h => qy (D h) * avgU u h) (fun h => (qy (pt pos (ve m (nx m h))) - qy (pt pos (ve m h))) * avgU u h)); [ring|]. intros h Hh. apply I in Hh as [K _]. rewrite along_int by auto. reflexivity.
  - rewrite (Rsum_ext _ (fun h => ((qz (pt pos (ve m h)) + qz (pt pos (ve m (nx m h)))) / 2 - qz c) * difU u h)) by (intros h _; cbn; field). rewrite (E (fun v => qz (pt pos v))). rewrite (Rsum_ext (fun h => qz (D h) * avgU u h) (fun h => (qz (pt pos (ve m (nx m h))) - qz (pt pos (ve m h))) * avgU u h)); [ring|]. intros h Hh. apply I in Hh as [K _]. rewrite along_int by auto. reflexivity.
Qed.
Lemma sh_sum f u : liveF m f -> toV (sh (poly f) (fun i => u (vAt m f ((i + 1) mod length (fl f))) - u (vAt m f i))) = mul3 (Vsum (fun h => mul3 (D h) (avgU u h)) (fl f)) (-1).
Proof.
  intros L. rewrite <- (by_parts f u (centroid (poly f)) L).
  assert (E : forall j, sh (poly f) (fun i => u (vAt m f ((i + 1) mod length (fl f))) - u (vAt m f i)) j = Rsum (fun h => comp (mul3 (sub3 (div3 (add3 (pt pos (ve m h)) (pt pos (ve m (nx m h)))) 2) (centroid (poly f))) (difU u h)) j) (fl f)).
  { intros j. unfold sh. rewrite map_length. rewrite <- (Rsum_nth _ (fl f) 0%Z). apply Rsum_ext. intros i Hi. apply in_seq in Hi. rewrite next_at by (auto; lia). unfold mv. rewrite map_length. destruct (fl_ok m V f L) as (_ & _ & _ & _ & S). rewrite !(nth_map_lt _ _ _ 0%Z v0) by (try apply Nat.mod_upper_bound; lia). rewrite <- S by lia. unfold difU, vAt. destruct j as [|[|j]]; reflexivity. }
  unfold toV. rewrite !E. reflexivity.
Qed.
(** ** the Laplacian *)
Local Notation res_ := (residual m pos normals areas).
Definition floc (lam : R) (f : Z) : dense := faceLaplacian lam (A f) (N f) (poly f).
Lemma read_ok lam f : liveF m f -> (let* p := polygonPositions m pos f in let* a := dataAt areas f in let* n := dataAt normals f in Ok (faceLaplacian lam a n p)) = Ok (floc lam f).
Proof.
  intros L. destruct PD as (P1 & P2 & P3 & _). rewrite (positions_ok m V) by auto. cbn [bind]. rewrite (dataAt_in 0) by (rewrite P3; apply (f_cap m V); auto). cbn [bind]. rewrite (dataAt_in (mk3 0 0 0)) by (rewrite P2; apply (f_cap m V); auto). reflexivity.
Qed.
Definition faceForm (lam : R) (x y : Z -> R) (f : Z) : R := A f * dot3 (MG x f) (MG y f) + lam * Rsum (fun h => res_ x h * res_ y h) (fl f).
Lemma floc_bil lam f x y : liveF m f -> bil (length (fl f)) (de (floc lam f)) (fun i => x (vAt m f i)) (fun i => y (vAt m f i)) = faceForm lam x y f.
Proof.
  intros L. pose proof (fl_two f L) as T. unfold floc. pose proof (lap_bil (poly f)) as H. rewrite map_length in H. specialize (H T lam (A f) (N f) (fun i => x (vAt m f i)) (fun i => y (vAt m f i))). cbv zeta in H. rewrite H. clear H. rewrite !sh_sum by auto.
  assert (G : forall u, mul3 (cross3 (N f) (mul3 (Vsum (fun h => mul3 (D h) (avgU u h)) (fl f)) (-1))) (1 / A f) = MG u f) by (intros u; rewrite MG_eq by auto; apply V3_eq; cbn [mul3 cross3 qx qy qz]; ring). rewrite !G.
  unfold faceForm. f_equal. f_equal. rewrite <- (Rsum_nth _ (fl f) 0%Z). apply Rsum_ext. intros i Hi. apply in_seq in Hi. rewrite !ev_along, !next_at by (auto; lia). destruct (fl_nth m V f i L) as [_ F]; [lia|]. unfold residual. rewrite F. reflexivity.
Qed.
Lemma plap_ok lam : exists L, polygonLaplacian m lam pos normals areas = Ok L /\ rows L = Z.to_nat (nVertices m) /\ cols L = Z.to_nat (nVertices m) /\ forall x y, form m L x y = Rsum (faceForm lam x y) (zl m EFace).
Proof.
  destruct (assemble_ok m V false _ (floc lam) (read_ok lam)) as (M & E & RM & C & F). exists M. split; [exact E|]. split; auto. split; auto. intros x y. rewrite F. apply Rsum_ext. intros f Hf. apply zl_In in Hf; auto. rewrite <- (floc_bil lam f x y Hf). unfold bil. reflexivity.
Qed.
Lemma MG_const f c : liveF m f -> MG (fun _ => c) f = mk3 0 0 0.
Proof.
  intros L. rewrite MG_eq by auto. destruct (fl_ok m V f L) as (_ & _ & _ & I & _). assert (Z0 : Vsum (fun h => mul3 (D h) (avgU (fun _ => c) h)) (fl f) = mk3 0 0 0).
  { assert (E : forall P : Z -> R, Rsum (fun h => (P (ve m (nx m h)) - P (ve m h)) * c) (fl f) = 0).
    { intros P. rewrite (Rsum_ext _ (fun h => (fun y => P (ve m y) * c) (nx m h) - (fun y => P (ve m y) * c) h)) by (intros; ring). rewrite Rsum_minus, (shift_face f (fun y => P (ve m y) * c) L). ring. }
    unfold Vsum. f_equal.
    - rewrite <- (E (fun v => qx (pt pos v))). apply Rsum_ext. intros h Hh. apply I in Hh as [K _]. rewrite along_int by auto. unfold avgU. cbn. field.
    - rewrite <- (E (fun v => qy (pt pos v))). apply Rsum_ext. intros h Hh. apply I in Hh as [K _]. rewrite along_int by auto. unfold avgU. cbn. field.
    - rewrite <- (E (fun v => qz (pt pos v))). apply Rsum_ext. intros h Hh. apply I in Hh as [K _]. rewrite along_int by auto. unfold avgU. cbn. field. }
  rewrite Z0. apply V3_eq; cbn; ring.
Qed.
Lemma res_const f c h : liveF m f -> fa m h = f -> res_ (fun _ => c) h = 0.
Proof. intros L F. unfold residual. rewrite F, MG_const by auto. unfold dot3. cbn. ring. Qed.
Section L.
Context (lam : R) (L : smat R) (F : forall x y, form m L x y = Rsum (faceForm lam x y) (zl m EFace)).
Lemma plap_form x y : form m L x y = Rsum (fun f => A f * dot3 (MG x f) (MG y f) + lam * faceSum m (fun h => res_ x h * res_ y h) f) (every m EFace).
Proof. rewrite F. change (every m EFace) with (zl m EFace). apply Rsum_ext. intros f Hf. apply zl_In in Hf; auto. rewrite (sum_face m V) by exact Hf. reflexivity. Qed.
Lemma plap_sym a b : liveV m a -> liveV m b -> entryAt 0 m EVertex EVertex L a b = entryAt 0 m EVertex EVertex L b a.
Proof. intros La Lb. rewrite <- !(form_entry m V) by auto. rewrite !F. apply Rsum_ext. intros f _. unfold faceForm. f_equal; [unfold dot3; ring|]. f_equal. apply Rsum_ext. intros; ring. Qed.
Lemma plap_psd x : 0 <= lam -> (forall f, liveF m f -> 0 <= A f) -> 0 <= form m L x x.
Proof.
  intros L0 AP. rewrite F. apply Rsum_nonneg. intros f Hf. apply zl_In in Hf; auto. apply Rplus_le_le_0_compat; apply Rmult_le_pos; auto.
  - apply sq3.
  - apply Rsum_nonneg. intros h _. apply Rle_0_sqr.
Qed.
Lemma plap_const a : liveV m a -> Rsum (entryAt 0 m EVertex EVertex L a) (every m EVertex) = 0.
Proof.
  intros La. rewrite (Rsum_ext _ (fun b => entryAt 0 m EVertex EVertex L a b * (fun _ => 1) b)) by (intros; ring). change (every m EVertex) with (zl m EVertex). rewrite <- (form_row m V) by auto. rewrite F. apply Rsum_zero. intros f Hf. apply zl_In in Hf; auto. unfold faceForm.
  rewrite (MG_const f 1 Hf). rewrite (Rsum_zero _ (fl f)); [unfold dot3; cbn; ring|]. intros h Hh. apply (fl_ok m V f Hf) in Hh as [_ E]. rewrite (res_const f 1 h Hf E). ring.
Qed.
End L.
(** ** linear functions *)
Section Lin.
Context (AL : aligned m pos normals areas).
Lemma MG_linear f u a : liveF m f -> (forall h, intH h -> fa m h = f -> difU u h = dot3 a (D h)) -> MG u f = sub3 a (mul3 (N f) (dot3 (N f) a)).
Proof.
  intros L H. destruct (AL f L) as (AP & U & AV). destruct (fl_ok m V f L) as (_ & NE & _ & I & _).
  (* the sum of the sides times the averages is the vector area crossed with a *)
  assert (E : Vsum (fun h => mul3 (D h) (avgU u h)) (fl f) = cross3 (areaVector m pos f) a).
  { unfold areaVector. rewrite faceV by auto. set (p := fun h => pt pos (ve m h)). 
    assert (LN : exists c, forall h, In h (fl f) -> u (ve m h) = dot3 a (p h) + c).
    { pose proof (fl_ok m V f L) as (_ & _ & _ & _ & Sx). exists (u (vAt m f 0) - dot3 a (pt pos (vAt m f 0))). intros h Hh. destruct (In_nth _ _ 0%Z Hh) as (i & Bi & <-). clear Hh. induction i as [|i IH]; [unfold p, vAt; ring|].
      assert (Q : nth (S i) (fl f) 0%Z = nx m (nth i (fl f) 0%Z)) by (rewrite (Sx i) by lia; rewrite Nat.mod_small by lia; f_equal; lia). rewrite Q. destruct (fl_nth m V f i L) as [K Fi]; [lia|]. specialize (H _ K Fi). unfold difU in H. rewrite along_int in H by auto.
      replace (u (ve m (nx m (nth i (fl f) 0%Z)))) with (u (ve m (nth i (fl f) 0%Z)) + dot3 a (sub3 (pt pos (ve m (nx m (nth i (fl f) 0%Z)))) (pt pos (ve m (nth i (fl f) 0%Z))))) by lra. rewrite IH by lia. unfold p, dot3, sub3. cbn. ring. }
    destruct LN as (c & LN).
    set (s := fun h => mul3 (p h) (dot3 a (p h) / 2 + c)).
    assert (Q : forall h, In h (fl f) -> mul3 (D h) (avgU u h) = add3 (cross3 (mul3 (cross3 (p h) (p (nx m h))) (1 / 2)) a) (sub3 (s (nx m h)) (s h))).
    { intros h Hh. pose proof Hh as Hh'. apply I in Hh' as [K Fh]. rewrite along_int by auto. unfold avgU. rewrite (LN h Hh). rewrite (LN (nx m h)). 2: { apply I. split; [apply (intH_nx m V); auto|]. rewrite <- Fh. apply (cn_fnx _ CN). apply K. }
      change (pt pos (ve m (nx m h))) with (p (nx m h)). change (pt pos (ve m h)) with (p h). unfold s. set (x := p h). set (y := p (nx m h)). clearbody x y. destruct x, y, a. apply V3_eq; unfold dot3; cbn; field. }
    rewrite (Vsum_ext _ _ _ Q). rewrite <- (add_Vsum (fun h => cross3 (mul3 (cross3 (p h) (p (nx m h))) (1 / 2)) a) (fun h => sub3 (s (nx m h)) (s h))).
    assert (Z0 : Vsum (fun h => sub3 (s (nx m h)) (s h)) (fl f) = mk3 0 0 0).
    { unfold Vsum. f_equal; cbn [sub3 qx qy qz]; rewrite Rsum_minus; [rewrite (shift_face f (fun h => qx (s h)) L)|rewrite (shift_face f (fun h => qy (s h)) L)|rewrite (shift_face f (fun h => qz (s h)) L)]; ring. }
    rewrite Z0, add3_0r. symmetry. apply cross_Vsum_r. }
  rewrite MG_eq by auto. rewrite E, <- AV. assert (A0 : A f <> 0) by lra. set (n := N f) in *. set (k := A f) in *. clearbody n k. clear - U A0.
  transitivity (sub3 (mul3 a (norm2_3 n)) (mul3 n (dot3 n a))); [|rewrite U; apply V3_eq; cbn; ring]. apply V3_eq; unfold dot3, norm2_3; cbn; field; auto.
Qed.
Lemma res_linear f u a h : liveF m f -> (forall h, intH h -> fa m h = f -> difU u h = dot3 a (D h)) -> dot3 (N f) a = 0 -> intH h -> fa m h = f -> res_ u h = 0.
Proof.
  intros L H O K Fh. unfold residual. rewrite Fh. rewrite (MG_linear f u a L H). rewrite O. specialize (H h K Fh). unfold difU in H. rewrite H. unfold dot3, sub3, mul3. cbn. ring.
Qed.
Lemma plap_linear lam L (F : forall x y, form m L x y = Rsum (faceForm lam x y) (zl m EFace)) u a :
  (forall f, liveF m f -> dot3 (N f) (a f) = 0) -> (forall h, intH h -> difU u h = dot3 (a (fa m h)) (D h)) -> form m L u u = Rsum (fun f => A f * dot3 (a f) (a f)) (zl m EFace).
Proof.
  intros O H. rewrite F. apply Rsum_ext. intros f Hf. apply zl_In in Hf; auto. assert (Hf' : forall h, intH h -> fa m h = f -> difU u h = dot3 (a f) (D h)) by (intros h K <-; auto). unfold faceForm. rewrite (MG_linear f u (a f) Hf Hf'). rewrite (O f Hf). rewrite (Rsum_zero _ (fl f)).
  - unfold dot3, sub3, mul3. cbn. ring.
  - intros h Hh. apply (fl_ok m V f Hf) in Hh as [K E]. rewrite (res_linear f u (a f) h Hf Hf' (O f Hf) K E). ring.
Qed.
End Lin.
End M.
