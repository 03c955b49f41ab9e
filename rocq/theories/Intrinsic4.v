From Coq Require Import Reals Lra Permutation.
From Verif Require Import Base DataModel DataSpec DataProofs MeshModel MeshSpec MeshBase MeshExec MeshOrbit MeshOpSpec MeshFlip MeshThms MeshSplit MeshHistorySpec MeshHistory MeshDataModel CollapseProofs CountSpec
  MatrixModel GeoModel IntrinsicModel IntrinsicSpec Intrinsic1 Intrinsic2 Intrinsic3.
Open Scope R_scope.

Lemma foldM_same {A S} (f g : S -> A -> res S) l : (forall s a, f s a = g s a) -> forall s, foldM f l s = foldM g l s.
Proof. intros H. induction l as [|a t IH]; intros s; cbn; auto. rewrite H. destruct (g s a); cbn; auto. Qed.
Section M.
Context (m : mesh) (V : Valid m) (TR : triangular m) (len : mdata R) (MT : Metric m len).
Let CN := va_cn m V.
Local Notation L := (lh len).
Local Notation intH := (intH m).

Lemma tri_at h : intH h -> tri (L h) (L (nx m h)) (L (nx m (nx m h))).
Proof.
  intros K. pose proof (intH_nx m V h K) as K1. pose proof (intH_nx m V _ K1) as K2. destruct (three m V TR h K) as (E & _).
  destruct MT as [_ P T]. pose proof (T h (proj1 K) (proj2 K)). pose proof (T _ (proj1 K1) (proj2 K1)) as T1. pose proof (T _ (proj1 K2) (proj2 K2)) as T2. rewrite E in T1, T2.
  pose proof (P h (proj1 K)). pose proof (P _ (proj1 K1)). pose proof (P _ (proj1 K2)). unfold tri. lra.
Qed.
Lemma len_ok h : liveH m h -> dataAt len (edge h) = Ok (L h).
Proof.
  intros K. apply dataAt_in. rewrite (mt_size _ _ MT). pose proof (va_st m V) as S. pose proof (st_he _ S). pose proof (st_edge _ S) as [S1 S2]. destruct K as [K _]. unfold edge. lia.
Qed.
Lemma triLengths_ok h : intH h -> triLengths m len h = Ok (L h, L (nx m h), L (nx m (nx m h))).
Proof.
  intros K. pose proof (intH_nx m V h K) as K1. pose proof (intH_nx m V _ K1) as K2. destruct (three m V TR h K) as (E & _). unfold triLengths.
  rewrite len_ok by apply K. cbn [bind]. rewrite next_live by (auto; apply K). cbn [bind]. rewrite len_ok by apply K1. cbn [bind]. rewrite next_live by (auto; apply K1). cbn [bind].
  rewrite len_ok by apply K2. cbn [bind]. rewrite next_live by (auto; apply K2). cbn [bind]. rewrite E, Z.eqb_refl. reflexivity.
Qed.
(** areas *)
Definition areaH (h : Z) : R := heron (L h) (L (nx m h)) (L (nx m (nx m h))).
Lemma areaH_nx h : intH h -> areaH (nx m h) = areaH h.
Proof. intros K. unfold areaH. destruct (three m V TR h K) as (-> & _). symmetry. apply heron_sym2. Qed.
Lemma areaH_pos h : intH h -> 0 < areaH h. Proof. intros K. apply (heron_sq _ _ _ (tri_at h K)). Qed.
Lemma areaH_face h : intH h -> areaH (fh m (fa m h)) = areaH h.
Proof.
  intros K. destruct (fh_int m V _ (fa_liveF m V h K)) as [K0 F]. destruct (ring3_ok m V TR h K) as [_ R]. destruct (proj2 (R (fh m (fa m h)))) as [E|[E|[E|[]]]].
  - split; auto.
  - rewrite <- E. auto.
  - rewrite <- E. apply areaH_nx; auto.
  - rewrite <- E. rewrite !areaH_nx; auto. apply intH_nx; auto.
Qed.
Lemma area_is h : intH h -> areaAt m len h (areaH h).
Proof.
  intros K. unfold areaAt, areaH. pose proof (tri_at h K) as T. rewrite heron_sym2, heron_sym1, heron_sym2, heron_sym1. 
  replace (heron (L h) (L (nx m h)) (L (nx m (nx m h)))) with (heron (L h) (L (nx m (nx m h))) (L (nx m h))). 2: { rewrite (heron_sym1 (L h) (L (nx m (nx m h)))). rewrite (heron_sym2 (L h)), (heron_sym2 (L (nx m h))). reflexivity. }
  apply area_ok. unfold tri in *. lra.
Qed.
Lemma faceArea_ok f : liveF m f -> faceArea m len f = Ok (areaH (fh m f)).
Proof.
  intros K. destruct (fh_int m V f K) as [K0 F]. unfold faceArea. rewrite fHe_ok. 2: { destruct (liveFL_bnd m V f); [left; auto|]. auto. } cbn [bind]. change (getZ (fHalfedge m) f) with (fh m f). rewrite triLengths_ok by auto. reflexivity.
Qed.
Lemma face_cap e : In e (els m EFace) -> (e < Z.to_nat (fCap m - bFill m))%nat.
Proof. intros K. apply (els_ok m EFace V) in K. cbn in K. pose proof (st_f _ (va_st m V)). destruct K. lia. Qed.
Lemma he_cap h : liveH m h -> (0 <= h < Z.of_nat (Z.to_nat (heCap m)))%Z.
Proof. intros K. pose proof (st_he _ (va_st m V)). destruct K. lia. Qed.
Lemma v_cap v : liveV m v -> (0 <= v < Z.of_nat (Z.to_nat (vCap m)))%Z.
Proof. intros K. pose proof (st_v _ (va_st m V)). destruct K. lia. Qed.
Lemma f_cap f : liveF m f -> (0 <= f < Z.of_nat (Z.to_nat (fCap m - bFill m)))%Z.
Proof. intros K. pose proof (st_f _ (va_st m V)). destruct K. lia. Qed.
Lemma faceAreas_ok : exists d, faceAreas m len = Ok d /\ length (dat d) = Z.to_nat (fCap m - bFill m) /\ (forall h, intH h -> valAt d (fa m h) = areaH h) /\ (forall f, liveF m f -> valAt d f = areaH (fh m f)).
Proof.
  destruct (els_ok m EFace V) as (E & N & _ & I). destruct (newData_R m EFace 0 0) as [NL _].
  destruct (fill_ok 0 (faceArea m len) (fun f => areaH (fh m f)) (els m EFace) (newData m EFace 0) N) as (d & F & Ld & Vd & _).
  { intros e He. rewrite NL. split; [apply face_cap; auto|]. apply faceArea_ok. apply I; auto. }
  exists d. unfold faceAreas. rewrite E. cbn [bind]. split; [exact F|]. split; [rewrite Ld; exact NL|].
  assert (G : forall f, liveF m f -> valAt d f = areaH (fh m f)).
  { intros f K. pose proof (f_cap f K). replace f with (Z.of_nat (Z.to_nat f)) by lia. apply Vd. apply I. cbn. rewrite Z2Nat.id by lia. auto. }
  split; auto. intros h K. rewrite G by (apply fa_liveF; auto). apply areaH_face; auto.
Qed.
(** angles *)
Definition angH (h : Z) : R := angleOf (L h) (L (nx m h)) (L (nx m (nx m h))).
Lemma angH_is h : intH h -> angleAt m len h (angH h).
Proof. intros K. unfold angleAt, angH. apply angle_ok. pose proof (tri_at h K). unfold tri in *. lra. Qed.
Lemma angH_pos h : intH h -> 0 < angH h < PI. Proof. intros K. apply (angH_is h K). Qed.
Lemma angH_sum h : intH h -> angH h + angH (nx m h) + angH (nx m (nx m h)) = PI.
Proof.
  intros K. pose proof (intH_nx m V h K) as K1. destruct (three m V TR h K) as (E & _). unfold angH. rewrite E.
  rewrite <- (angles_sum (L h) (L (nx m (nx m h))) (L (nx m h))); [lra|]. pose proof (tri_at h K). unfold tri in *. lra.
Qed.
Lemma cornerAngle_ok h : intH h -> cornerAngle m len h = Ok (angH h).
Proof. intros K. unfold cornerAngle. rewrite triLengths_ok by auto. reflexivity. Qed.
Lemma cornerAngles_ok : exists d, cornerAngles m len = Ok d /\ length (dat d) = Z.to_nat (heCap m) /\ forall h, intH h -> valAt d h = angH h.
Proof.
  destruct (els_ok m ECorner V) as (E & N & _ & I). destruct (newData_R m ECorner 0 0) as [NL _].
  destruct (fill_ok 0 (cornerAngle m len) angH (els m ECorner) (newData m ECorner 0) N) as (d & F & Ld & Vd & _).
  { intros e He. rewrite NL. apply I in He. pose proof (he_cap _ (proj1 He)). split; [cbn [capacity]; lia|]. apply cornerAngle_ok; auto. }
  exists d. unfold cornerAngles. rewrite E. cbn [bind]. split; [exact F|]. split; [rewrite Ld; exact NL|]. intros h K. pose proof (he_cap _ (proj1 K)).
  replace h with (Z.of_nat (Z.to_nat h)) by lia. apply Vd. apply I. cbn. rewrite Z2Nat.id by lia. exact K.
Qed.
(** angle sums *)
Lemma forEach_map {S} (l : list nat) (s : S) body : forEach l s body = foldM body (map Z.of_nat l) s.
Proof. unfold forEach. revert s. induction l as [|a t IH]; intros s; cbn; auto. destruct (body s (Z.of_nat a)); cbn; auto. Qed.
Lemma sums_ok ang : length (dat ang) = Z.to_nat (heCap m) -> exists d, vertexAngleSums m ang = Ok d /\ length (dat d) = Z.to_nat (vCap m) /\
  forall v, liveV m v -> valAt d v = Rsum (valAt ang) (cornersAt m v).
Proof.
  intros LA. destruct (els_ok m ECorner V) as (E & N & _ & I). destruct (newData_R m EVertex 0 0) as [NL _].
  destruct (acc_ok (fun d c => let* v := vertexOf m c in let* a := dataAt ang c in addAt d v a) (ve m) (valAt ang) (zl m ECorner) (Z.to_nat (vCap m))) with (d := newData m EVertex 0) as (d & F & Ld & Vd); auto.
  - intros h Hh. apply zl_In in Hh; auto. apply v_cap. apply CN. apply Hh.
  - intros d h _ Hh. apply zl_In in Hh; auto. rewrite vertexOf_ok by (destruct (liveH_bnd m V h (proj1 Hh)) as (_ & _ & ? & _); auto). cbn [bind]. rewrite (dataAt_in 0) by (rewrite LA; apply he_cap; apply Hh). reflexivity.
  - exists d. unfold vertexAngleSums. rewrite E. cbn [bind]. rewrite forEach_map. split; [exact F|]. split; auto. intros v Lv. rewrite Vd by (destruct Lv; lia). rewrite valAt_new. unfold cornersAt. lra.
Qed.
Lemma vSum_pos v : liveV m v -> 0 < Rsum angH (cornersAt m v).
Proof.
  intros Lv. apply Rsum_pos.
  - intros K. destruct (cn_vh _ CN v Lv) as [Lh E]. assert (X : ~ ext m (vh m v)). { intros X. 
    assert (exists h, liveH m h /\ ext m (tw h) /\ ve m h = v) as (h & Lh' & X' & E').
    { destruct (prev_ok m V _ Lh) as (p & Lp & Np & Fp & _). exists (tw p). split; [apply CN; auto|]. rewrite tw_tw. split; [unfold ext in *; rewrite Fp; auto|]. rewrite <- (cn_vnx _ CN) by auto. congruence. }
    pose proof (cn_vbd _ CN h Lh' X') as Q. rewrite E' in Q. rewrite Q in X. subst h. destruct (Z.eq_dec (vh m v mod 2) 0) as [M|M].
    - apply (cn_ebd _ CN (vh m v)); auto.
    - apply (cn_ebd _ CN (tw (vh m v))); auto; [apply CN; auto|]. rewrite tw_mod. pose proof (Z.mod_pos_bound (vh m v) 2). lia. }
    assert (In (vh m v) (cornersAt m v)) by (apply cornersAt_ok; auto). rewrite K in H. destruct H.
  - intros h Hh. apply cornersAt_ok in Hh as (A & B & _); auto. apply angH_pos. split; auto.
Qed.
(** scaled angles *)
Lemma scaled_ok ang sums : length (dat ang) = Z.to_nat (heCap m) -> length (dat sums) = Z.to_nat (vCap m) -> exists d, cornerScaledAngles m ang sums = Ok d /\ length (dat d) = Z.to_nat (heCap m) /\
  forall h, intH h -> valAt d h = (if bdb m (ve m h) then PI / valAt sums (ve m h) else 2 * PI / valAt sums (ve m h)) * valAt ang h.
Proof.
  intros LA LS. destruct (els_ok m ECorner V) as (E & N & _ & I). destruct (newData_R m ECorner 0 0) as [NL _].
  set (g := fun h => (if bdb m (ve m h) then PI / valAt sums (ve m h) else 2 * PI / valAt sums (ve m h)) * valAt ang h).
  destruct (fill_ok 0 (fun c => let* v := vertexOf m c in let* b := vIsBoundary m v in let* t := dataAt sums v in let* a := dataAt ang c in Ok ((if b then PI / t else 2 * PI / t) * a)) g (els m ECorner) (newData m ECorner 0) N) as (d & F & Ld & Vd & _).
  { intros e He. rewrite NL. apply I in He. pose proof (he_cap _ (proj1 He)). split; [cbn [capacity]; lia|]. rewrite vertexOf_ok by (destruct (liveH_bnd m V _ (proj1 He)) as (_ & _ & ? & _); auto). cbn [bind].
    pose proof (cn_ve _ CN _ (proj1 He)) as Lv. change (getZ (heVertex m) (Z.of_nat e)) with (ve m (Z.of_nat e)). rewrite vIsB by auto. cbn [bind]. rewrite (dataAt_in 0) by (rewrite LS; apply v_cap; auto). cbn [bind].
    rewrite (dataAt_in 0) by (rewrite LA; apply he_cap; apply He). reflexivity. }
  exists d. unfold cornerScaledAngles. rewrite E. cbn [bind]. split.
  { rewrite <- F. apply foldM_same. intros s a. destruct (vertexOf m (Z.of_nat a)) as [v| |]; auto. cbn [bind]. destruct (vIsBoundary m v) as [b| |]; auto. cbn [bind].
    destruct (dataAt sums v) as [t| |]; auto. cbn [bind]. destruct (dataAt ang (Z.of_nat a)) as [x| |]; auto. }
  split; [rewrite Ld; exact NL|]. intros h K. pose proof (he_cap _ (proj1 K)). replace h with (Z.of_nat (Z.to_nat h)) by lia. apply Vd. apply I. cbn. rewrite Z2Nat.id by lia. exact K.
Qed.
End M.
