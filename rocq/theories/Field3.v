From Coq Require Import Reals Lra Permutation.
From Verif Require Import Base DataModel DataSpec DataProofs MeshModel MeshModel2 MeshSpec MeshBase MeshExec MeshOrbit MeshOpSpec MeshFlip MeshThms MeshConnect MeshSplit MeshHistorySpec MeshHistory MeshDataModel CollapseModel CollapseProofs CountSpec
  MatrixModel GeoModel GeoVec IntrinsicModel IntrinsicSpec TangentSpec EmbeddedModel EmbeddedSpec FrameModel FrameSpec FieldModel FieldSpec Intrinsic1 Intrinsic2 Intrinsic3 Intrinsic4 Intrinsic5 Intrinsic6 Intrinsic7 Intrinsic8 Intrinsic11 Intrinsic12 Intrinsic13 Intrinsic14 Embedded1 Frame1 Field1 Field2.
Open Scope R_scope.
Section M.
Context (m : mesh) (V : Valid m) (TR : triangular m) (len : mdata R) (MT : Metric m len).
Let CN := va_cn m V.
Local Notation intH := (intH m).
Local Notation L := (lh len).
Lemma lh_tw h : L (tw h) = L h. Proof. unfold lh. rewrite tw_edge. reflexivity. Qed.
(** ** transport around a face *)
Lemma face_holonomy C vec tr : (forall v, liveV m v -> Rsum (valAt C) (cornersAt m v) = turn m v) ->
  (forall h, liveH m h -> at_ (mk2 0 0) vec h = vecV m len C h) -> (forall h, liveH m h -> rotates (vecAt vec) (vecAt tr) h) ->
  forall f, liveF m f -> eqm (Rsum (fun h => arg2 (vecAt tr h)) (ring3 m (fh m f))) (Rsum (valAt C) (ring3 m (fh m f)) - PI).
Proof.
  intros SC HV RO f Lf. destruct (fh_int m V f Lf) as [K0 _]. set (h0 := fh m f) in *.
  assert (A : forall h, liveH m h -> eqm (arg2 (vecAt vec h)) (theta m C h) /\ vecAt vec h <> mk2 0 0).
  { intros h K. pose proof (mt_pos m len MT h K) as P. unfold vecAt. rewrite HV by auto. split; [apply arg_eqm; auto|]. apply (norm_ne _ (L h)); auto. apply (vecV_norm m len C h K). }
  assert (S : forall h, intH h -> eqm (theta m C (tw h)) (theta m C (nx m h) + valAt C (nx m h))).
  { intros h K. pose proof (intH_nx m V h K) as K1. destruct (three m V TR h K) as (E3 & _). destruct (theta_step m V TR C SC (nx m h) K1) as [E|[E1 E2]].
    - replace (tw h) with (ccw m (nx m h)) by (unfold ccw; rewrite E3; reflexivity). rewrite E. apply eqm_refl.
    - assert (T : ccw m (nx m h) = tw h) by (unfold ccw; rewrite E3; reflexivity). rewrite E2. rewrite <- T, E1. rewrite (theta_first m V C) by (apply CN, K1). apply eqm_sym. exists 1%Z. cbn. lra. }
  assert (R : forall h, intH h -> eqm (arg2 (vecAt tr h)) (theta m C (nx m h) + valAt C (nx m h) + PI - theta m C h)).
  { intros h K. destruct (RO h (proj1 K)) as (U & E & _). destruct (A h (proj1 K)) as [A1 A2]. destruct (A (tw h) (cn_tw _ CN h (proj1 K))) as [B1 B2]. eapply eqm_trans; [apply (rot_eqm _ _ _ U A2 B2 E)|].
    apply eqm_minus; auto. apply eqm_plus; [|apply eqm_refl]. eapply eqm_trans; [exact B1|]. apply S; auto. }
  eapply eqm_trans; [apply eqm_sum; intros h Hh; apply R; apply (ring3_ok m V TR) in Hh; auto; apply Hh|]. destruct (three m V TR h0 K0) as (E3 & _). rewrite !sum_ring3, E3. exists 2%Z. cbn. lra.
Qed.
(** ** transport around a vertex *)
Lemma arrive_int v h : liveV m v -> ~ onBoundary m v -> liveH m h -> ve m (tw h) = v -> intH h /\ intH (tw h).
Proof.
  intros Lv NB K E. pose proof (cn_tw _ CN h K) as KT. split; split; auto; intros X; apply NB; [exists (nx m h)|exists (tw h); auto]. split; [apply CN; auto|]. split; [rewrite (cn_vnx _ CN) by auto; auto|]. rewrite (ext_nx m V) by auto. auto.
Qed.
Definition sweep (h : Z) : Z := nx m (nx m (tw h)).
Lemma sweep_bij v l : liveV m v -> ~ onBoundary m v -> arriving m v l -> forall g : Z -> R, Rsum (fun h => g (sweep h)) l = Rsum g l.
Proof.
  intros Lv NB [ND I] g. apply (Rsum_bij sweep g); auto.
  - intros h Hh. apply I in Hh as [K E]. destruct (arrive_int v h Lv NB K E) as [KI KT]. pose proof (intH_nx m V _ KT) as K1. pose proof (intH_nx m V _ K1) as K2. apply I. split; [apply K2|]. unfold sweep. rewrite <- (cn_vnx _ CN) by apply K2.
    destruct (three m V TR _ KT) as (E3 & _). rewrite E3. auto.
  - intros a b Ha Hb E. apply I in Ha as [Ka _]. apply I in Hb as [Kb _]. unfold sweep in E. pose proof (cn_tw _ CN a Ka) as La. pose proof (cn_tw _ CN b Kb) as Lb. apply (cn_inj _ CN) in E; try (apply CN; auto). apply (cn_inj _ CN) in E; auto. rewrite <- (tw_tw a), E, tw_tw. reflexivity.
Qed.
Lemma vertex_holonomy vec tr : (forall h, intH h -> at_ (mk2 0 0) vec h = vecF m len h) -> (forall h, liveH m h -> ~ ext m h -> ~ ext m (tw h) -> rotates (vecAt vec) (vecAt tr) h) ->
  forall v l, liveV m v -> ~ onBoundary m v -> arriving m v l -> eqm (Rsum (fun h => arg2 (vecAt tr h)) l) (2 * PI - Rsum (angH m len) (cornersAt m v)).
Proof.
  intros HV RO v l Lv NB AR. pose proof AR as [ND I].
  assert (A : forall h, intH h -> vecAt vec h <> mk2 0 0). { intros h K. unfold vecAt. rewrite HV by auto. apply (norm_ne _ (L h)); [apply MT, K|]. apply (vecF_spec m V TR len MT h K). }
  assert (S : forall g, intH g -> eqm (arg2 (vecAt vec (nx m (nx m g)))) (arg2 (vecAt vec g) + angH m len g + PI)).
  { intros g K. pose proof (intH_nx m V g K) as K1. pose proof (intH_nx m V _ K1) as K2. destruct (vecF_spec m V TR len MT g K) as (N0 & SU & CR). pose proof (proj1 (vecF_spec m V TR len MT _ K1)) as N1. pose proof (proj1 (vecF_spec m V TR len MT _ K2)) as N2.
    pose proof (angH_is m V TR len MT g K) as AN. destruct (area_is m V TR len MT g K) as (t & AT & AE). assert (t = angH m len g) as -> by (apply (isAngle_unique (L g) (L (nx m (nx m g))) (L (nx m g))); auto; apply MT; [apply K|apply K2]).
    unfold vecAt. rewrite !HV by auto. apply (corner_eqm _ (vecF m len (nx m g)) _ (L g) (L (nx m (nx m g))) (L (nx m g)) _ (areaH m len g)); auto; apply MT; [apply K|apply K2]. }
  assert (R : forall h, In h l -> eqm (arg2 (vecAt tr h)) (arg2 (vecAt vec (sweep h)) - angH m len (tw h) - arg2 (vecAt vec h))).
  { intros h Hh. apply I in Hh as [K E]. destruct (arrive_int v h Lv NB K E) as [KI KT]. destruct (RO h K (proj2 KI) (proj2 KT)) as (U & Q & _). eapply eqm_trans; [apply (rot_eqm _ _ _ U (A h KI) (A _ KT) Q)|].
    apply eqm_minus; [|apply eqm_refl]. eapply eqm_trans; [|apply eqm_minus; [apply eqm_sym, (S _ KT)|apply eqm_refl]]. apply eqm_eq. ring. }
  eapply eqm_trans; [apply eqm_sum; exact R|]. rewrite !Rsum_minus. rewrite (sweep_bij v l Lv NB AR (fun h => arg2 (vecAt vec h))).
  replace (Rsum (fun h => angH m len (tw h)) l) with (Rsum (angH m len) (cornersAt m v)).
  - exists (-1)%Z. cbn. lra.
  - rewrite <- (Rsum_map tw (angH m len) l). apply Rsum_set; [apply cornersAt_ok; auto|apply FinFun.Injective_map_NoDup; auto; intros a b E; rewrite <- (tw_tw a), E, tw_tw; reflexivity|]. intros g. destruct (cornersAt_ok m V v) as [_ J]. rewrite J, in_map_iff. split.
    + intros (K & X & E). exists (tw g). rewrite tw_tw. split; auto. apply I. rewrite tw_tw. split; auto. apply CN; auto.
    + intros (h & <- & Hh). apply I in Hh as [K E]. destruct (arrive_int v h Lv NB K E) as [KI [K1 K2]]. auto.
Qed.
(** ** totals over a closed surface *)
Lemma edge_total (dl : Z -> R) opp : (forall h, liveH m h -> dl (tw h) + dl h = if Req_EM_T (dl h) (- PI) then - (2 * PI) else 0) -> NoDup opp -> (forall e, In e opp <-> liveE m EEdge e /\ dl (eHe e) = - PI) ->
  Rsum dl (zl m EHalfedge) = - (2 * PI) * INR (length opp).
Proof.
  intros H ND I. rewrite (sum_edges m V). rewrite (Rsum_ext _ (fun e => if (fun e => if Req_EM_T (dl (eHe e)) (- PI) then true else false) e then - (2 * PI) else 0)).
  - rewrite Rsum_if, Rsum_const. f_equal. f_equal. apply Permutation_length, NoDup_Permutation; auto; [apply filter_NoDup, zl_NoDup; auto|]. intros e. rewrite filter_In, zl_In, I by auto. destruct (Req_EM_T (dl (eHe e)) (- PI)); intuition congruence.
  - intros e He. apply zl_In in He; auto. rewrite Rplus_comm. rewrite H by auto. cbv beta. destruct (Req_EM_T (dl (eHe e)) (- PI)); reflexivity.
Qed.
End M.
