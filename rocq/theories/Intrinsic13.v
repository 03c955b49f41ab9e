From Coq Require Import Reals Lra Permutation.
From Verif Require Import Base DataModel DataSpec DataProofs MeshModel MeshSpec MeshBase MeshExec MeshOrbit MeshOpSpec MeshFlip MeshThms MeshSplit MeshHistorySpec MeshHistory MeshDataModel CollapseProofs CountSpec
  MatrixModel MatrixSpec MatrixProofs GeoModel IntrinsicModel IntrinsicSpec TangentSpec Intrinsic1 Intrinsic2 Intrinsic3 Intrinsic4 Intrinsic5 Intrinsic7 Intrinsic8 Intrinsic9 Intrinsic11.
Open Scope R_scope.
Lemma Csum_ext {A} (f g : A -> V2) l : (forall a, In a l -> f a = g a) -> Csum f l = Csum g l.
Proof. intros H. unfold Csum. f_equal; apply Rsum_ext; intros a Ha; rewrite H; auto. Qed.
Section Conn.
Context (m : mesh) (V : Valid m) (k : ekind) (hs : list Z) (a : Z -> Z) (W : Z -> R) (r : Z -> V2) (E : Z -> Z -> V2).
Hypothesis (ND : NoDup hs) (TW : forall h, In h hs -> In (tw h) hs) (LA : forall h, In h hs -> liveE m k (a h)) (WT : forall h, W (tw h) = W h)
  (RU : forall h, In h hs -> norm2_2 (r h) = 1) (RC : forall h, In h hs -> r (tw h) = conj2 (r h)).
Definition trips : list (ztrip V2) := flat_map (fun h => [(a h, a h, mk2 (W h) 0); (a h, a (tw h), mul2 (r (tw h)) (- W h))]) hs.
Lemma trips_live t : In t trips -> liveE m k (fst (fst t)) /\ liveE m k (snd (fst t)).
Proof. intros I. apply in_flat_map in I as (h & Hh & I). destruct I as [<-|[<-|[]]]; cbn; auto. Qed.
Hypothesis (SX : forall u v, liveE m k u -> liveE m k v -> px (E u v) = Rsum (fun t => if ((fst (fst t) =? u) && (snd (fst t) =? v))%Z then px (snd t) else 0) trips).
Hypothesis (SY : forall u v, liveE m k u -> liveE m k v -> py (E u v) = Rsum (fun t => if ((fst (fst t) =? u) && (snd (fst t) =? v))%Z then py (snd t) else 0) trips).
Lemma flip_sum (f : Z -> R) : Rsum f hs = Rsum (fun h => f (tw h)) hs.
Proof. symmetry. apply Rsum_bij; auto. intros x y _ _ Q. rewrite <- (tw_tw x), <- (tw_tw y), Q. reflexivity. Qed.
Lemma sumX u v : liveE m k u -> liveE m k v -> px (E u v) = Rsum (fun h => if ((a h =? u) && (a h =? v))%Z then W h else 0) hs + Rsum (fun h => if ((a h =? u) && (a (tw h) =? v))%Z then px (r (tw h)) * - W h else 0) hs.
Proof. intros Lu Lv. rewrite SX by auto. unfold trips. rewrite Rsum_flat_map, <- Rsum_plus. apply Rsum_ext. intros h _. rewrite !Rsum_cons, Rsum_nil. cbn [fst snd px py mul2]. ring. Qed.
Lemma sumY u v : liveE m k u -> liveE m k v -> py (E u v) = Rsum (fun h => if ((a h =? u) && (a (tw h) =? v))%Z then py (r (tw h)) * - W h else 0) hs.
Proof. intros Lu Lv. rewrite SY by auto. unfold trips. rewrite Rsum_flat_map. apply Rsum_ext. intros h _. rewrite !Rsum_cons, Rsum_nil. cbn [fst snd px py mul2]. destruct ((a h =? u) && (a h =? v))%Z; ring. Qed.
Lemma conn_herm u v : liveE m k u -> liveE m k v -> E u v = conj2 (E v u).
Proof.
  intros Lu Lv. apply V2_eq; cbn [px py conj2].
  - rewrite !sumX by auto. f_equal; [apply Rsum_ext; intros h _; rewrite andb_comm; reflexivity|]. rewrite flip_sum. apply Rsum_ext. intros h Hh. rewrite tw_tw, WT, andb_comm. rewrite RC by auto. reflexivity.
  - rewrite !sumY by auto. rewrite flip_sum. replace (- Rsum (fun h => if ((a h =? v) && (a (tw h) =? u))%Z then py (r (tw h)) * - W h else 0) hs) with (-1 * Rsum (fun h => if ((a h =? v) && (a (tw h) =? u))%Z then py (r (tw h)) * - W h else 0) hs) by ring.
    rewrite <- Rsum_scal. apply Rsum_ext. intros h Hh. rewrite tw_tw, WT, andb_comm, RC by auto. cbn [conj2 py]. destruct ((a h =? v) && (a (tw h) =? u))%Z; ring.
Qed.
Definition step (x : Z -> V2) (h : Z) : V2 := mul2 (sub2 (x (a h)) (cmul (r (tw h)) (x (a (tw h))))) (W h).
Lemma part (f : V2 -> R) (y : Z -> R) u : liveE m k u -> (forall u v, liveE m k u -> liveE m k v -> f (E u v) = Rsum (fun t => if ((fst (fst t) =? u) && (snd (fst t) =? v))%Z then f (snd t) else 0) trips) ->
  Rsum (fun v => f (E u v) * y v) (zl m k) = Rsum (fun h => if (a h =? u)%Z then f (mk2 (W h) 0) * y (a h) + f (mul2 (r (tw h)) (- W h)) * y (a (tw h)) else 0) hs.
Proof.
  intros Lu S. rewrite (zaction m V k k (map (fun t : ztrip V2 => (fst t, f (snd t))) trips) (fun u v => f (E u v)) y u); auto.
  - rewrite Rsum_map. unfold trips. rewrite Rsum_flat_map. apply Rsum_ext. intros h _. rewrite !Rsum_cons, Rsum_nil. cbn [fst snd]. destruct (a h =? u)%Z; ring.
  - intros t I. apply in_map_iff in I as (t' & <- & I). cbn. apply trips_live. auto.
  - intros b c Lb Lc. rewrite S by auto. rewrite Rsum_map. reflexivity.
Qed.
Lemma conn_action (x : Z -> V2) u : liveE m k u -> Csum (fun v => cmul (E u v) (x v)) (zl m k) = Csum (step x) (filter (fun h => (a h =? u)%Z) hs).
Proof.
  intros Lu. unfold Csum. f_equal; cbn [cmul px py].
  - rewrite Rsum_minus, (part px), (part py) by auto. rewrite <- Rsum_minus, <- Rsum_if. apply Rsum_ext. intros h _. destruct (a h =? u)%Z; [|ring]. unfold step. cbn [px py mul2 sub2 cmul]. ring.
  - rewrite Rsum_plus, (part px), (part py) by auto. rewrite <- Rsum_plus, <- Rsum_if. apply Rsum_ext. intros h _. destruct (a h =? u)%Z; [|ring]. unfold step. cbn [px py mul2 sub2 cmul]. ring.
Qed.
Definition gap (x : Z -> V2) (h : Z) : R := norm2_2 (sub2 (x (a h)) (cmul (r (tw h)) (x (a (tw h))))).
Lemma dot_sum {A} (u : V2) (f : A -> V2) l : dot2 u (Csum f l) = Rsum (fun h => dot2 u (f h)) l.
Proof. unfold dot2, Csum. cbn [px py]. rewrite Rsum_plus, !Rsum_scal. reflexivity. Qed.
Lemma conn_energy (x : Z -> V2) : 2 * Rsum (fun u => dot2 (x u) (Csum (fun v => cmul (E u v) (x v)) (zl m k))) (zl m k) = Rsum (fun h => W h * gap x h) hs.
Proof.
  rewrite (Rsum_ext _ (fun u => Rsum (fun h => dot2 (x (a h)) (step x h)) (filter (fun h => (a h =? u)%Z) hs))).
  - rewrite <- (Rsum_fiber Z.eqb zE a); [|apply zl_NoDup; auto|intros h Hh; apply zl_In; auto].
    replace (2 * Rsum (fun h => dot2 (x (a h)) (step x h)) hs) with (Rsum (fun h => dot2 (x (a h)) (step x h)) hs + Rsum (fun h => dot2 (x (a h)) (step x h)) hs) by ring. rewrite (flip_sum (fun h => dot2 (x (a h)) (step x h))) at 2. rewrite <- Rsum_plus. apply Rsum_ext.
    intros h Hh. unfold step, gap. rewrite tw_tw, WT. pose proof (RU h Hh) as U. rewrite (RC h Hh). unfold dot2, norm2_2 in *. cbn [px py mul2 sub2 cmul conj2]. 
    set (p := x (a h)). set (q := x (a (tw h))). set (c := px (r h)) in *. set (s := py (r h)) in *.
    transitivity (W h * (px p * px p + py p * py p + (c * c + s * s) * (px q * px q + py q * py q) - 2 * (px p * (c * px q + s * py q) + py p * (c * py q - s * px q)))); [rewrite U; ring|ring].
  - intros u Hu. apply zl_In in Hu; auto. rewrite conn_action by auto. rewrite dot_sum. apply Rsum_ext. intros h Hh. apply filter_In in Hh as [_ Q]. apply Z.eqb_eq in Q. rewrite Q. reflexivity.
Qed.
Lemma gap_nonneg x h : 0 <= gap x h.
Proof. unfold gap, norm2_2. apply Rplus_le_le_0_compat; apply Rle_0_sqr. Qed.
Lemma gap_zero x h : gap x h = 0 <-> x (a h) = cmul (r (tw h)) (x (a (tw h))).
Proof.
  unfold gap. set (q := cmul _ _). split.
  - intros Z. unfold norm2_2 in Z. apply Rplus_sqr_eq_0 in Z as [Z1 Z2]. cbn [px py sub2] in *. apply V2_eq; lra.
  - intros ->. unfold norm2_2. cbn [px py sub2]. ring.
Qed.
Lemma conn_psd x : (forall h, In h hs -> 0 <= W h) -> 0 <= Rsum (fun u => dot2 (x u) (Csum (fun v => cmul (E u v) (x v)) (zl m k))) (zl m k).
Proof. intros P. pose proof (conn_energy x) as Q. assert (0 <= Rsum (fun h => W h * gap x h) hs) by (apply Rsum_nonneg; intros h Hh; apply Rmult_le_pos; [auto|apply gap_nonneg]). lra. Qed.
Lemma conn_kernel x : (forall h, In h hs -> 0 < W h) -> (Rsum (fun u => dot2 (x u) (Csum (fun v => cmul (E u v) (x v)) (zl m k))) (zl m k) = 0 <-> forall h, In h hs -> x (a h) = cmul (r (tw h)) (x (a (tw h)))).
Proof.
  intros P. pose proof (conn_energy x) as Q. split.
  - intros Z h Hh. apply gap_zero. assert (Z' : Rsum (fun h => W h * gap x h) hs = 0) by lra. assert (PN : forall h, In h hs -> 0 <= W h * gap x h) by (intros; apply Rmult_le_pos; [apply Rlt_le; auto|apply gap_nonneg]).
    pose proof (Rsum_zero_inv _ _ PN Z' h Hh) as Q0. cbv beta in Q0. specialize (P h Hh). apply Rmult_integral in Q0 as [Q0|Q0]; auto. lra.
  - intros H. assert (Rsum (fun h => W h * gap x h) hs = 0); [|lra]. apply Rsum_zero. intros h Hh. rewrite (proj2 (gap_zero x h)) by auto. ring.
Qed.
End Conn.
Lemma zsparse2 m (V : Valid m) k zt : (forall t, In t zt -> liveE m k (fst (fst t)) /\ liveE m k (snd (fst t))) ->
  exists M, fromTriplets add2 (Z.to_nat (nElements m k)) (Z.to_nat (nElements m k)) (map (toTrip m k k) zt) = Ok M /\ rows M = Z.to_nat (nElements m k) /\ cols M = Z.to_nat (nElements m k) /\
  (forall u v, liveE m k u -> liveE m k v -> px (entryAt (mk2 0 0) m k k M u v) = Rsum (fun t => if ((fst (fst t) =? u) && (snd (fst t) =? v))%Z then px (snd t) else 0) zt) /\
  (forall u v, liveE m k u -> liveE m k v -> py (entryAt (mk2 0 0) m k k M u v) = Rsum (fun t => if ((fst (fst t) =? u) && (snd (fst t) =? v))%Z then py (snd t) else 0) zt).
Proof.
  intros H. destruct (zsparse m V add2 (mk2 0 0) px (fun _ _ => eq_refl) eq_refl k k zt H) as (M & E & R & C & S). destruct (zsparse m V add2 (mk2 0 0) py (fun _ _ => eq_refl) eq_refl k k zt H) as (M' & E' & _ & _ & S'). rewrite E in E'. injection E' as <-. exists M. auto.
Qed.
Section M.
Context (m : mesh) (V : Valid m) (TR : triangular m).
Let CN := va_cn m V.
Lemma vconn_ok w tr : length (dat w) = Z.to_nat (eCap m) -> length (dat tr) = Z.to_nat (heCap m) -> exists M, vertexConnectionLaplacian m w tr = Ok M /\ rows M = Z.to_nat (nVertices m) /\ cols M = Z.to_nat (nVertices m) /\
  (forall u v, liveV m u -> liveV m v -> px (entryAt (mk2 0 0) m EVertex EVertex M u v) = Rsum (fun t => if ((fst (fst t) =? u) && (snd (fst t) =? v))%Z then px (snd t) else 0) (trips (zl m EHalfedge) (ve m) (fun h => valAt w (edge h)) (vecAt tr))) /\
  (forall u v, liveV m u -> liveV m v -> py (entryAt (mk2 0 0) m EVertex EVertex M u v) = Rsum (fun t => if ((fst (fst t) =? u) && (snd (fst t) =? v))%Z then py (snd t) else 0) (trips (zl m EHalfedge) (ve m) (fun h => valAt w (edge h)) (vecAt tr))).
Proof.
  intros LW LTr. destruct (indices_ok m V EVertex) as (vi & EI & _ & HI); [left; auto|]. destruct (els_ok m EHalfedge V) as (E & N & _ & I). unfold vertexConnectionLaplacian. rewrite EI. cbn [bind]. rewrite E. cbn [bind]. rewrite forEach_map. fold (zl m EHalfedge).
  rewrite (foldM_gather _ (fun h => map (toTrip m EVertex EVertex) [(ve m h, ve m h, mk2 (valAt w (edge h)) 0); (ve m h, ve m (tw h), mul2 (vecAt tr (tw h)) (- valAt w (edge h)))])).
  2: { intros acc h Hh. apply zl_In in Hh; auto. cbn [liveE] in Hh. pose proof (cn_nx _ CN _ Hh) as K1. pose proof (cn_tw _ CN h Hh) as KT. unfold tailOf, headOf. rewrite vertexOf_ok by (destruct (liveH_bnd m V _ Hh) as (_ & _ & ? & _); auto). cbn [bind]. change (getZ (heVertex m) h) with (ve m h). rewrite (proj1 (HI _ (cn_ve _ CN _ Hh))). cbn [bind].
       rewrite next_live by auto. cbn [bind]. rewrite vertexOf_ok by (destruct (liveH_bnd m V _ K1) as (_ & _ & ? & _); auto). cbn [bind]. change (getZ (heVertex m) (nx m h)) with (ve m (nx m h)). rewrite (proj1 (HI _ (cn_ve _ CN _ K1))). cbn [bind].
       rewrite (dataAt_in 0) by (rewrite LW; apply e_cap; auto; apply edge_live; auto). cbn [bind]. rewrite (dataAt_in (mk2 0 0)) by (rewrite LTr; apply (he_cap m V); auto). cbn [bind]. rewrite (cn_vnx _ CN) by auto. reflexivity. }
  cbn [bind app]. rewrite <- map_flat. change (nVertices m) with (nElements m EVertex). apply zsparse2; auto. apply trips_live.
  - intros h Hh. apply zl_In in Hh; auto. apply zl_In; auto. apply (cn_tw _ CN). auto.
  - intros h Hh. apply zl_In in Hh; auto. apply (cn_ve _ CN). auto.
Qed.
Definition innerH : list Z := filter (fun h => negb (extb m h) && negb (extb m (tw h))) (zl m EHalfedge).
Lemma innerH_In h : In h innerH <-> liveH m h /\ ~ ext m h /\ ~ ext m (tw h).
Proof. unfold innerH. rewrite filter_In, zl_In by auto. cbn [liveE]. rewrite andb_true_iff, !negb_true_iff. pose proof (extb_spec m h). pose proof (extb_spec m (tw h)). destruct (extb m h), (extb m (tw h)); intuition congruence. Qed.
Lemma innerH_tw h : In h innerH -> In (tw h) innerH.
Proof. rewrite !innerH_In, tw_tw. intros (A & B & C). split; auto. apply (cn_tw _ CN). auto. Qed.
Definition fPart (tr : mdata V2) (f : Z) : list (ztrip V2) :=
  map (fun h => (f, fa m (tw h), mul2 (vecAt tr (tw h)) (-1))) (filter (fun h => negb (extb m (tw h))) (ring3 m (fh m f))) ++ [(f, f, mk2 (Rsum (fun _ => 1) (filter (fun h => negb (extb m (tw h))) (ring3 m (fh m f)))) 0)].
Lemma fconn_ok tr : length (dat tr) = Z.to_nat (heCap m) -> exists M, faceConnectionLaplacian m tr = Ok M /\ rows M = Z.to_nat (nFaces m) /\ cols M = Z.to_nat (nFaces m) /\
  (forall u v, liveF m u -> liveF m v -> px (entryAt (mk2 0 0) m EFace EFace M u v) = Rsum (fun t => if ((fst (fst t) =? u) && (snd (fst t) =? v))%Z then px (snd t) else 0) (trips innerH (fa m) (fun _ => 1) (vecAt tr))) /\
  (forall u v, liveF m u -> liveF m v -> py (entryAt (mk2 0 0) m EFace EFace M u v) = Rsum (fun t => if ((fst (fst t) =? u) && (snd (fst t) =? v))%Z then py (snd t) else 0) (trips innerH (fa m) (fun _ => 1) (vecAt tr))).
Proof.
  intros LTr. destruct (indices_ok m V EFace) as (fi & EI & _ & HI); [right; right; auto|]. destruct (els_ok m EFace V) as (E & N & _ & I). unfold faceConnectionLaplacian. rewrite EI. cbn [bind]. rewrite E. cbn [bind]. rewrite forEach_map. fold (zl m EFace).
  assert (LX : forall h, intH m h -> ~ ext m (tw h) -> liveF m (fa m (tw h))) by (intros h K X; apply (fa_liveF m V); split; auto; apply (cn_tw _ CN), K).
  rewrite (foldM_gather _ (fun f => map (toTrip m EFace EFace) (fPart tr f))).
  2: { intros acc f Hf. apply zl_In in Hf; auto. cbn [liveE] in Hf. rewrite (proj1 (HI _ Hf)). cbn [bind]. destruct (fh_int m V f Hf) as [K0 F0]. rewrite ring3_face by auto. cbn [bind].
       assert (G : forall l, (forall h, In h l -> intH m h) -> forall acc s, foldM (fun (st : list (nat * nat * V2) * R) h => let (l, s) := st in
          let* b := isInterior m (tw h) in if negb b then Ok (l, s) else let* g := faceOf m (tw h) in let* j := dataAt fi g in let* r := dataAt tr (tw h) in Ok (l ++ [(indexOf m EFace f, j, mul2 r (-1))], (s + 1)%R)) l (acc, s) =
          Ok (acc ++ map (toTrip m EFace EFace) (map (fun h => (f, fa m (tw h), mul2 (vecAt tr (tw h)) (-1))) (filter (fun h => negb (extb m (tw h))) l)), s + Rsum (fun _ => 1) (filter (fun h => negb (extb m (tw h))) l))).
       { clear acc. induction l as [|h l IH]; intros HL acc s; cbn [foldM filter map]; [rewrite app_nil_r, Rsum_nil, Rplus_0_r; reflexivity|]. pose proof (HL h (or_introl eq_refl)) as K. pose proof (cn_tw _ CN h (proj1 K)) as KT.
         rewrite isInterior_ok by auto. cbn [bind]. change (fFill m <=? fa m (tw h))%Z with (extb m (tw h)). destruct (extb m (tw h)) eqn:X; cbn [negb bind]; [apply IH; intros; apply HL; right; auto|].
         assert (XT : ~ ext m (tw h)) by (apply (not_ext m); auto). rewrite (faceOf_int m V) by (split; auto). cbn [bind]. rewrite (proj1 (HI _ (LX h K XT))). cbn [bind]. rewrite (dataAt_in (mk2 0 0)) by (rewrite LTr; apply (he_cap m V); auto). cbn [bind].
         rewrite IH by (intros; apply HL; right; auto). rewrite <- app_assoc. cbn [map app]. rewrite Rsum_cons. f_equal. f_equal. ring. }
       rewrite G by (intros h Hh; apply (ring3_ok m V TR) in Hh; [apply Hh|auto]). cbn [bind]. unfold fPart. rewrite map_app, app_assoc. cbn [map]. unfold toTrip at 3. cbn [fst snd]. rewrite Rplus_0_l. reflexivity. }
  cbn [bind app]. rewrite <- map_flat. change (nFaces m) with (nElements m EFace).
  assert (EQ : forall (g : V2 -> R) u v, (exists c0, forall c, g (mk2 c 0) = c * c0) -> Rsum (fun t => if ((fst (fst t) =? u) && (snd (fst t) =? v))%Z then g (snd t) else 0) (flat_map (fPart tr) (zl m EFace)) = Rsum (fun t => if ((fst (fst t) =? u) && (snd (fst t) =? v))%Z then g (snd t) else 0) (trips innerH (fa m) (fun _ => 1) (vecAt tr))).
  { intros g u v (c0 & Hg). unfold trips. rewrite !Rsum_flat_map. symmetry.
    set (F := fun h => (if ((fa m h =? u) && (fa m h =? v))%Z then c0 else 0) + (if ((fa m h =? u) && (fa m (tw h) =? v))%Z then g (mul2 (vecAt tr (tw h)) (-1)) else 0)).
    rewrite (Rsum_ext _ F). 2: { intros h _. rewrite !Rsum_cons, Rsum_nil. cbn [fst snd]. rewrite Hg. unfold F. replace (- (1)) with (-1) by ring. destruct ((fa m h =? u) && (fa m h =? v))%Z; ring. }
    transitivity (Rsum (fun h => if negb (extb m (tw h)) then F h else 0) (zl m ECorner)).
    - rewrite Rsum_if. apply Rsum_set; [apply filter_NoDup, zl_NoDup; auto|apply filter_NoDup, zl_NoDup; auto|]. intros h. rewrite innerH_In, filter_In, zl_In by auto. cbn [liveE]. rewrite negb_true_iff. pose proof (extb_spec m (tw h)). destruct (extb m (tw h)); intuition congruence.
    - rewrite (sum_faces m V TR). apply Rsum_ext. intros f Hf. apply zl_In in Hf; auto. destruct (fh_int m V f Hf) as [K0 F0]. rewrite Rsum_if. unfold fPart. rewrite Rsum_app, Rsum_map, Rsum_cons, Rsum_nil. cbn [fst snd]. rewrite Hg.
      rewrite (Rsum_ext F (fun h => (if ((f =? u) && (f =? v))%Z then c0 else 0) * 1 + (if ((f =? u) && (fa m (tw h) =? v))%Z then g (mul2 (vecAt tr (tw h)) (-1)) else 0))).
      + rewrite Rsum_plus, Rsum_scal. destruct ((f =? u) && (f =? v))%Z; ring.
      + intros h Hh. apply filter_In in Hh as [Hh _]. apply (ring3_ok m V TR) in Hh as [_ Q]; auto. unfold F. rewrite Q, F0. ring. }
  destruct (zsparse2 m V EFace (flat_map (fPart tr) (zl m EFace))) as (M & EM & R & C & SX & SY).
  - intros t It. apply in_flat_map in It as (f & Hf & It). apply zl_In in Hf; auto. destruct (fh_int m V f Hf) as [K0 F0]. unfold fPart in It. apply in_app_or in It as [It|[<-|[]]]; [|auto]. apply in_map_iff in It as (h & <- & Hh). cbn [fst snd]. split; auto. apply filter_In in Hh as [Hh X]. apply LX; [apply (ring3_ok m V TR) in Hh; [apply Hh|auto]|]. apply (not_ext m). destruct (extb m (tw h)); auto; discriminate.
  - exists M. split; [exact EM|]. split; auto. split; auto. split; intros u v Lu Lv.
    + rewrite SX by auto. apply EQ; auto. exists 1. intros; cbn; ring.
    + rewrite SY by auto. apply EQ; auto. exists 0. intros; cbn; ring.
Qed.
End M.
