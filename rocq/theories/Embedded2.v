From Coq Require Import Reals Lra Permutation.
From Verif Require Import Base DataModel DataSpec DataProofs MeshModel MeshSpec MeshBase MeshExec MeshOrbit MeshOpSpec MeshFlip MeshThms MeshSplit MeshHistorySpec MeshHistory MeshDataModel CollapseProofs CountSpec
  MatrixModel MatrixSpec MatrixProofs GeoModel IntrinsicModel IntrinsicSpec Intrinsic1 Intrinsic2 Intrinsic3 Intrinsic4 Intrinsic5 Intrinsic6 Intrinsic7 Intrinsic8 Intrinsic9 Intrinsic11 EmbeddedModel EmbeddedSpec Embedded1.
Open Scope R_scope.
Lemma nodup_map {A B} (f : A -> B) l : (forall x y, In x l -> In y l -> f x = f y -> x = y) -> NoDup l -> NoDup (map f l).
Proof.
  induction l as [|a t IH]; intros H N; cbn [map]; constructor; inversion N as [|? ? N1 N2]; subst.
  - intros I. apply in_map_iff in I as (y & Q & Hy). apply N1. rewrite <- (H y a); auto; [right; auto|left; auto].
  - apply IH; auto. intros x y Hx Hy. apply H; right; auto.
Qed.
Section M.
Context (m : mesh) (V : Valid m) (TR : triangular m) (pos : mdata V3) (EB : Embedded m pos).
Let CN := va_cn m V.
Local Notation intH := (intH m).
Local Notation P := (pt pos).
Local Notation D := (along m pos).
Lemma pos_ok v : liveV m v -> dataAt pos v = Ok (P v).
Proof. intros K. apply dataAt_in. rewrite (eb_size _ _ EB). apply (v_cap m V). auto. Qed.
Lemma vof h : liveH m h -> vertexOf m h = Ok (ve m h).
Proof. intros K. apply vertexOf_ok. destruct (liveH_bnd m V _ K) as (_ & _ & ? & _). auto. Qed.
Lemma posOf_ok h : liveH m h -> posOf m pos h = Ok (P (ve m h)).
Proof. intros K. unfold posOf. rewrite vof by auto. cbn [bind]. apply pos_ok. apply (cn_ve _ CN). auto. Qed.
Lemma along_tw h : D (tw h) = sub3 (mk3 0 0 0) (D h).
Proof. unfold along. rewrite tw_tw. apply V3_eq; cbn; ring. Qed.
Lemma along_nx h : liveH m h -> D h = sub3 (P (ve m (nx m h))) (P (ve m h)).
Proof. intros K. unfold along. rewrite (cn_vnx _ CN) by auto. reflexivity. Qed.
Lemma norm_tw h : norm3d (D (tw h)) = norm3d (D h).
Proof. rewrite along_tw. unfold norm3d, sub3. cbn [qx qy qz]. f_equal. ring. Qed.
Lemma int_or h : liveH m h -> intH h \/ intH (tw h).
Proof.
  intros K. pose proof (cn_tw _ CN h K) as KT. destruct (extb m h) eqn:X; [right|left; split; auto; apply not_ext; auto]. split; auto. intros XT. apply (extb_spec m) in X.
  destruct (Z.eq_dec (h mod 2) 0) as [Q|Q]; [apply (cn_ebd _ CN h K Q X)|]. apply (cn_ebd _ CN (tw h) KT); auto. rewrite tw_mod. pose proof (Z.mod_pos_bound h 2). lia.
Qed.
Lemma cross_int h : intH h -> cross3 (D h) (D (nx m h)) <> mk3 0 0 0. Proof. intros [A B]. apply (eb_area _ _ EB); auto. Qed.
Lemma along_ne h : liveH m h -> D h <> mk3 0 0 0.
Proof.
  intros K. destruct (int_or h K) as [Q|Q]; [apply (cross_ne _ _ (cross_int _ Q))|]. intros E. apply (proj1 (cross_ne _ _ (cross_int _ Q))). rewrite along_tw, E. apply V3_eq; cbn; ring.
Qed.
(** the lengths *)
Lemma len_e e : liveE m EEdge e -> pEdgeLength m pos e = Ok (norm3d (D (eHe e))).
Proof.
  intros K. unfold pEdgeLength. pose proof (cn_nx _ CN _ K) as K1. rewrite posOf_ok by auto. cbn [bind]. rewrite next_live by auto. cbn [bind]. rewrite posOf_ok by auto. cbn [bind]. rewrite norm_sub, along_nx by auto. reflexivity.
Qed.
Lemma lens_ok : exists len, pEdgeLengths m pos = Ok len /\ length (dat len) = Z.to_nat (eCap m) /\ forall h, liveH m h -> lh len h = norm3d (D h).
Proof.
  destruct (fill_all 0 m EEdge (fun d e => let* l := pEdgeLength m pos e in setAt d e l) (fun e => norm3d (D (eHe e))) EEdge 0 V) as (d & E & LD & V1 & _).
  - intros e K. apply (e_cap m V); auto.
  - intros d e _ K. rewrite len_e by auto. reflexivity.
  - exists d. split; auto. split; auto. intros h K. unfold lh, valAt. rewrite V1 by (apply edge_live; auto). destruct (eHe_edge h) as [-> | ->]; auto. apply norm_tw.
Qed.
Lemma around3 h : intH h -> ve m (nx m h) = ve m (tw h) /\ ve m (nx m (nx m h)) = ve m (tw (nx m h)) /\ ve m h = ve m (tw (nx m (nx m h))).
Proof.
  intros K. pose proof (intH_nx m V h K) as K1. pose proof (intH_nx m V _ K1) as K2. destruct (three m V TR h K) as (E & _). rewrite <- !(cn_vnx _ CN) by (apply K || apply K1 || apply K2). rewrite E. auto.
Qed.
Definition side (h : Z) : V3 := sub3 (P (ve m (nx m (nx m h)))) (P (ve m h)).
Lemma side_eq h : intH h -> side h = add3 (D h) (D (nx m h)) /\ side h = sub3 (mk3 0 0 0) (D (nx m (nx m h))) /\ sub3 (D h) (side h) = sub3 (mk3 0 0 0) (D (nx m h)).
Proof.
  intros K. destruct (around3 h K) as (A & B & C). unfold side, along. rewrite <- A, <- B, <- C. repeat split; apply V3_eq; cbn; ring.
Qed.
Lemma cross_side h : intH h -> cross3 (D h) (side h) = cross3 (D h) (D (nx m h)).
Proof. intros K. destruct (side_eq h K) as (-> & _). apply V3_eq; cbn; ring. Qed.
Lemma norm_neg u : norm3d (sub3 (mk3 0 0 0) u) = norm3d u.
Proof. unfold norm3d, sub3. cbn [qx qy qz]. f_equal. ring. Qed.
Context (len : mdata R) (LL : length (dat len) = Z.to_nat (eCap m)) (HL : forall h, liveH m h -> lh len h = norm3d (D h)).
Local Notation L := (lh len).
Lemma side_norms h : intH h -> norm3d (D h) = L h /\ norm3d (side h) = L (nx m (nx m h)) /\ norm3d (sub3 (D h) (side h)) = L (nx m h).
Proof.
  intros K. pose proof (intH_nx m V h K) as K1. pose proof (intH_nx m V _ K1) as K2. destruct (side_eq h K) as (_ & E1 & E2). rewrite E2, E1, !norm_neg, !HL by (apply K || apply K1 || apply K2). auto.
Qed.
Lemma metric : Metric m len.
Proof.
  constructor; auto.
  - intros h K. rewrite HL by auto. apply norm_pos, along_ne; auto.
  - intros h K X. assert (KI : intH h) by (split; auto). pose proof (intH_nx m V h KI) as K1. pose proof (intH_nx m V _ K1) as K2.
    (* h is the third side of the triangle seen from nx h *)
    pose proof (side_norms _ K1) as (N1 & N2 & N3). destruct (three m V TR h KI) as (E & _). rewrite E in N2.
    pose proof (side_norms _ K2) as (M1 & M2 & M3). rewrite E in M2, M3. rewrite <- M3, <- M1, <- M2. rewrite Rplus_comm. apply strict_tri. rewrite cross_side by auto. apply cross_int. auto.
Qed.
Let MT := metric.
Local Notation areaH := (areaH m len).
Lemma area_cross h : intH h -> 1 / 2 * norm3d (cross3 (D h) (D (nx m h))) = areaH h.
Proof.
  intros K. destruct (side_norms h K) as (N1 & N2 & N3). pose proof (tri_at m V TR len MT h K) as T. rewrite <- cross_side by auto. rewrite <- heron_cross.
  - rewrite N1, N2, N3. unfold areaH. rewrite heron_sym1, (heron_sym2 (L h)), heron_sym1. rewrite (heron_sym1 (L h)). rewrite <- heron_sym2. rewrite heron_sym1. reflexivity.
  - rewrite cross_side by auto. apply cross_int; auto.
  - rewrite N1, N2, N3. unfold tri in *. lra.
Qed.
Lemma triPoints_ok h : intH h -> triPoints m pos h = Ok (P (ve m h), P (ve m (nx m h)), P (ve m (nx m (nx m h))), h).
Proof.
  intros K. pose proof (intH_nx m V h K) as K1. pose proof (intH_nx m V _ K1) as K2. destruct (three m V TR h K) as (E & _). unfold triPoints. rewrite posOf_ok by apply K. cbn [bind]. rewrite next_live by (auto; apply K). cbn [bind]. rewrite posOf_ok by apply K1. cbn [bind]. rewrite next_live by (auto; apply K1). cbn [bind]. rewrite posOf_ok by apply K2. cbn [bind]. rewrite next_live by (auto; apply K2). cbn [bind]. rewrite E. reflexivity.
Qed.
Lemma triPositions_ok h : intH h -> triPositions m pos h = Ok (P (ve m h), P (ve m (nx m h)), P (ve m (nx m (nx m h)))).
Proof. intros K. unfold triPositions. rewrite triPoints_ok by auto. cbn [bind]. rewrite Z.eqb_refl. reflexivity. Qed.
Lemma fHe_live f : liveF m f -> fHe m f = Ok (fh m f).
Proof. intros K. rewrite fHe_ok; auto. destruct (liveFL_bnd m V f); [left; auto|]. auto. Qed.
Lemma pFaceArea_ok f : liveF m f -> pFaceArea m pos f = Ok (areaH (fh m f)).
Proof.
  intros K. destruct (fh_int m V f K) as [K0 F]. unfold pFaceArea. rewrite fHe_live by auto. cbn [bind]. rewrite triPositions_ok by auto. cbn [bind]. rewrite <- area_cross by auto. rewrite <- cross_side by auto. rewrite (along_nx _ (proj1 K0)). reflexivity.
Qed.
Lemma cross_step h acc : intH h -> (let* a := posOf m pos h in let* h1 := next m h in let* b := posOf m pos h1 in Ok (add3 acc (cross3 a b))) = Ok (add3 acc (cross3 (P (ve m h)) (P (ve m (nx m h))))).
Proof.
  intros K. pose proof (intH_nx m V h K) as K1. rewrite posOf_ok by apply K. cbn [bind]. rewrite next_live by (auto; apply K). cbn [bind]. rewrite posOf_ok by apply K1. reflexivity.
Qed.
Lemma pFaceAreas_ok : exists d, pFaceAreas m pos = Ok d /\ length (dat d) = Z.to_nat (fCap m - bFill m) /\ (forall f, liveF m f -> valAt d f = areaH (fh m f)) /\ forall h, intH h -> valAt d (fa m h) = areaH h.
Proof.
  unfold pFaceAreas. match goal with |- context [forEach _ _ ?b] => destruct (fill_all 0 m EFace b (fun f => areaH (fh m f)) EFace 0 V) as (d & E & LD & V1 & V2) end.
  - intros e K. apply (f_cap m V); auto.
  - intros d f _ K. destruct (fh_int m V f K) as [K0 F]. pose proof (intH_nx m V _ K0) as K1. pose proof (intH_nx m V _ K1) as K2. destruct (three m V TR _ K0) as (E3 & _). rewrite (ring3_face m V TR) by auto. cbn [bind]. unfold ring3. cbn [foldM].
    rewrite cross_step by auto. cbn [bind]. rewrite cross_step by auto. cbn [bind]. rewrite cross_step by auto. cbn [bind]. rewrite E3. f_equal. rewrite <- area_cross by auto. f_equal. f_equal. rewrite <- cross_side by auto. rewrite (along_nx _ (proj1 K0)). unfold side. apply V3_eq; cbn; ring.
  - exists d. split; auto. split; auto. split; auto. intros h K. unfold valAt. rewrite V1 by (apply fa_liveF; auto). apply (areaH_face m V TR); auto.
Qed.
Local Notation angH := (angH m len).
Lemma ang_cross h : intH h -> angleBetween (D h) (side h) = angH h.
Proof. intros K. destruct (side_norms h K) as (N1 & N2 & N3). rewrite angle_cross by (rewrite cross_side by auto; apply cross_int; auto). rewrite N1, N2, N3. reflexivity. Qed.
Lemma pCornerAngle_ok h : intH h -> pCornerAngle m pos h = Ok (angH h).
Proof. intros K. unfold pCornerAngle. rewrite triPositions_ok by auto. cbn [bind]. rewrite <- ang_cross by auto. rewrite (along_nx _ (proj1 K)). reflexivity. Qed.
Lemma pCornerAngles_ok : exists d, pCornerAngles m pos = Ok d /\ length (dat d) = Z.to_nat (heCap m) /\ forall h, intH h -> valAt d h = angH h.
Proof.
  destruct (els_ok m EFace V) as (E & N & _ & I). destruct (newData_R m ECorner 0 0) as [NL NV]. cbn [capacity] in NL. unfold pCornerAngles. rewrite E. cbn [bind]. rewrite forEach_map. fold (zl m EFace).
  rewrite (foldM_nested_len (Z.to_nat (heCap m)) (fun _ d h => if extb m h then Ok d else setAt d (nx m h) (angH (nx m h))) (fun f => ring3 m (fh m f))); auto.
  2: { intros d f Ld Hf. apply zl_In in Hf; auto. destruct (fh_int m V f Hf) as [K0 F]. rewrite (ring3_face m V TR) by auto. cbn [bind].
       assert (G : forall l, (forall h, In h l -> intH h) -> forall d, foldM (fun d h => let* a := posOf m pos h in let* h1 := next m h in let* b := posOf m pos h1 in let* h2 := next m h1 in let* c := posOf m pos h2 in setAt d h1 (angleBetween (sub3 c b) (sub3 a b))) l d = foldM (fun d h => if extb m h then Ok d else setAt d (nx m h) (angH (nx m h))) l d).
       { induction l as [|h l IH]; intros Hl d'; cbn [foldM]; auto. pose proof (Hl h (or_introl eq_refl)) as K. pose proof (intH_nx m V h K) as K1. pose proof (intH_nx m V _ K1) as K2. rewrite posOf_ok by apply K. cbn [bind]. rewrite next_live by (auto; apply K). cbn [bind]. rewrite posOf_ok by apply K1. cbn [bind]. rewrite next_live by (auto; apply K1). cbn [bind]. rewrite posOf_ok by apply K2. cbn [bind].
         destruct (extb m h) eqn:X; [exfalso; apply K; apply (extb_spec m); auto|]. rewrite <- ang_cross by auto. rewrite (along_nx _ (proj1 K1)). unfold side. destruct (three m V TR h K) as (E3 & _). rewrite E3. destruct (setAt _ _ _); cbn [bind]; auto. apply IH. intros; apply Hl; right; auto. }
       apply G. intros h Hh. apply (ring3_ok m V TR) in Hh; auto. apply Hh. }
  2: { intros a s b s' Ls Es. destruct (extb m b); [injection Es as <-; auto|]. apply setAt_len in Es. congruence. }
  set (ps := flat_map _ _). assert (PS : forall q, In q ps <-> intH (snd q) /\ fa m (snd q) = fst q).
  { intros [f h]. unfold ps. rewrite in_flat_map. cbn [fst snd]. split.
    - intros (f' & Hf & Hp). apply zl_In in Hf; auto. apply in_map_iff in Hp as (h' & Q & Hh). injection Q as <- <-. destruct (fh_int m V f' Hf) as [K0 F]. apply (ring3_ok m V TR) in Hh; auto. rewrite F in Hh. auto.
    - intros (A & B). exists f. assert (Lf : liveF m f) by (rewrite <- B; apply (fa_liveF m V); auto). destruct (fh_int m V f Lf) as [K0 F]. split; [apply zl_In; auto|]. apply in_map_iff. exists h. split; auto. apply (ring3_ok m V TR); auto. rewrite F. auto. }
  assert (NP : NoDup ps).
  { assert (Q : forall l, NoDup l -> (forall f, In f l -> liveF m f) -> NoDup (flat_map (fun f => map (pair f) (ring3 m (fh m f))) l) /\ forall q, In q (flat_map (fun f => map (pair f) (ring3 m (fh m f))) l) -> In (fst q) l).
    { induction l as [|v t IH]; intros Nl Il; [cbn; split; [constructor|auto]|]. inversion Nl as [|? ? N1 N2]; subst. destruct (IH N2 (fun f K => Il f (or_intror K))) as [IH1 IH2]. cbn [flat_map]. destruct (fh_int m V v (Il v (or_introl eq_refl))) as [K0 F]. split.
      - apply NoDup_app_intro; auto. + apply FinFun.Injective_map_NoDup; [intros x y Q; congruence|]. apply (ring3_ok m V TR); auto. + intros q H1 H2. apply in_map_iff in H1 as (h & <- & _). apply IH2 in H2. cbn in H2. auto.
      - intros q Hq. apply in_app_or in Hq as [Hq|Hq]; [apply in_map_iff in Hq as (h & <- & _); left; auto|right; auto]. }
    apply Q; [apply zl_NoDup; auto|]. intros f Hf. apply zl_In in Hf; auto. }
  destruct (fill_key 0 (fun (d : mdata R) (q : Z * Z) => if extb m (snd q) then Ok d else setAt d (nx m (snd q)) (angH (nx m (snd q)))) (fun q => nx m (snd q)) (fun q => angH (nx m (snd q))) (Z.to_nat (heCap m)) ps (newData m ECorner 0) NL) as (d & F & Ld & Vd & _).
  - apply nodup_map; auto. intros [f h] [f' h'] H1 H2 Q. apply PS in H1 as (A & B), H2 as (A' & B'). cbn [fst snd] in *. assert (h = h') as <- by (apply (cn_inj _ CN); auto; [apply A|apply A']). congruence.
  - intros q Hq. apply PS in Hq as (A & _). apply (he_cap m V). apply (intH_nx m V _ A).
  - intros d q Ld Hq. apply PS in Hq as (A & _). destruct (extb m (snd q)) eqn:X; auto. exfalso. apply A. apply (extb_spec m). auto.
  - exists d. split; [exact F|]. split; auto. intros h K. pose proof (intH_nx m V h K) as K1. pose proof (intH_nx m V _ K1) as K2. destruct (three m V TR h K) as (E3 & _). pose proof (Vd (fa m (nx m (nx m h)), nx m (nx m h))) as Q. cbn [fst snd] in Q. rewrite E3 in Q. apply Q. apply PS. cbn [fst snd]. auto.
Qed.
Lemma pWeight_ok h : intH h -> pWeight m pos h = Ok (wH m len h).
Proof.
  intros K. pose proof (intH_nx m V h K) as K1. pose proof (intH_nx m V _ K1) as K2. destruct (three m V TR h K) as (E3 & _). unfold pWeight. rewrite triPositions_ok by auto. cbn [bind]. f_equal.
  destruct (side_norms _ K2) as (N1 & N2 & N3). rewrite E3 in N2, N3.
  assert (E1 : sub3 (P (ve m h)) (P (ve m (nx m (nx m h)))) = D (nx m (nx m h))) by (rewrite (along_nx _ (proj1 K2)), E3; reflexivity).
  assert (E2 : sub3 (P (ve m (nx m h))) (P (ve m (nx m (nx m h)))) = side (nx m (nx m h))) by (unfold side; rewrite E3; reflexivity).
  rewrite E1, E2. rewrite cot_cross by (rewrite cross_side by auto; apply cross_int; auto). rewrite N1, N2, N3, cross_side by auto. rewrite area_cross by auto. rewrite (areaH_nx m V TR len (nx m h)), (areaH_nx m V TR len h) by auto. unfold wH, cotWeight. f_equal. f_equal. ring.
Qed.
Lemma pHalfedgeWeights_ok : exists d, pHalfedgeCotanWeights m pos = Ok d /\ length (dat d) = Z.to_nat (heCap m) /\ forall h, liveH m h -> valAt d h = wS m len h.
Proof.
  unfold pHalfedgeCotanWeights. destruct (fill_all 0 m ECorner (fun d h => let* w := pWeight m pos h in setAt d h w) (wH m len) EHalfedge 0 V) as (d & E & LD & V1 & V2).
  - intros e K. apply (he_cap m V). apply K.
  - intros d e _ K. rewrite pWeight_ok by auto. reflexivity.
  - exists d. split; auto. split; auto. intros h K. unfold wS. destruct (extb m h) eqn:X.
    + apply V2; [pose proof (he_cap m V h K); cbn [capacity]; lia|]. intros Q. destruct Q as [_ Q]. apply Q. apply (extb_spec m). auto.
    + apply V1. split; auto. apply not_ext. auto.
Qed.
Lemma pEdgeWeights_ok : exists d, pEdgeCotanWeights m pos = Ok d /\ length (dat d) = Z.to_nat (eCap m) /\ forall e, liveE m EEdge e -> valAt d e = wS m len (eHe e) + wS m len (tw (eHe e)).
Proof.
  unfold pEdgeCotanWeights. match goal with |- context [forEach _ _ ?b] => destruct (fill_all 0 m EEdge b (fun e => wS m len (eHe e) + wS m len (tw (eHe e))) EEdge 0 V) as (d & E & LD & V1 & V2) end.
  - intros e K. apply (e_cap m V); auto.
  - intros d e _ K. pose proof (sides_sum m V len (pWeight m pos) e K (fun h => pWeight_ok h)) as S. destruct (interiorOf m (sides e)); cbn [bind] in *; try discriminate. rewrite S. reflexivity.
  - exists d. auto.
Qed.
Lemma pHalfedgeWeight_ok h : liveH m h -> pHalfedgeCotanWeight m pos h = Ok (wS m len h).
Proof.
  intros K. unfold pHalfedgeCotanWeight, wS. rewrite isInterior_ok by auto. cbn [bind]. unfold extb. destruct (fFill m <=? fa m h)%Z eqn:X; cbn [negb]; auto. apply pWeight_ok. split; auto. apply not_ext. auto.
Qed.
Lemma pEdgeWeight_ok e : liveE m EEdge e -> pEdgeCotanWeight m pos e = Ok (wS m len (eHe e) + wS m len (tw (eHe e))).
Proof.
  intros K. unfold pEdgeCotanWeight. apply sides_sum; auto. intros h Kh. rewrite pHalfedgeWeight_ok by apply Kh. unfold wS. destruct (extb m h) eqn:X; auto. exfalso. apply Kh. apply (extb_spec m). auto.
Qed.
End M.
