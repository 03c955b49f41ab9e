(** The whole subdivision, and the position rules. *)
From Coq Require Import Reals Lra Permutation.
From Verif Require Import Base DataModel MeshModel MeshModel2 MeshSpec MeshBase MeshOpSpec MeshOrbit MeshExec MeshCompressModel MeshCompress MeshDataModel MeshHistorySpec MeshHistory CollapseModel IntrinsicModel IntrinsicSpec Intrinsic1 Intrinsic5 FastModel SubdivModel SubdivSpec Subdiv1 Subdiv2 Subdiv3 DataProofs GeoModel.
Open Scope Z_scope.

Lemma quad_split m pos edgePt facePt : Valid m -> NoDeadLoops m -> 0 < heFill m -> noDangling m ->
  exists m' pos' vt md ce corner, quadSplit m pos edgePt facePt = Ok (m', pos') /\ Valid m' /\ NoDeadLoops m' /\ Refined m m' vt md ce corner /\
    (forall v, liveV m v -> pos' (vt v) = pos v) /\ (forall e, liveH m (eHe e) -> pos' (md e) = edgePt e) /\ (forall f, liveF m f -> pos' (ce f) = facePt f) /\
    nVertices m' = nVertices m + nEdges m + nFaces m /\ nEdges m' = 2 * nEdges m + nInterior m /\ nFaces m' = nInterior m /\ nLoops m' = nLoops m.
Proof.
  intros V ND H0 D1. assert (ST := va_st _ V). assert (HE : heFill m = 2 * eFill m) by apply ST. assert (HF : 0 <= fFill m) by apply ST.
  destruct (split_edges m V D1 pos edgePt ND) as (r & F & S & M & E1 & SP). destruct SP as [SD SV SN _ SP SI (N1 & N2 & N3 & N4)].
  assert (UP : forall e, upto m (Z.to_nat (eFill m)) e <-> liveH m (eHe e)) by (intros e; unfold upto; split; [tauto|]; intros L; split; auto; destruct L as [L _]; unfold eHe in L; lia).
  apply (sided_done m _ (fun e => liveH m (eHe e))) in SD; [|intros h _; apply UP]. rewrite Z2Nat.id in N1, N2 by lia. rewrite <- (ct_e _ (va_ct _ V)) in N1, N2.
  set (r1 := mkRefine (rM r) (rV r) (rE r) (fun _ => true) (rP r)).
  destruct (split_faces m (rM r) V F S M SD r1 eq_refl) with (facePt := facePt) as (r2 & X & C & E2 & FT); [intros v Hv; apply SV; auto|exact SN|reflexivity|].
  destruct FT as [FQ FV FN _ FP FI (M1 & M2 & M3 & M4)]. rewrite Z2Nat.id in * by lia. rewrite <- (ct_f _ (va_ct _ V)) in M1, M3. rewrite (degSum_all m V) in M2, M3. set (g := rM r2) in *.
  pose proof (q_v _ _ _ _ _ _ _ _ _ FQ) as VG. pose proof (q_nd _ _ _ _ _ _ _ _ _ FQ) as NG.
  assert (LF : forall f, liveF m f -> f < fFill m) by (intros f [K _]; lia).
  assert (RF : Refined m g (fun v => v) M C F).
  { apply (refined_quart m (rM r) V F S M SD) with (done := fun k => k < fFill m) (X := X); auto.
    - intros e k Le Lk. apply SI; apply UP; auto.
    - intros k Lk. apply (FP k Lk); auto. }
  destruct (sd_fill _ _ _ _ _ _ SD) as (_ & _ & _ & Q4 & Q5). destruct (q_fill _ _ _ _ _ _ _ _ _ FQ) as (_ & _ & Q6).
  assert (PV : forall v, liveV m v -> rP r2 v = pos v). { intros v [L _]. destruct (FV v) as [_ ->]; [lia|]. cbn [rP r1]. apply SV; lia. }
  assert (PE : forall e, liveH m (eHe e) -> rP r2 (M e) = edgePt e). { intros e L. destruct (sd_done _ _ _ _ _ _ SD _ L) as (_ & _ & _ & _ & _ & K); [rewrite edge_eHe; auto|]. rewrite edge_eHe in K. destruct (FV (M e)) as [_ ->]; [lia|]. cbn [rP r1]. apply SP, UP; auto. }
  assert (PF : forall f, liveF m f -> rP r2 (C f) = facePt f) by (intros f L; apply FP; auto).
  unfold quadSplit. rewrite E1. cbn [bind]. fold r1. rewrite E2. cbn [bind]. fold g. destruct (compressed g) eqn:CO.
  - rewrite compress_compressed by auto. cbn [bind]. exists g, (rP r2), (fun v => v), M, C, F. split; [unfold afterCompress, issued; rewrite Nat.sub_diag; reflexivity|]. do 6 (split; [auto|]). repeat split; lia.
  - destruct (compress_spec g VG) as (m' & E3 & V' & CP & _ & CT & RN & ph & pe & pv & pf & pl & CB & _ & _ & _ & _ & _ & _ & _ & GV & _); [lia|auto|]. rewrite E3. cbn [bind].
    assert (AC : afterCompress g m' (rP r2) = fun v => rP r2 (getZ pv v)). { unfold afterCompress, issued. rewrite CB. cbn [length]. replace (Datatypes.S (Datatypes.S (Datatypes.S (Datatypes.S (Datatypes.S (length (cblog g)))))) - length (cblog g))%nat with 5%nat by lia. reflexivity. }
    rewrite AC. injection CT as T1 T2 T3 T4 T5 T6. pose proof (refined_renumbered m g m' _ _ _ _ RF VG V RN) as RF'.
    eexists m', _, _, _, _, _. split; [reflexivity|]. split; [exact V'|]. split; [destruct (cp_f _ CP) as (_ & K & _); exact K|]. split; [exact RF'|]. cbn beta.
    assert (LV : forall v, ((exists u, liveV m u /\ v = u) \/ (exists e, liveH m (eHe e) /\ v = M e) \/ (exists f, liveF m f /\ v = C f)) -> liveV g v) by (intros v K; apply (rf_vert _ _ _ _ _ _ RF); auto).
    split; [intros v L; rewrite GV by (apply LV; eauto); auto|]. split; [intros e L; rewrite GV by (apply LV; eauto); auto|]. split; [intros f L; rewrite GV by (apply LV; eauto); auto|]. repeat split; lia.
Qed.

(** ** positions *)
Lemma tabulate_ok l (f : Z -> res V3) (v : Z -> V3) d : NoDup l -> (forall i, In i l -> f (Z.of_nat i) = Ok (v (Z.of_nat i))) ->
  exists d', tabulate l f d = Ok d' /\ (forall i, In i l -> d' (Z.of_nat i) = v (Z.of_nat i)) /\ forall z, (forall i, In i l -> Z.of_nat i <> z) -> d' z = d z.
Proof.
  unfold tabulate. revert d. induction l as [|a l IH]; intros d ND H; [exists d; split; auto; split; auto; intros i []|]. apply NoDup_cons_iff in ND as [Na ND]. cbn [foldM]. rewrite H by (left; auto). cbn [bind].
  destruct (IH (setf d (Z.of_nat a) (v (Z.of_nat a))) ND) as (d' & R & A & B); [intros; apply H; right; auto|]. exists d'. split; auto. split.
  - intros i [->|I]; [|auto]. rewrite B; [unfold setf; rewrite Z.eqb_refl; auto|]. intros j Ij K. apply Nat2Z.inj in K. subst. auto.
  - intros z K. rewrite B by (intros; apply K; right; auto). unfold setf. rewrite (proj2 (Z.eqb_neq _ _)); auto. intros ->. apply (K a); [left; auto|auto].
Qed.
Lemma fold_add (p : Z -> V3) (D : R) l s : fold_left (fun s h => add3 s (div3 (p h) D)) l s = mk3 (qx s + Rsum (fun h => qx (p h)) l / D)%R (qy s + Rsum (fun h => qy (p h)) l / D)%R (qz s + Rsum (fun h => qz (p h)) l / D)%R.
Proof.
  revert s. induction l as [|h l IH]; intros s; cbn [fold_left].
  - rewrite !Rsum_nil. destruct s as [a b c]; cbn [qx qy qz]. f_equal; unfold Rdiv; lra.
  - rewrite IH. unfold add3, div3. cbn [qx qy qz]. rewrite !Rsum_cons. f_equal; unfold Rdiv; ring.
Qed.
Lemma foldM_pure {A T} (f : T -> A -> res T) (k : T -> A -> T) l s : (forall s a, In a l -> f s a = Ok (k s a)) -> foldM f l s = Ok (fold_left k l s).
Proof. revert s. induction l as [|a l IH]; intros s H; cbn [foldM fold_left]; auto. rewrite H by (left; auto). cbn [bind]. apply IH. intros; apply H; right; auto. Qed.
Lemma mean_of (p : Z -> V3) l l' x : l <> [] -> NoDup l -> NoDup l' -> (forall h, In h l <-> In h l') ->
  x = fold_left (fun s h => add3 s (div3 (p h) (IZR (zlen l)))) l zero -> isMean p l' x.
Proof.
  intros NE N1 N2 I ->. rewrite fold_add. assert (LL : length l' = length l) by (symmetry; apply Permutation_length, NoDup_Permutation; auto). assert (NZ : INR (length l) <> 0%R) by (apply not_0_INR; destruct l; [congruence|discriminate]).
  assert (DZ : IZR (zlen l) = INR (length l)) by (unfold zlen; rewrite <- INR_IZR_INZ; auto).
  intros q Hq. rewrite LL. change (fold_right (fun a s => (q (p a) + s)%R) 0%R l') with (Rsum (fun a => q (p a)) l'). rewrite <- (Rsum_set (fun a => q (p a)) l l') by auto.
  destruct Hq as [->|[->| ->]]; unfold zero; cbn [qx qy qz]; rewrite DZ; field; auto.
Qed.
Lemma face_points m pos : Valid m -> exists facePt, (let* fs := elements m EFace in tabulate fs (facePoint m pos) (fun _ => zero)) = Ok facePt /\
  (forall f l, liveF m f -> sidesAre m f l -> isMean (fun h => pos (ve m h)) l (facePt f)) /\ (forall f, ~ liveF m f -> facePt f = zero).
Proof.
  intros V. destruct (iterate_mesh m EFace V) as (fs & E & _ & ND & _ & IN). rewrite E. cbn [bind].
  assert (FP : forall i, In i fs -> exists x, facePoint m pos (Z.of_nat i) = Ok x /\ forall l, sidesAre m (Z.of_nat i) l -> isMean (fun h => pos (ve m h)) l x).
  { intros i I. apply IN in I. cbn [liveE] in I. destruct (faceHalfedges_ok m V _ (or_introl I)) as (hs & R & NE & _ & NDh & MEM). unfold facePoint. rewrite R. cbn [bind]. eexists. split.
    - apply (foldM_pure _ (fun s h => add3 s (div3 (pos (ve m h)) (IZR (zlen hs))))). intros s a Ia. rewrite (vOf _ _ V) by (apply MEM; auto). reflexivity.
    - intros l [Nl Il]. eapply mean_of; [exact NE|exact NDh|exact Nl| |reflexivity]. intros h. rewrite MEM, Il. tauto. }
  destruct (tabulate_ok fs (facePoint m pos) (fun z => match facePoint m pos z with Ok x => x | _ => zero end) (fun _ => zero) ND) as (d & R & A & B).
  - intros i I. destruct (FP i I) as (x & -> & _). reflexivity.
  - exists d. split; auto. split.
    + intros f l L SA. assert (K : f = Z.of_nat (Z.to_nat f)) by (destruct L as [L _]; lia). assert (I : In (Z.to_nat f) fs) by (apply IN; cbn [liveE]; rewrite <- K; auto). destruct (FP _ I) as (x & Ex & Hx). rewrite K, (A _ I), Ex. apply Hx. rewrite <- K. auto.
    + intros f NL. apply B. intros i I <-. apply NL. apply IN in I. exact I.
Qed.
Lemma two_points (p : Z -> V3) a b x : x = div3 (add3 (p a) (p b)) 2%R -> isMean p [a; b] x.
Proof. intros -> q Hq. cbn [length fold_right]. change (INR 2) with (1 + 1)%R. destruct Hq as [->|[->| ->]]; unfold div3, add3; cbn [qx qy qz]; lra. Qed.
Lemma live_edges m : Valid m -> exists es, elements m EEdge = Ok es /\ NoDup es /\ forall e, liveH m (eHe e) <-> exists i, In i es /\ e = Z.of_nat i.
Proof.
  intros V. destruct (iterate_mesh m EEdge V) as (es & E & _ & ND & _ & IN). exists es. split; auto. split; auto. intros e. split.
  - intros L. assert (K : e = Z.of_nat (Z.to_nat e)) by (destruct L as [L _]; unfold eHe in L; lia). exists (Z.to_nat e). split; auto. apply IN. cbn [liveE]. rewrite <- K. exact L.
  - intros (i & I & ->). apply IN in I. exact I.
Qed.
Lemma edge_points m (f : Z -> res V3) (v : Z -> V3) : Valid m -> (forall e, liveH m (eHe e) -> f e = Ok (v e)) ->
  exists edgePt, (let* es := elements m EEdge in tabulate es f (fun _ => zero)) = Ok edgePt /\ forall e, liveH m (eHe e) -> edgePt e = v e.
Proof.
  intros V H. destruct (live_edges m V) as (es & E & ND & IN). rewrite E. cbn [bind]. destruct (tabulate_ok es f v (fun _ => zero) ND) as (d & R & A & _).
  - intros i I. apply H, IN. eauto.
  - exists d. split; auto. intros e L. apply IN in L as (i & I & ->). auto.
Qed.
Lemma Rsum_filter0 (p : Z -> bool) (k : Z -> R) l : (forall h, In h l -> p h = false -> k h = 0%R) -> Rsum k (filter p l) = Rsum k l.
Proof. induction l as [|h l IH]; intros H; auto. cbn [filter]. assert (K : Rsum k (filter p l) = Rsum k l) by (apply IH; intros; apply H; auto; right; auto). destruct (p h) eqn:E; rewrite !Rsum_cons, ?K; auto. rewrite (H h) by (auto; left; auto). lra. Qed.
Lemma vertex_points m pos facePt edgePt : Valid m -> (forall f, ~ liveF m f -> facePt f = zero) ->
  exists newPos, (let* vs := elements m EVertex in tabulate vs (ccVertexPoint m pos facePt edgePt) (fun _ => zero)) = Ok newPos /\
  forall v l, liveV m v -> leavingAre m v l -> forall q, q = qx \/ q = qy \/ q = qz -> let D := INR (length l) in
    (q (newPos v) * (D * D) = Rsum (fun h => q (facePt (fa m h))) l + 2 * Rsum (fun h => q (edgePt (edge h))) l + D * (D - 3) * q (pos v))%R.
Proof.
  intros V FZ. pose proof (va_cn _ V) as CN. destruct (iterate_mesh m EVertex V) as (vs & E & _ & ND & _ & IN). rewrite E. cbn [bind].
  assert (FP : forall i, In i vs -> exists x, ccVertexPoint m pos facePt edgePt (Z.of_nat i) = Ok x /\ forall l, leavingAre m (Z.of_nat i) l -> forall q, q = qx \/ q = qy \/ q = qz -> let D := INR (length l) in
    (q x * (D * D) = Rsum (fun h => q (facePt (fa m h))) l + 2 * Rsum (fun h => q (edgePt (edge h))) l + D * (D - 3) * q (pos (Z.of_nat i)))%R).
  { intros i I. apply IN in I. cbn [liveE] in I. destruct (vertHalfedges_ok m V _ I) as (hs & Rh & NE & _ & NDh & MEM). unfold ccVertexPoint. rewrite Rh. cbn [bind].
    rewrite (interior_filter m V) by (intros h K; apply MEM; auto). cbn [bind]. set (is := filter _ hs).
    rewrite (foldM_pure _ (fun s h => add3 s (div3 (facePt (fa m h)) (IZR (zlen hs))))) by (intros s a Ia; apply filter_In in Ia as [Ia _]; rewrite (fOf _ _ V) by (apply MEM; auto); reflexivity). cbn [bind].
    eexists. split; [reflexivity|]. intros l [Nl Il] q Hq. cbv zeta. assert (LL : length l = length hs) by (apply Permutation_length, NoDup_Permutation; auto; intros h; rewrite MEM, Il; tauto).
    assert (NZ : INR (length hs) <> 0%R) by (apply not_0_INR; destruct hs; [congruence|discriminate]). assert (DZ : IZR (zlen hs) = INR (length hs)) by (unfold zlen; rewrite <- INR_IZR_INZ; auto).
    assert (SI : forall k : V3 -> R, k zero = 0%R -> Rsum (fun h => k (facePt (fa m h))) is = Rsum (fun h => k (facePt (fa m h))) hs).
    { intros k Kz. apply Rsum_filter0. intros h Ih Eh. rewrite FZ; auto. intros [K _]. apply negb_false_iff in Eh. unfold Intrinsic3.extb in Eh. lia. }
    assert (SL : forall k : Z -> R, Rsum k l = Rsum k hs) by (intros k; apply Rsum_set; auto; intros h; rewrite MEM, Il; tauto).
    rewrite !SL. rewrite LL. rewrite (fold_add (fun h => edgePt (edge h))), (fold_add (fun h => facePt (fa m h))). rewrite DZ.
    rewrite (SI qx), (SI qy), (SI qz) by reflexivity. destruct Hq as [->|[->| ->]]; unfold div3, add3, mul3, zero; cbn [qx qy qz]; field; auto. }
  destruct (tabulate_ok vs (ccVertexPoint m pos facePt edgePt) (fun z => match ccVertexPoint m pos facePt edgePt z with Ok x => x | _ => zero end) (fun _ => zero) ND) as (d & R & A & B).
  - intros i I. destruct (FP i I) as (x & -> & _). reflexivity.
  - exists d. split; auto. intros v l L SA. assert (K : v = Z.of_nat (Z.to_nat v)) by (destruct L as [L _]; lia). assert (I : In (Z.to_nat v) vs) by (apply IN; cbn [liveE]; rewrite <- K; auto). destruct (FP _ I) as (x & Ex & Hx). rewrite K, (A _ I), Ex. apply Hx. rewrite <- K. auto.
Qed.
