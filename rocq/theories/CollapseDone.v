(** Collapsing an interior edge: what has to be read off the final arrays. *)
From Verif Require Import Base MeshModel MeshModel2 MeshSpec MeshBase MeshExec MeshOrbit MeshFlip MeshDel MeshOpSpec MeshThms MeshConnect MeshSplit CollapseModel CollapseMap CollapseSpec CollapseProofs CollapseRun.
Open Scope Z_scope.

Section Int.
Context (m : mesh) (V : Valid m) (TR : triangular m) (NS : noSelfEdges m) (a : Z) (La : liveH m a) (Ia : ~ ext m a).
Context (IN : forall k, liveH m k -> ve m k = ve m a -> ~ ext m k /\ ~ ext m (tw k)).
Let CN := va_cn _ V.
Let b := tw a.
Let A1 := nx m a.
Let A2 := nx m A1.
Let C2 := tw A2.
Let C0 := nx m C2.
Let C1 := nx m C0.
Let B1 := nx m b.
Let B2 := nx m B1.
Let D1 := tw B1.
Let D2 := nx m D1.
Let D0 := nx m D2.
Let vA := ve m a.
Let vB := ve m b.
Let vC := ve m A2.
Let vD := ve m B2.
Context (DEG : B1 <> C2).
Lemma int_bd : ~ ext m b /\ ~ ext m C2 /\ ~ ext m D1.
Proof.
  destruct (a_facts m V TR NS a La Ia) as (Lb & L1 & L2 & L3 & L4 & L5 & T & V1 & V2 & V3 & V4 & V5 & _).
  split; [apply (IN a La eq_refl)|]. split; [apply (IN C2 L3 V3)|]. apply (IN B1); [apply CN; auto|]. unfold B1. rewrite (cn_vnx _ CN b Lb). auto.
Qed.
Let Ib := proj1 int_bd.
Let IC := proj1 (proj2 int_bd).
Let ID := proj2 (proj2 int_bd).
Definition ivh (v : Z) : Z := if inner m vD && (v =? vD) then B2 else if inner m vC && (v =? vC) then C0 else if inner m vB && (v =? vB) then A1 else vh m v.
Definition ifh (f : Z) : Z := if f =? fa m a then A1 else if f =? fa m b then B2 else if f =? fa m D1 then D0 else if f =? fa m C2 then C0 else fh m f.
Definition iback (h : Z) : Z := if h =? A1 then C2 else if h =? B2 then D1 else h.
Let Gn h : gone m a h <-> h = a \/ h = b \/ h = A2 \/ h = C2 \/ h = B1 \/ h = D1.
Proof. apply (gone6 m a Ib). Qed.
Let AF : liveH m b /\ liveH m A1 /\ liveH m A2 /\ liveH m C2 /\ liveH m C0 /\ liveH m C1 /\
  nx m A2 = a /\ ve m A1 = vB /\ ve m (tw A1) = vC /\ ve m C2 = vA /\ ve m (tw b) = vA /\ ve m C0 = vC /\
  vA <> vB /\ vB <> vC /\ vC <> vA /\ fa m A1 = fa m a /\ fa m A2 = fa m a /\ fa m C0 = fa m C2 /\ fa m C1 = fa m C2 /\ ~ ext m A1 /\ ~ ext m A2.
Proof. exact (a_facts m V TR NS a La Ia). Qed.
Let BF : liveH m B1 /\ liveH m B2 /\ liveH m D1 /\ liveH m D2 /\ liveH m D0 /\
  nx m B2 = b /\ ve m B1 = vA /\ ve m (tw B2) = vB /\ ve m D1 = vD /\ ve m D2 = vA /\ vA <> vD /\ vD <> vB /\
  fa m B1 = fa m b /\ fa m B2 = fa m b /\ fa m D2 = fa m D1 /\ fa m D0 = fa m D1 /\ ~ ext m B2 /\
  nx m D0 = D1 /\ ve m (tw D0) = vD /\ ve m D0 <> vA /\ ve m D0 <> vD /\
  fa m b <> fa m a /\ fa m D1 <> fa m b /\ fa m D1 <> fa m a /\ fa m C2 <> fa m b.
Proof. exact (b_facts m V TR NS a La Ia Ib ID DEG). Qed.
Let AN : A1 <> a /\ A1 <> b /\ A1 <> A2 /\ A1 <> C2.
Proof. exact (A1_neq m V TR NS a La Ia). Qed.
Let BN : B2 <> a /\ B2 <> b /\ B2 <> A1 /\ B2 <> A2 /\ B2 <> C2 /\ B2 <> B1 /\ B2 <> D1.
Proof. exact (B2_neq m V TR NS a La Ia Ib ID DEG). Qed.
Let DN : D1 <> a /\ D1 <> b /\ D1 <> A1 /\ D1 <> A2 /\ D1 <> C2 /\ D1 <> B1.
Proof. exact (D1_neq m V TR NS a La Ia Ib ID DEG). Qed.
Let CF : nx m C1 = C2 /\ ve m (tw C1) = vA /\ ve m C1 <> vA /\ ve m C1 <> vC /\ C0 <> C2 /\ C1 <> C2 /\ C0 <> A2 /\ C0 <> A1.
Proof. exact (c_facts m V TR NS a La Ia IC). Qed.
Lemma C0_stays : ~ gone m a C0.
Proof.
  destruct AF as (Lb & L1 & L2 & L3 & L4 & L5 & T & V1 & V2 & V3 & V4 & V5 & N1 & N2 & N3 & F1 & F2 & F3 & F4 & I1 & I2).
  destruct BF as (M1 & M2 & M3 & M4 & M5 & TB & W1 & W2 & W3 & W4 & X1 & X2 & E1 & E2 & E3 & E4 & I3 & TD & W5 & X3 & X4 & Y1 & Y2 & Y3 & Y4).
  destruct CF as (_ & _ & P & _).
  assert (TP : ve m (tw C0) <> vA) by (rewrite <- (cn_vnx _ CN C0 L4); exact P).
  rewrite Gn. intros [E|[E|[E|[E|[E|E]]]]]; pose proof (f_equal (ve m) E) as E'; pose proof (f_equal (fun h => ve m (tw h)) E) as E''; cbv beta in E''.
  - fold vA in E'. congruence.
  - congruence.
  - fold C2 in E''. congruence.
  - congruence.
  - congruence.
  - unfold D1 in E''. rewrite tw_tw in E''. congruence.
Qed.
Lemma D0_stays : ~ gone m a D0.
Proof.
  destruct AF as (Lb & L1 & L2 & L3 & L4 & L5 & T & V1 & V2 & V3 & V4 & V5 & N1 & N2 & N3 & F1 & F2 & F3 & F4 & I1 & I2).
  destruct BF as (M1 & M2 & M3 & M4 & M5 & TB & W1 & W2 & W3 & W4 & X1 & X2 & E1 & E2 & E3 & E4 & I3 & TD & W5 & X3 & X4 & Y1 & Y2 & Y3 & Y4).
  rewrite Gn. intros [E|[E|[E|[E|[E|E]]]]]; pose proof (f_equal (ve m) E) as E'; pose proof (f_equal (fun h => ve m (tw h)) E) as E''; cbv beta in E''.
  - fold vA in E'. congruence.
  - congruence.
  - fold C2 in E''. congruence.
  - congruence.
  - congruence.
  - congruence.
Qed.
Lemma A1_stays : ~ gone m a A1.
Proof.
  destruct BF as (M1 & M2 & M3 & M4 & M5 & TB & W1 & W2 & W3 & W4 & X1 & X2 & E1 & E2 & E3 & E4 & I3 & TD & W5 & X3 & X4 & Y1 & Y2 & Y3 & Y4).
  destruct AN as (K1 & K2 & K3 & K4). destruct DN as (R1 & R2 & R3 & R4 & R5 & R6).
  destruct AF as (Lb & L1 & L2 & L3 & L4 & L5 & T & V1 & V2 & V3 & V4 & V5 & N1 & N2 & N3 & F1 & F2 & F3 & F4 & I1 & I2).
  rewrite Gn. intros [E|[E|[E|[E|[E|E]]]]]; try contradiction; [|apply R3; auto].
  pose proof (f_equal (fa m) E) as E'. apply Y1. rewrite <- E1. rewrite <- F1. auto.
Qed.
Lemma B2_stays : ~ gone m a B2.
Proof.
  destruct BN as (P1 & P2 & P3 & P4 & P5 & P6 & P7). rewrite Gn. intros [E|[E|[E|[E|[E|E]]]]]; contradiction.
Qed.
Lemma iVH v : liveV m v -> v <> vA -> liveH m (ivh v) /\ ~ gone m a (ivh v) /\ ve m (ivh v) = v.
Proof.
  intros Hv Nv. destruct AF as (Lb & L1 & L2 & L3 & L4 & L5 & T & V1 & V2 & V3 & V4 & V5 & N1 & N2 & N3 & F1 & F2 & F3 & F4 & I1 & I2).
  destruct BF as (M1 & M2 & M3 & M4 & M5 & TB & W1 & W2 & W3 & W4 & X1 & X2 & E1 & E2 & E3 & E4 & I3 & TD & W5 & X3 & X4 & Y1 & Y2 & Y3 & Y4).
  unfold ivh. destruct (inner m vD && (v =? vD)) eqn:ED.
  { apply andb_true_iff in ED as [_ ED]. apply Z.eqb_eq in ED. subst v. split; auto. split; [apply B2_stays|reflexivity]. }
  destruct (inner m vC && (v =? vC)) eqn:EC.
  { apply andb_true_iff in EC as [_ EC]. apply Z.eqb_eq in EC. subst v. split; auto. split; [apply C0_stays|auto]. }
  destruct (inner m vB && (v =? vB)) eqn:EB.
  { apply andb_true_iff in EB as [_ EB]. apply Z.eqb_eq in EB. subst v. split; auto. split; [apply A1_stays|auto]. }
  destruct (cn_vh _ CN v Hv) as [K1 K2]. split; auto. split; auto.
  assert (OUT : forall w, inner m w && (v =? w) = false -> v = w -> ext m (tw (vh m v))).
  { intros w Q E. subst w. rewrite Z.eqb_refl, andb_true_r in Q. unfold inner in Q. unfold ext. clear -Q. lia. }
  rewrite Gn. intros E. rewrite <- K2 in Nv. destruct E as [E|[E|[E|[E|[E|E]]]]]; rewrite E in *; try (exfalso; apply Nv; solve [reflexivity|auto]); symmetry in K2.
  - apply (OUT vB EB) in K2. unfold b in K2. rewrite tw_tw in K2. contradiction.
  - apply (OUT vC EC) in K2. fold C2 in K2. apply IC. auto.
  - assert (K3 : v = vD) by congruence. apply (OUT vD ED) in K3. unfold D1 in K3. rewrite tw_tw in K3. unfold ext in K3. rewrite E1 in K3. apply Ib. exact K3.
Qed.
Lemma iVB h : liveH m h -> ext m (tw h) -> ve m h <> vA /\ ivh (ve m h) = h.
Proof.
  intros H X. assert (K : vh m (ve m h) = h) by (apply (cn_vbd _ CN); auto). split; [intros E; destruct (IN h H E); contradiction|].
  assert (Q : inner m (ve m h) = false). { unfold inner. rewrite K. unfold ext in X. clear -X. lia. }
  unfold ivh. assert (Z : forall w, inner m w && (ve m h =? w) = false). { intros w. destruct (Z.eqb_spec (ve m h) w) as [<-|]; [rewrite Q|apply andb_false_r]; auto. }
  rewrite !Z. exact K.
Qed.
Lemma iFH f : liveFL m f -> liveH m (ifh f) /\ ~ gone m a (ifh f) /\ fa m (ifh f) = f.
Proof.
  intros Hf. destruct AF as (Lb & L1 & L2 & L3 & L4 & L5 & T & V1 & V2 & V3 & V4 & V5 & N1 & N2 & N3 & F1 & F2 & F3 & F4 & I1 & I2).
  destruct BF as (M1 & M2 & M3 & M4 & M5 & TB & W1 & W2 & W3 & W4 & X1 & X2 & E1 & E2 & E3 & E4 & I3 & TD & W5 & X3 & X4 & Y1 & Y2 & Y3 & Y4).
  unfold ifh. destruct (Z.eqb_spec f (fa m a)) as [->|O1]; [split; auto; split; [apply A1_stays|auto]|].
  destruct (Z.eqb_spec f (fa m b)) as [->|O2]; [split; auto; split; [apply B2_stays|auto]|].
  destruct (Z.eqb_spec f (fa m D1)) as [->|O3]; [split; auto; split; [apply D0_stays|auto]|].
  destruct (Z.eqb_spec f (fa m C2)) as [->|O4]; [split; auto; split; [apply C0_stays|auto]|].
  destruct (cn_fh _ CN f Hf) as [K1 K2]. split; auto. split; auto. rewrite Gn. intros [E|[E|[E|[E|[E|E]]]]]; rewrite E in K2; congruence.
Qed.
Section IntDone.
Context (m' : mesh) (DM : dims m' = dims m) (CT : Counted m').
Context (NL : forall h, nx m' h = -1 <-> nx m h = -1 \/ gone m a h).
Context (PN : forall h, liveH m h -> ~ gone m a h -> nx m' h = moved m a (nx m (iback h)) /\ fa m' h = fa m (iback h) /\ ve m' h = if ve m h =? vA then vB else ve m h).
Context (PV : forall v, vh m' v = if v =? vA then -1 else ivh v).
Context (PF : forall f, fh m' f = if (f =? fa m a) || (f =? fa m b) then -1 else if f =? fa m D1 then D0 else if f =? fa m C2 then C0 else fh m f).
Context (CO : nVertices m' = nVertices m - 1 /\ nEdges m' = nEdges m - 3 /\ nFaces m' = nFaces m - 2 /\ nLoops m' = nLoops m).
Lemma int_done : Valid m' /\ Collapsed m m' a.
Proof.
  destruct AF as (Lb & L1 & L2 & L3 & L4 & L5 & T & V1 & V2 & V3 & V4 & V5 & N1 & N2 & N3 & F1 & F2 & F3 & F4 & I1 & I2).
  destruct BF as (M1 & M2 & M3 & M4 & M5 & TB & W1 & W2 & W3 & W4 & X1 & X2 & E1 & E2 & E3 & E4 & I3 & TD & W5 & X3 & X4 & Y1 & Y2 & Y3 & Y4).
  assert (LvA : liveV m vA) by (apply CN; auto). assert (LvB : liveV m vB) by (apply CN; auto). assert (LvC : liveV m vC) by (apply CN; auto). assert (LvD : liveV m vD) by (apply CN; auto).
  assert (Vne : forall v, liveV m v -> ivh v <> -1). { intros v Hv. destruct (Z.eq_dec v vA) as [->|Nv]; [|destruct (iVH v Hv Nv) as [[K _] _]; clear -K; lia].
    unfold ivh. destruct (Z.eqb_spec vA vD); [congruence|]. destruct (Z.eqb_spec vA vC); [congruence|]. destruct (Z.eqb_spec vA vB); [congruence|]. rewrite !andb_false_r. apply LvA. }
  assert (Vdead : forall v, ~ liveV m v -> ivh v = vh m v). { intros v Hv. unfold ivh. destruct (Z.eqb_spec v vD) as [->|]; [contradiction|]. destruct (Z.eqb_spec v vC) as [->|]; [contradiction|]. destruct (Z.eqb_spec v vB) as [->|]; [contradiction|]. rewrite !andb_false_r. auto. }
  assert (VRW : forall v, vh m v = -1 -> ~ liveV m v) by (intros v K [_ K2]; auto).
  assert (Ffa : forall h, liveH m h -> ~ ext m h -> liveF m (fa m h)). { intros h H X. destruct (cn_fa _ CN h H) as [K|K]; auto. exfalso. apply X. unfold ext. destruct K as [K _]. destruct (va_st _ V). clear -K st_f. lia. }
  assert (FA_ : liveF m (fa m a)) by auto. assert (FB_ : liveF m (fa m b)) by auto. assert (FC_ : liveF m (fa m C2)) by auto. assert (FD_ : liveF m (fa m D1)) by auto.
  assert (LD0 : D0 <> -1) by (destruct M5; clear -H; lia). assert (LC0 : C0 <> -1) by (destruct L4; clear -H; lia).
  apply (interior_valid m V TR NS a La Ia IC ivh ifh (gone m a)); auto; try (apply Gn; tauto).
  - apply iVH.
  - intros h H _ X. apply iVB; auto.
  - apply iFH.
  - destruct (va_sl _ V) as [S1 S2]. assert (HD : heFill m' = heFill m /\ vFill m' = vFill m /\ fFill m' = fFill m /\ bFill m' = bFill m /\ fCap m' = fCap m /\ vCap m' = vCap m) by (unfold dims, lens in DM; injection DM as ????????? ?????; auto 8).
    destruct HD as (D_1 & D_2 & D_3 & D_4 & D_5 & D_6). split.
    + intros v Hv. rewrite D_2, D_6 in Hv. rewrite D_1, PV. assert (ND : ~ liveV m v) by (intros [K _]; clear -K Hv; lia). rewrite Vdead by auto. destruct (Z.eqb_spec v vA) as [->|]; [contradiction|]. auto.
    + intros f Hf. rewrite D_3, D_4, D_5 in Hf. rewrite D_1, PF. assert (ND : forall g, liveF m g -> (f =? g) = false) by (intros g [K _]; clear -K Hf; lia). rewrite !ND by auto. cbn [orb]. auto.
  - intros v. rewrite PV. destruct (Z.eqb_spec v vA) as [->|Nv]; [tauto|]. destruct (Z.eq_dec (vh m v) (-1)) as [K|K]; [rewrite Vdead by auto; tauto|].
    destruct (Z_le_dec 0 v) as [B0|B0], (Z_lt_dec v (vFill m)) as [B3|B3]; try (rewrite Vdead by (intros [K2 _]; clear -K2 B0 B3; lia); tauto).
    assert (Lv : liveV m v) by (split; auto). apply Vne in Lv. tauto.
  - intros f. rewrite PF. destruct (Z.eqb_spec f (fa m a)) as [->|O1]; [cbn; tauto|]. destruct (Z.eqb_spec f (fa m b)) as [->|O2]; [cbn; tauto|]. cbn [orb].
    destruct (Z.eqb_spec f (fa m D1)) as [->|O3]; [destruct FD_; tauto|]. destruct (Z.eqb_spec f (fa m C2)) as [->|O4]; [destruct FC_; tauto|]. fold b. tauto.
  - intros h H.
    assert (H' : liveH m h /\ ~ gone m a h). { apply (c3_L m V TR NS a La Ia ivh ifh Ib ID DEG) in H. rewrite Gn. tauto. }
    destruct H' as [H1 H2]. destruct (PN h H1 H2) as (P1 & P2 & P3). rewrite Gn in H2.
    destruct BN as (U1 & U2 & U3 & U4 & U5 & U6 & U7). destruct DN as (R1 & R2 & R3 & R4 & R5 & R6).
    assert (BK : liveH m (iback h) /\ fa m (iback h) <> fa m a /\ fa m (iback h) <> fa m b /\ moved m a (iback h) = h).
    { assert (MV : forall k, moved m a k = if k =? C2 then A1 else if k =? D1 then B2 else k).
      { intros k. unfold moved. fold b A1 A2 C2 B1 B2 D1. destruct (Z.leb_spec (fFill m) (fa m b)) as [K|K]; [exfalso; apply Ib; exact K|auto]. }
      rewrite MV. unfold iback. destruct (Z.eqb_spec h A1) as [->|O1]; [rewrite Z.eqb_refl; repeat (split; auto); apply (C2_facts m V TR NS a La Ia)|].
      destruct (Z.eqb_spec h B2) as [->|O2]; [rewrite Z.eqb_refl; destruct (Z.eqb_spec D1 C2); [contradiction|]; auto|].
      split; auto. split; [|split].
      - intros E. destruct (in_A m V TR a La Ia h H1 E) as [K|[K|K]]; [apply H2; auto|auto|apply H2; auto].
      - intros E. destruct (in_B m V TR a La Ib h H1 E) as [K|[K|K]]; [apply H2; auto|apply H2; auto 8|auto].
      - destruct (Z.eqb_spec h C2); [exfalso; apply H2; auto|]. destruct (Z.eqb_spec h D1); [exfalso; apply H2; auto 8|auto]. }
    destruct BK as (K1 & K2 & K3 & K4). destruct (c3_moved m V TR NS a La Ia ivh ifh Ib ID DEG (iback h) K1 K2 K3) as (Q1 & Q2 & Q3). rewrite K4 in Q2, Q3.
    split; [etransitivity; [exact P1|symmetry; exact Q3]|]. split; [etransitivity; [exact P2|symmetry; exact Q2]|]. exact P3.
  - intros v Hv Nv. rewrite PV. fold vA in Nv. destruct (Z.eqb_spec v vA); congruence.
  - intros f Hf O1 O2. fold b in O2. rewrite PF. unfold ifh. destruct (Z.eqb_spec f (fa m a)); [contradiction|]. destruct (Z.eqb_spec f (fa m b)); [contradiction|]. auto.
Qed.
End IntDone.

(** the end of the two interior cases: representatives of the vertices around, then deletions *)
Lemma int_finish M : SameLive m M -> (forall k, liveH m k -> 0 <= fa M k) ->
  (forall h, liveH m h -> ~ gone m a h -> nx M h = moved m a (nx m (iback h)) /\ fa M h = fa m (iback h) /\ ve M h = if ve m h =? vA then vB else ve m h) ->
  (forall v, vh M v = vh m v) -> (forall f, fh M f = if f =? fa m D1 then D0 else if f =? fa m C2 then C0 else fh m f) ->
  exists m', (let* w := setVHeUnlessBoundary M vB A1 in let* w := setVHeUnlessBoundary w vC C0 in let* w := setVHeUnlessBoundary w vD B2 in
  let* w := deleteEdgeBundle w (edge a) in let* w := deleteEdgeBundle w (edge B1) in let* w := deleteEdgeBundle w (edge A2) in
  let* w := deleteVertex w vA in let* w := deleteFace w (fa m a) in let* w := deleteFace w (fa m b) in Ok (w, Some vB)) = Ok (m', Some vB) /\ Valid m' /\ Collapsed m m' a.
Proof.
  intros SL FP PN VM FM.
  destruct AF as (Lb & L1 & L2 & L3 & L4 & L5 & T & V1 & V2 & V3 & V4 & V5 & N1 & N2 & N3 & F1 & F2 & F3 & F4 & I1 & I2).
  destruct BF as (M1 & M2 & M3 & M4 & M5 & TB & W1 & W2 & W3 & W4 & X1 & X2 & E1 & E2 & E3 & E4 & I3 & TD & W5 & X3 & X4 & Y1 & Y2 & Y3 & Y4).
  destruct DN as (R1 & R2 & R3 & R4 & R5 & R6).
  assert (LvA : liveV m vA) by (apply CN; auto). assert (LvB : liveV m vB) by (apply CN; auto). assert (LvC : liveV m vC) by (apply CN; auto). assert (LvD : liveV m vD) by (apply CN; auto).
  destruct (sl_kept _ _ SL) as [SC LE]. assert (LE' := LE). unfold lens in LE'. injection LE' as LE1 LE2 LE3 LE4 LE5. assert (FF : fFill M = fFill m) by (unfold scal in SC; congruence).
  destruct (vh_writes m M vB vC vD A1 C0 B2) as (M' & RV & KV & PV & FV & VV); auto.
  { intros k K. split; auto. apply (sl_i _ _ SL). apply K. }
  assert (SL' : SameLive M M'). { split; auto.
    - intros h. rewrite (proj1 (PV h)). tauto.
    - intros h _. rewrite (proj2 (proj2 (PV h))). tauto.
    - intros v. rewrite VV, VM. destruct (inner m vD && (v =? vD)) eqn:K1; [apply andb_true_iff in K1 as [_ K1]; apply Z.eqb_eq in K1; subst v; destruct LvD, M2 as [M2 _]; clear -H0 M2; lia|].
      destruct (inner m vC && (v =? vC)) eqn:K2; [apply andb_true_iff in K2 as [_ K2]; apply Z.eqb_eq in K2; subst v; destruct LvC, L4 as [L4 _]; clear -H0 L4; lia|].
      destruct (inner m vB && (v =? vB)) eqn:K3; [apply andb_true_iff in K3 as [_ K3]; apply Z.eqb_eq in K3; subst v; destruct LvB, L1 as [L1 _]; clear -H0 L1; lia|]. tauto.
    - intros f. rewrite FV. tauto. }
  pose proof (same_live_trans _ _ _ SL SL') as S2. assert (ST : Stored M') by (eapply kept_stored; [apply S2|apply V]). assert (CT : Counted M') by (eapply same_live_counted; [exact S2|apply V]).
  pose proof (kept_dims _ _ (sl_kept _ _ S2)) as DM. destruct (dims_fill _ _ DM) as (D_1 & D_2 & D_3).
  assert (AL : forall k, liveH m k -> alive M' k). { intros k K. split; [rewrite D_1; apply K|]. split; [rewrite (sl_h _ _ S2); apply K|]. rewrite (proj2 (proj2 (PV k))). auto. }
  assert (FL : forall k, liveH m k -> ~ ext m k -> liveF M' (fa m k)). { intros k K X. destruct (cn_fa _ CN k K) as [[P Q]|[P Q]]; [|exfalso; apply X; unfold ext; destruct (va_st _ V); clear -P st_f; lia].
    split; [rewrite D_3; auto|]. rewrite (sl_f _ _ S2). auto. }
  destruct (C2_facts m V TR NS a La Ia) as (FC & Q1 & Q2 & Q3 & Q4).
  assert (Q5 : A2 <> a) by (intros E; apply (f_equal (ve m)) in E; fold vC vA in E; auto). assert (Q6 : B1 <> b) by (intros E; apply (f_equal (ve m)) in E; fold vB in E; congruence). assert (Q7 : B1 <> a) by (intros E; apply (f_equal (fa m)) in E; congruence). assert (Q8 : A2 <> b) by (intros E; apply (f_equal (ve m)) in E; fold vB vC in E; congruence).
  assert (Q9 : B1 <> A2) by (intros E; apply (f_equal (ve m)) in E; fold vC in E; congruence).
  destruct (del_int M' a B1 A2 vA (fa m a) (fa m b)) as (m' & RD & DD & CD & NXD & VFD & VHD & FHD & COD).
  { exact ST. } { exact CT. } { apply AL. exact La. } { apply AL. exact Lb. } { apply AL. exact M1. } { apply AL. exact M3. } { apply AL. exact L2. } { apply AL. exact L3. }
  { repeat split; auto. } { repeat split; auto. }
  { repeat split; auto. }
  { split; [rewrite D_2; apply LvA|]. rewrite (sl_v _ _ S2). apply LvA. }
  { apply FL; auto. } { apply FL; auto. } { auto. }
  assert (IE : forall k, isE k a || isE k B1 || isE k A2 = true <-> gone m a k). { intros k. rewrite !orb_true_iff, !isE_iff, Gn. fold b C2 D1. clear. tauto. }
  exists m'. split.
  - repeat match type of RV with bind ?x _ = _ => destruct x as [?| |]; cbn [bind] in RV |- *; [|discriminate RV|discriminate RV] end. rewrite RV. cbn [bind].
    repeat match type of RD with bind ?x _ = _ => destruct x as [?| |]; cbn [bind] in RD |- *; [|discriminate RD|discriminate RD] end. rewrite RD. reflexivity.
  - apply int_done; auto.
    + rewrite DD. exact DM.
    + intros h. rewrite NXD. rewrite <- IE. destruct (isE h a || isE h B1 || isE h A2); [clear; tauto|]. rewrite (sl_h _ _ S2). intuition discriminate.
    + intros h H G. assert (K : isE h a || isE h B1 || isE h A2 = false) by (rewrite <- IE in G; apply not_true_is_false; auto). rewrite NXD, K. destruct (VFD h K) as [-> ->]. destruct (PV h) as (-> & -> & ->). apply PN; auto.
    + intros v. rewrite VHD, VV. reflexivity.
    + intros f. rewrite FHD, FV, FM. reflexivity.
    + assert (scal M' = scal m) by apply S2. unfold scal in H. injection H as _ _ G1 G2 G3 G4 _ _ _ _ _ _ _ _ _. clear -COD G1 G2 G3 G4. lia.
Qed.

Let MV k : moved m a k = if k =? C2 then A1 else if k =? D1 then B2 else k.
Proof. unfold moved. fold b. fold A1. fold A2. fold C2. fold B1. fold B2. fold D1. destruct (Z.leb_spec (fFill m) (fa m b)) as [K|K]; [exfalso; apply Ib; exact K|auto]. Qed.
Let RN h : liveH m h -> next m h = Ok (nx m h). Proof. apply next_live; auto. Qed.
Let RF h : liveH m h -> faceOf m h = Ok (fa m h). Proof. intros H. apply faceOf_ok. apply (liveH_bnd m V) in H. tauto. Qed.
Let RV h : liveH m h -> vertexOf m h = Ok (ve m h). Proof. intros H. apply vertexOf_ok. apply (liveH_bnd m V) in H. tauto. Qed.

(** the first vertex has more than three edges *)
Section More.
Context (NE : D2 <> C2).
Lemma fC_fD : fa m C2 <> fa m D1.
Proof.
  destruct AF as (Lb & L1 & L2 & L3 & L4 & L5 & T & V1 & V2 & V3 & V4 & V5 & N1 & N2 & N3 & F1 & F2 & F3 & F4 & I1 & I2).
  destruct BF as (M1 & M2 & M3 & M4 & M5 & TB & W1 & W2 & W3 & W4 & X1 & X2 & E1 & E2 & E3 & E4 & I3 & TD & W5 & X3 & X4 & Y1 & Y2 & Y3 & Y4).
  destruct CF as (G1 & G2 & G3 & G4 & G5 & G6 & G7 & G8).
  intros E. assert (K : D2 = C2 \/ D2 = C0 \/ D2 = C1). { apply tri_members; auto. congruence. }
  destruct K as [K|[K|K]]; [contradiction|apply (f_equal (ve m)) in K; congruence|apply (f_equal (ve m)) in K; congruence].
Qed.
Lemma run_interior : exists m', collapseInterior m (edge a) a = Ok (m', Some vB) /\ Valid m' /\ Collapsed m m' a.
Proof.
  destruct AF as (Lb & L1 & L2 & L3 & L4 & L5 & T & V1 & V2 & V3 & V4 & V5 & N1 & N2 & N3 & F1 & F2 & F3 & F4 & I1 & I2).
  destruct BF as (M1 & M2 & M3 & M4 & M5 & TB & W1 & W2 & W3 & W4 & X1 & X2 & E1 & E2 & E3 & E4 & I3 & TD & W5 & X3 & X4 & Y1 & Y2 & Y3 & Y4).
  destruct CF as (G1 & G2 & G3 & G4 & G5 & G6 & G7 & G8). destruct DN as (R1 & R2 & R3 & R4 & R5 & R6). destruct BN as (P1 & P2 & P3 & P4 & P5 & P6 & P7). destruct AN as (K1 & K2 & K3 & K4).
  destruct (C2_facts m V TR NS a La Ia) as (FC & Q1 & Q2 & Q3 & Q4). pose proof fC_fD as FCD.
  assert (LvA : liveV m vA) by (apply CN; auto).
  unfold collapseInterior. cbv zeta. rewrite (RN a La). cbn [bind]. fold A1. rewrite (RN A1 L1). cbn [bind]. fold A2. fold b. rewrite (RN b Lb). cbn [bind]. fold B1. rewrite (RN B1 M1). cbn [bind]. fold B2. fold C2.
  rewrite (RN C2 L3). cbn [bind]. fold C0. rewrite (RN C0 L4). cbn [bind]. fold C1. fold D1. rewrite (RN D1 M3). cbn [bind]. fold D2. rewrite (RN D2 M4). cbn [bind]. fold D0.
  rewrite (RF a La), (RF b Lb), (RF C0 L4), (RF D0 M5), (RV a La), (RV b Lb), (RV C0 L4), (RV D1 M3). cbn [bind]. rewrite F3, E4, V5, W3. fold vA. fold vB.
  destruct (moveVertex_ok m vA vB V LvA) as (m1 & RM & SM & HN1 & HF1 & HV1 & HFH1 & VE1). rewrite RM. cbn [bind].
  destruct (sl_kept _ _ SM) as [SC LE]. assert (LE' := LE). unfold lens in LE'. injection LE' as LE1 LE2 LE3 LE4 LE5.
  assert (BH : forall h, liveH m h -> 0 <= h < zlen (heNext m1)) by (intros h H; rewrite LE1; apply (liveH_bnd m V) in H; tauto).
  assert (BF_ : forall h, liveH m h -> 0 <= h < zlen (heFace m1)) by (intros h H; rewrite HF1; apply (liveH_bnd m V) in H; tauto).
  assert (BG : forall h, liveH m h -> 0 <= fa m h < zlen (fHalfedge m1)) by (intros h H; rewrite HFH1; apply (liveFL_bnd m V), CN; auto).
  rewrite setNext_ok by (apply BH; auto). cbn [bind].
  rewrite setNext_ok by (unfold with_next; proj; rewrite ?zlen_updZ; apply BH; auto). cbn [bind].
  rewrite setNext_ok by (unfold with_next; proj; rewrite ?zlen_updZ; apply BH; auto). cbn [bind].
  rewrite setNext_ok by (unfold with_next; proj; rewrite ?zlen_updZ; apply BH; auto). cbn [bind].
  set (w4 := with_next _ A1 C0). assert (NX4 : forall h, nx w4 h = if h =? A1 then C0 else if h =? C1 then A1 else if h =? B2 then D2 else if h =? D0 then B2 else nx m h).
  { intros h. unfold w4. rewrite nx_wnext by (unfold with_next; proj; rewrite ?zlen_updZ; apply BH; auto). rewrite nx_wnext by (unfold with_next; proj; rewrite ?zlen_updZ; apply BH; auto).
    rewrite nx_wnext by (unfold with_next; proj; rewrite ?zlen_updZ; apply BH; auto). rewrite nx_wnext by (apply BH; auto). unfold nx at 1. rewrite HN1. reflexivity. }
  assert (O4 : heFace w4 = heFace m1 /\ fHalfedge w4 = fHalfedge m1 /\ vHalfedge w4 = vHalfedge m1 /\ heVertex w4 = heVertex m1) by (repeat split; reflexivity). destruct O4 as (O4 & O5 & O6 & O7).
  assert (KP4 : Kept m w4). { eapply kept_trans; [split; [exact SC|exact LE]|]. unfold w4. eapply kept_trans; [|apply stored_wnext]. eapply kept_trans; [|apply stored_wnext]. eapply kept_trans; [|apply stored_wnext]. apply stored_wnext. }
  clearbody w4.
  rewrite setFace_ok by (rewrite O4; apply BF_; auto). cbn [bind]. rewrite setFace_ok by (unfold with_face; proj; rewrite zlen_updZ, O4; apply BF_; auto). cbn [bind].
  rewrite setFHe_ok by (proj; rewrite O5; apply BG; auto). cbn [bind]. rewrite setFHe_ok by (proj; rewrite zlen_updZ, O5; apply BG; auto). cbn [bind].
  set (M := with_fhe _ (fa m D1) D0).
  assert (NXM : forall h, nx M h = if h =? A1 then C0 else if h =? C1 then A1 else if h =? B2 then D2 else if h =? D0 then B2 else nx m h) by exact NX4.
  assert (FAM : forall h, fa M h = if h =? A1 then fa m C2 else if h =? B2 then fa m D1 else fa m h).
  { intros h. unfold M. rewrite !fa_wfhe. rewrite fa_wface by (proj; rewrite zlen_updZ, O4; apply BF_; auto). rewrite fa_wface by (rewrite O4; apply BF_; auto). unfold fa at 3. rewrite O4, HF1. reflexivity. }
  assert (VEM : forall h, liveH m h -> ve M h = if ve m h =? vA then vB else ve m h). { intros h H. rewrite <- VE1 by auto. unfold M. rewrite !ve_wfhe, !ve_wface. unfold ve. rewrite O7. reflexivity. }
  assert (VHM : forall v, vh M v = vh m v). { intros v. unfold M. rewrite !vh_wfhe, !vh_wface. unfold vh. rewrite O6, HV1. reflexivity. }
  assert (FHM : forall f, fh M f = if f =? fa m D1 then D0 else if f =? fa m C2 then C0 else fh m f).
  { intros f. unfold M. rewrite fh_wfhe by (proj; rewrite zlen_updZ, O5; apply BG; auto). rewrite fh_wfhe by (proj; rewrite O5; apply BG; auto). rewrite !fh_wface. unfold fh at 1. rewrite O5, HFH1. reflexivity. }
  assert (KPM : Kept m M). { eapply kept_trans; [exact KP4|]. unfold M. eapply kept_trans; [|apply stored_wfhe]. eapply kept_trans; [|apply stored_wfhe]. eapply kept_trans; [|apply stored_wface]. apply stored_wface. }
  clearbody M. clear NX4 O4 O5 O6 O7 KP4.
  assert (POS : forall h, liveH m h -> h <> -1) by (intros h [[H _] _]; clear -H; lia).
  assert (FPOS : forall h, liveH m h -> 0 <= fa m h) by (intros h H; apply (liveFL_bnd m V); apply CN; auto).
  apply int_finish; auto.
  - split; auto.
    + intros h. rewrite NXM. destruct (Z.eqb_spec h A1) as [->|]; [pose proof (POS _ L4); destruct L1; tauto|]. destruct (Z.eqb_spec h C1) as [->|]; [pose proof (POS _ L1); destruct L5; tauto|].
      destruct (Z.eqb_spec h B2) as [->|]; [pose proof (POS _ M4); destruct M2; tauto|]. destruct (Z.eqb_spec h D0) as [->|]; [pose proof (POS _ M2); destruct M5; tauto|]. tauto.
    + intros h _. rewrite FAM. pose proof (IC : ~ fFill m <= fa m C2) as Z1. pose proof (ID : ~ fFill m <= fa m D1) as Z2. unfold ext in I1, I3. clear -Z1 Z2 I1 I3. destruct (Z.eqb_spec h A1) as [->|]; [tauto|]. destruct (Z.eqb_spec h B2) as [->|]; tauto.
    + intros v. rewrite VHM. tauto.
    + intros f. rewrite FHM. destruct (Z.eqb_spec f (fa m D1)) as [->|].
      { pose proof (POS _ M5). assert (fh m (fa m D1) <> -1) by (destruct (cn_fa _ CN D1 M3) as [[_ ?]|[_ ?]]; auto). tauto. }
      destruct (Z.eqb_spec f (fa m C2)) as [->|]; [|tauto]. pose proof (POS _ L4). assert (fh m (fa m C2) <> -1) by (destruct (cn_fa _ CN C2 L3) as [[_ ?]|[_ ?]]; auto). tauto.
  - intros k H. rewrite FAM. destruct (k =? A1); auto. destruct (k =? B2); auto.
  - intros h H GN. split; [|split; [|apply VEM; auto]].
    + rewrite NXM, MV. unfold iback. destruct (Z.eqb_spec h A1) as [->|H1].
      { fold C0. destruct (Z.eqb_spec C0 C2); [contradiction|]. destruct (Z.eqb_spec C0 D1) as [E|]; auto. exfalso. apply FCD. rewrite <- F3, E. auto. }
      destruct (Z.eqb_spec h B2) as [->|H2].
      { fold D2. destruct (Z.eqb_spec B2 C1) as [E|]. { apply (f_equal (fun h => ve m (tw h))) in E. congruence. }
        destruct (Z.eqb_spec D2 C2); [contradiction|]. destruct (Z.eqb_spec D2 D1) as [E|]; auto. apply (f_equal (ve m)) in E. congruence. }
      destruct (Z.eqb_spec h C1) as [->|H3]; [rewrite G1, Z.eqb_refl; auto|]. destruct (Z.eqb_spec h D0) as [->|H4]; [rewrite TD, Z.eqb_refl; destruct (Z.eqb_spec D1 C2); [contradiction|auto]|].
      destruct (Z.eqb_spec (nx m h) C2) as [E|]. { exfalso. apply H3. apply (cn_inj _ CN); auto. congruence. }
      destruct (Z.eqb_spec (nx m h) D1) as [E|]; auto. exfalso. apply H4. apply (cn_inj _ CN); auto. congruence.
    + rewrite FAM. unfold iback. destruct (h =? A1); auto. destruct (h =? B2); auto.
Qed.
End More.

(** ... or exactly three *)
Section Three.
Context (EQ : D2 = C2).
Lemma three_facts : D0 = C0 /\ D1 = C1 /\ fa m D1 = fa m C2 /\ forall k, liveH m k -> ve m k = vA -> k = a \/ k = B1 \/ k = C2.
Proof.
  destruct AF as (Lb & L1 & L2 & L3 & L4 & L5 & T & V1 & V2 & V3 & V4 & V5 & N1 & N2 & N3 & F1 & F2 & F3 & F4 & I1 & I2).
  destruct BF as (M1 & M2 & M3 & M4 & M5 & TB & W1 & W2 & W3 & W4 & X1 & X2 & E1 & E2 & E3 & E4 & I3 & TD & W5 & X3 & X4 & Y1 & Y2 & Y3 & Y4).
  assert (Q0 : D0 = C0) by (unfold D0; rewrite EQ; reflexivity). assert (Q1 : D1 = C1) by (rewrite <- TD, Q0; reflexivity).
  split; auto. split; auto. split; [congruence|].
  intros k K E. destruct (cn_vorb _ CN a k La K) as [n <-]; [auto|]. clear K E.
  induction n as [|n IH]; [left; reflexivity|]. change (Nat.iter (S n) (ro m) a) with (ro m (Nat.iter n (ro m) a)). destruct IH as [-> |[-> | ->]].
  - right; left. reflexivity.
  - right; right. exact EQ.
  - left. unfold ro, C2. rewrite tw_tw. exact T.
Qed.
Lemma run_degree3 : exists m', collapseDegree3 m (edge a) a = Ok (m', Some vB) /\ Valid m' /\ Collapsed m m' a.
Proof.
  destruct AF as (Lb & L1 & L2 & L3 & L4 & L5 & T & V1 & V2 & V3 & V4 & V5 & N1 & N2 & N3 & F1 & F2 & F3 & F4 & I1 & I2).
  destruct BF as (M1 & M2 & M3 & M4 & M5 & TB & W1 & W2 & W3 & W4 & X1 & X2 & E1 & E2 & E3 & E4 & I3 & TD & W5 & X3 & X4 & Y1 & Y2 & Y3 & Y4).
  destruct CF as (G1 & G2 & G3 & G4 & G5 & G6 & G7 & G8). destruct DN as (R1 & R2 & R3 & R4 & R5 & R6). destruct BN as (P1 & P2 & P3 & P4 & P5 & P6 & P7). destruct AN as (K1 & K2 & K3 & K4).
  destruct (C2_facts m V TR NS a La Ia) as (FC & Q1 & Q2 & Q3 & Q4). destruct three_facts as (D0C & D1C & FCD & ORB).
  unfold collapseDegree3. cbv zeta. rewrite (RN a La). cbn [bind]. fold A1. rewrite (RN A1 L1). cbn [bind]. fold A2. fold b. rewrite (RN b Lb). cbn [bind]. fold B1. rewrite (RN B1 M1). cbn [bind]. fold B2. fold C2.
  rewrite (RN C2 L3). cbn [bind]. fold C0. rewrite (RN C0 L4). cbn [bind]. fold C1.
  assert (VC1 : ve m C1 = vD) by (rewrite <- D1C; exact W3).
  rewrite (RF a La), (RF b Lb), (RF C0 L4), (RV a La), (RV b Lb), (RV C0 L4), (RV C1 L5). cbn [bind]. rewrite F3, V5, VC1. fold vA. fold vB.
  assert (BH : forall h, liveH m h -> 0 <= h < zlen (heNext m)) by (intros h H; apply (liveH_bnd m V) in H; tauto).
  assert (BF_ : forall h, liveH m h -> 0 <= h < zlen (heFace m)) by (intros h H; apply (liveH_bnd m V) in H; tauto).
  assert (BG : forall h, liveH m h -> 0 <= fa m h < zlen (fHalfedge m)) by (intros h H; apply (liveFL_bnd m V), CN; auto).
  rewrite setNext_ok by (apply BH; auto). cbn [bind].
  rewrite setNext_ok by (unfold with_next; proj; rewrite ?zlen_updZ; apply BH; auto). cbn [bind].
  rewrite setNext_ok by (unfold with_next; proj; rewrite ?zlen_updZ; apply BH; auto). cbn [bind].
  set (w4 := with_next _ B2 A1). assert (NX4 : forall h, nx w4 h = if h =? B2 then A1 else if h =? C0 then B2 else if h =? A1 then C0 else nx m h).
  { intros h. unfold w4. rewrite nx_wnext by (unfold with_next; proj; rewrite ?zlen_updZ; apply BH; auto). rewrite nx_wnext by (unfold with_next; proj; rewrite ?zlen_updZ; apply BH; auto).
    rewrite nx_wnext by (apply BH; auto). reflexivity. }
  assert (O4 : heFace w4 = heFace m /\ fHalfedge w4 = fHalfedge m /\ vHalfedge w4 = vHalfedge m /\ heVertex w4 = heVertex m) by (repeat split; reflexivity). destruct O4 as (O4 & O5 & O6 & O7).
  assert (KP4 : Kept m w4). { unfold w4. eapply kept_trans; [|apply stored_wnext]. eapply kept_trans; [|apply stored_wnext]. apply stored_wnext. }
  clearbody w4.
  rewrite setFace_ok by (rewrite O4; apply BF_; auto). cbn [bind]. rewrite setFace_ok by (unfold with_face; proj; rewrite zlen_updZ, O4; apply BF_; auto). cbn [bind].
  rewrite setFHe_ok by (proj; rewrite O5; apply BG; auto). cbn [bind].
  set (M := with_fhe _ (fa m C2) C0).
  assert (NXM : forall h, nx M h = if h =? B2 then A1 else if h =? C0 then B2 else if h =? A1 then C0 else nx m h) by exact NX4.
  assert (FAM : forall h, fa M h = if h =? A1 then fa m C2 else if h =? B2 then fa m C2 else fa m h).
  { intros h. unfold M. rewrite !fa_wfhe. rewrite fa_wface by (proj; rewrite zlen_updZ, O4; apply BF_; auto). rewrite fa_wface by (rewrite O4; apply BF_; auto). unfold fa at 3. rewrite O4. reflexivity. }
  assert (VEM : forall h, ve M h = ve m h). { intros h. unfold M. rewrite !ve_wfhe, !ve_wface. unfold ve. rewrite O7. reflexivity. }
  assert (VHM : forall v, vh M v = vh m v). { intros v. unfold M. rewrite !vh_wfhe, !vh_wface. unfold vh. rewrite O6. reflexivity. }
  assert (FHM : forall f, fh M f = if f =? fa m C2 then C0 else fh m f).
  { intros f. unfold M. rewrite fh_wfhe by (proj; rewrite O5; apply BG; auto). rewrite !fh_wface. unfold fh at 1. rewrite O5. reflexivity. }
  assert (KPM : Kept m M). { eapply kept_trans; [exact KP4|]. unfold M. eapply kept_trans; [|apply stored_wfhe]. eapply kept_trans; [|apply stored_wface]. apply stored_wface. }
  clearbody M. clear NX4 O4 O5 O6 O7 KP4.
  assert (POS : forall h, liveH m h -> h <> -1) by (intros h [[H _] _]; clear -H; lia).
  assert (FPOS : forall h, liveH m h -> 0 <= fa m h) by (intros h H; apply (liveFL_bnd m V); apply CN; auto).
  apply int_finish; auto.
  - split; auto.
    + intros h. rewrite NXM. destruct (Z.eqb_spec h B2) as [->|]; [pose proof (POS _ L1) as Z1; destruct M2 as [_ Z2]; clear -Z1 Z2; tauto|]. destruct (Z.eqb_spec h C0) as [->|]; [pose proof (POS _ M2) as Z1; destruct L4 as [_ Z2]; clear -Z1 Z2; tauto|].
      destruct (Z.eqb_spec h A1) as [->|]; [pose proof (POS _ L4) as Z1; destruct L1 as [_ Z2]; clear -Z1 Z2; tauto|]. clear; tauto.
    + intros h _. rewrite FAM. pose proof (IC : ~ fFill m <= fa m C2) as Z1. unfold ext in I1, I3. clear -Z1 I1 I3. destruct (Z.eqb_spec h A1) as [->|]; [tauto|]. destruct (Z.eqb_spec h B2) as [->|]; tauto.
    + intros v. rewrite VHM. clear; tauto.
    + intros f. rewrite FHM. destruct (Z.eqb_spec f (fa m C2)) as [->|]; [|clear; tauto]. pose proof (POS _ L4) as Z1. assert (Z2 : fh m (fa m C2) <> -1) by (destruct (cn_fa _ CN C2 L3) as [[_ ?]|[_ ?]]; auto). clear -Z1 Z2. tauto.
  - intros k H. rewrite FAM. destruct (k =? A1); auto. destruct (k =? B2); auto.
  - intros h H GN. split; [|split].
    + rewrite NXM, MV. unfold iback. destruct (Z.eqb_spec h A1) as [->|H1].
      { fold C0. destruct (Z.eqb_spec C0 C2); [contradiction|]. destruct (Z.eqb_spec A1 B2); [congruence|]. destruct (Z.eqb_spec A1 C0); [congruence|]. destruct (Z.eqb_spec C0 D1) as [E|]; auto. exfalso. apply (f_equal (nx m)) in E. fold C1 in E. fold D2 in E. congruence. }
      destruct (Z.eqb_spec h B2) as [->|H2].
      { fold D2. rewrite EQ, Z.eqb_refl. auto. }
      destruct (Z.eqb_spec h C0) as [->|H3]. { fold C1. rewrite D1C. rewrite Z.eqb_refl. destruct (Z.eqb_spec C1 C2); [contradiction|auto]. }
      destruct (Z.eqb_spec (nx m h) C2) as [E|]. { exfalso. apply GN. apply Gn. do 5 right. rewrite D1C. apply (cn_inj _ CN); auto. congruence. }
      destruct (Z.eqb_spec (nx m h) D1) as [E|]; auto. exfalso. apply H3. apply (cn_inj _ CN); auto. fold C1. congruence.
    + rewrite FAM. unfold iback. rewrite FCD || idtac. destruct (h =? A1); auto. destruct (h =? B2); auto.
    + rewrite VEM. destruct (Z.eqb_spec (ve m h) vA) as [E|]; auto. exfalso. apply GN. apply Gn. destruct (ORB h H E) as [|[|]]; auto 8.
  - intros f. rewrite FHM, FCD, D0C. destruct (f =? fa m C2); auto.
Qed.
End Three.
End Int.
