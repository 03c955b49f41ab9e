(** Collapsing an edge leaves a valid mesh: the arrays compared with the abstract contraction. *)
From Verif Require Import Base MeshModel MeshModel2 MeshSpec MeshBase MeshExec MeshOrbit MeshFlip MeshDel MeshOpSpec MeshThms MeshConnect MeshSplit CollapseModel CollapseMap CollapseSpec.
Open Scope Z_scope.

Section Core.
Context (m : mesh) (V : Valid m) (TR : triangular m) (NS : noSelfEdges m) (a : Z) (La : liveH m a) (Ia : ~ ext m a).
Let CN := va_cn _ V.
Let b := tw a.
Let A1 := nx m a.
Let A2 := nx m A1.
Let C2 := tw A2.
Let C0 := nx m C2.
Let C1 := nx m C0.
Let vA := ve m a.
Let vB := ve m b.
Let vC := ve m A2.
Lemma tri_nx h : liveH m h -> ~ ext m h -> nx m (nx m (nx m h)) = h.
Proof. intros H I. apply (TR h H I). Qed.
Lemma ext_nx h : liveH m h -> (ext m (nx m h) <-> ext m h).
Proof. intros H. unfold ext. rewrite (cn_fnx _ CN) by auto. tauto. Qed.
Lemma a_facts : liveH m b /\ liveH m A1 /\ liveH m A2 /\ liveH m C2 /\ liveH m C0 /\ liveH m C1 /\
  nx m A2 = a /\ ve m A1 = vB /\ ve m (tw A1) = vC /\ ve m C2 = vA /\ ve m (tw b) = vA /\ ve m C0 = vC /\
  vA <> vB /\ vB <> vC /\ vC <> vA /\ fa m A1 = fa m a /\ fa m A2 = fa m a /\ fa m C0 = fa m C2 /\ fa m C1 = fa m C2 /\ ~ ext m A1 /\ ~ ext m A2.
Proof.
  assert (Lb : liveH m b) by (apply CN; auto). assert (L1 : liveH m A1) by (apply CN; auto). assert (L2 : liveH m A2) by (apply CN; auto).
  assert (L3 : liveH m C2) by (apply CN; auto). assert (L4 : liveH m C0) by (apply CN; auto). assert (L5 : liveH m C1) by (apply CN; auto).
  assert (T : nx m A2 = a) by (apply tri_nx; auto).
  assert (V1 : ve m A1 = vB) by (apply (cn_vnx _ CN); auto). assert (V2 : vC = ve m (tw A1)) by (apply (cn_vnx _ CN); auto).
  assert (V3 : vA = ve m C2). { unfold vA, C2. rewrite <- (cn_vnx _ CN A2 L2), T. auto. }
  assert (V4 : ve m C0 = vC). { unfold C0. rewrite (cn_vnx _ CN) by auto. unfold C2. rewrite tw_tw. auto. }
  assert (V5 : ve m (tw b) = vA) by (unfold b; rewrite tw_tw; auto).
  assert (N1 : vA <> vB) by (apply NS; auto). assert (N2 : vB <> vC) by (rewrite <- V1, V2; apply NS; auto). assert (N3 : vC <> vA) by (rewrite V3; apply NS; auto).
  assert (F1 : fa m A1 = fa m a) by (apply (cn_fnx _ CN); auto). assert (F2 : fa m A2 = fa m a) by (rewrite <- F1; apply (cn_fnx _ CN); auto).
  assert (F3 : fa m C0 = fa m C2) by (apply (cn_fnx _ CN); auto). assert (F4 : fa m C1 = fa m C2) by (rewrite <- F3; apply (cn_fnx _ CN); auto).
  repeat (split; auto); unfold ext; rewrite ?F1, ?F2; exact Ia.
Qed.
Lemma in_A h : liveH m h -> fa m h = fa m a -> h = a \/ h = A1 \/ h = A2.
Proof. intros H E. apply tri_members; auto. apply tri_nx; auto. Qed.
Lemma C2_facts : fa m C2 <> fa m a /\ C2 <> a /\ C2 <> A1 /\ C2 <> A2 /\ C2 <> b.
Proof.
  destruct a_facts as (Lb & L1 & L2 & L3 & L4 & L5 & T & V1 & V2 & V3 & V4 & V5 & N1 & N2 & N3 & F1 & F2 & F3 & F4 & _).
  assert (Q1 : C2 <> a). { intros E. apply (f_equal tw) in E. unfold C2 in E. rewrite tw_tw in E. assert (vC = vB) by (unfold vC, vB, b; congruence). congruence. }
  assert (Q2 : C2 <> A1) by (intros E; apply (f_equal (ve m)) in E; congruence). assert (Q3 : C2 <> A2) by (unfold C2; apply tw_neq).
  assert (Q4 : C2 <> b) by (intros E; apply (f_equal (ve m)) in E; unfold vB in *; congruence).
  split; [|auto]. intros E. destruct (in_A C2 L3 E) as [|[|]]; auto.
Qed.
Context (IC : ~ ext m C2).
Lemma c_facts : nx m C1 = C2 /\ ve m (tw C1) = vA /\ ve m C1 <> vA /\ ve m C1 <> vC /\ C0 <> C2 /\ C1 <> C2 /\ C0 <> A2 /\ C0 <> A1.
Proof.
  destruct a_facts as (Lb & L1 & L2 & L3 & L4 & L5 & T & V1 & V2 & V3 & V4 & V5 & N1 & N2 & N3 & F1 & F2 & F3 & F4 & _). destruct C2_facts as (FC & _).
  assert (T1 : nx m C1 = C2) by (apply tri_nx; auto). assert (W1 : ve m (tw C1) = vA) by (rewrite <- (cn_vnx _ CN C1 L5), T1; auto).
  assert (W2 : ve m C1 <> vA) by (rewrite <- W1; apply NS; auto). assert (W3 : ve m C1 <> vC). { unfold C1. rewrite (cn_vnx _ CN C0 L4), <- V5. intros E. symmetry in E. revert E. apply NS; auto. }
  repeat (split; auto).
  - intros E. apply (f_equal (ve m)) in E. congruence.
  - intros E. apply (f_equal (ve m)) in E. congruence.
  - intros E. apply (f_equal (fa m)) in E. congruence.
  - intros E. apply (f_equal (fa m)) in E. congruence.
Qed.

(** representatives chosen for the result *)
Context (vhn fhn : Z -> Z) (G : Z -> Prop).
Context (Ga : G a) (Gb : G b) (GA : G A2) (GC : G C2).
Context (HVH : forall v, liveV m v -> v <> vA -> liveH m (vhn v) /\ ~ G (vhn v) /\ ve m (vhn v) = v).
Context (HVB : forall h, liveH m h -> h <> a -> ext m (tw h) -> ve m h <> vA /\ vhn (ve m h) = h).
Context (HFH : forall f, liveFL m f -> liveH m (fhn f) /\ ~ G (fhn f) /\ fa m (fhn f) = f).
Definition c1 : cmap := contract (ofMesh m) a vhn fhn.
Definition c2 : cmap := undigon c1 A1 vhn fhn.
Let ng h : ~ G h -> h <> a /\ h <> b /\ h <> A2 /\ h <> C2.
Proof. intros N. repeat split; intros ->; auto. Qed.
Lemma c1_conn : CConn (heFill m) c1.
Proof.
  destruct a_facts as (Lb & L1 & L2 & L3 & L4 & L5 & T & V1 & V2 & V3 & V4 & V5 & N1 & N2 & N3 & F1 & F2 & F3 & F4 & _).
  apply contract_conn; cbn; fold b; fold vA; fold vB; auto.
  - apply ofMesh_conn; auto.
  - fold A1. intros E. apply (f_equal (fun h => ve m (tw h))) in E. congruence.
  - intros E. assert (fa m b = fa m a) by (rewrite <- (cn_fnx _ CN b Lb), E; auto). destruct (in_A b Lb H) as [K|[K|K]].
    + apply (tw_neq a); auto.
    + rewrite K in E. fold A2 in E. assert (vC = vA) by (unfold vC; rewrite E; auto). auto.
    + apply (f_equal (ve m)) in K. unfold vB, vC in *. congruence.
  - intros v [Hv Nv]. change (v <> vA) in Nv. destruct (HVH v Hv Nv) as (K1 & K2 & K3). apply ng in K2. split; [tauto|]. rewrite K3. destruct (Z.eqb_spec v vA); congruence.
  - intros f Hf. destruct (HFH f Hf) as (K1 & K2 & K3). apply ng in K2. tauto.
  - intros h (H & Ha & Hb) X. destruct (HVB h H Ha X) as [K1 K2]. destruct (Z.eqb_spec (ve m h) vA); congruence.
Qed.
Lemma skipA1 : skip (ofMesh m) a A1 = A1 /\ skip (ofMesh m) a A2 = A2.
Proof.
  destruct a_facts as (Lb & L1 & L2 & L3 & L4 & L5 & T & V1 & V2 & V3 & V4 & V5 & N1 & N2 & N3 & F1 & F2 & F3 & F4 & _).
  unfold skip. fold b. split.
  - destruct (Z.eqb_spec A1 a) as [E|]; [apply (f_equal (ve m)) in E; unfold vB in *; fold vA in E; congruence|]. destruct (Z.eqb_spec A1 b) as [E|]; [apply (f_equal (fun h => ve m (tw h))) in E; congruence|auto].
  - destruct (Z.eqb_spec A2 a) as [E|]; [apply (f_equal (ve m)) in E; unfold vC in *; fold vA in E; congruence|]. destruct (Z.eqb_spec A2 b) as [E|]; [apply (f_equal (ve m)) in E; unfold vB, vC in *; congruence|auto].
Qed.
Lemma c1_A1 : cnx c1 A1 = A2.
Proof. cbn. fold A2. apply skipA1. Qed.
Lemma A1_neq : A1 <> a /\ A1 <> b /\ A1 <> A2 /\ A1 <> C2.
Proof.
  destruct a_facts as (Lb & L1 & L2 & L3 & L4 & L5 & T & V1 & V2 & V3 & V4 & V5 & N1 & N2 & N3 & F1 & F2 & F3 & F4 & _).
  repeat split; intros E; [apply (f_equal (ve m)) in E; fold vA in E|apply (f_equal (fun h => ve m (tw h))) in E|apply (f_equal (ve m)) in E; fold vC in E|apply (f_equal (ve m)) in E]; congruence.
Qed.
Lemma c1_ve h : cve c1 h = if ve m h =? vA then vB else ve m h. Proof. reflexivity. Qed.
Lemma c2_L h : cL c2 h <-> liveH m h /\ h <> a /\ h <> b /\ h <> A2 /\ h <> C2.
Proof. change (cL c2 h) with (cL c1 h /\ h <> cnx c1 A1 /\ h <> tw (cnx c1 A1)). rewrite c1_A1. fold C2. change (cL c1 h) with (liveH m h /\ h <> a /\ h <> b). tauto. Qed.
Lemma c2_nx h : cnx c2 h = (let q := skip (ofMesh m) a (nx m (if h =? A1 then C2 else h)) in if q =? C2 then A1 else q).
Proof. change (cnx c2 h) with (subst c1 A1 (cnx c1 (if h =? A1 then tw (cnx c1 A1) else h))). unfold subst. rewrite c1_A1. reflexivity. Qed.
Lemma c2_fa h : cfa c2 h = fa m (if h =? A1 then C2 else h).
Proof. change (cfa c2 h) with (fa m (if h =? A1 then tw (cnx c1 A1) else h)). rewrite c1_A1. reflexivity. Qed.
Lemma c2_conn : CConn (heFill m) c2.
Proof.
  destruct a_facts as (Lb & L1 & L2 & L3 & L4 & L5 & T & V1 & V2 & V3 & V4 & V5 & N1 & N2 & N3 & F1 & F2 & F3 & F4 & I1 & I2). destruct C2_facts as (FC & Q1 & Q2 & Q3 & Q4).
  destruct A1_neq as (K1 & K2 & K3 & K4).
  assert (CX : cnx c1 A2 = A1). { cbn. rewrite T. unfold skip. rewrite Z.eqb_refl. reflexivity. }
  apply undigon_conn; rewrite ?c1_A1; auto.
  - apply c1_conn.
  - cbn. fold b. auto.
  - intros v [Hv Nv]. change (v <> vA) in Nv. destruct (HVH v Hv Nv) as (P1 & P2 & P3). apply ng in P2. split; [apply (proj2 (c2_L _)); tauto|]. rewrite c1_ve, P3. destruct (Z.eqb_spec v vA); congruence.
  - intros f [Hf Nf]. change (cfa c1 A1) with (fa m A1) in Nf. destruct (HFH f Hf) as (P1 & P2 & P3). apply ng in P2. split; [apply (proj2 (c2_L _)); tauto|].
    fold c2. rewrite c2_fa. destruct (Z.eqb_spec (fhn f) A1) as [E|]; auto. rewrite E in P3. congruence.
  - intros h H X. apply (proj1 (c2_L h)) in H as (H & H1 & _). change (cfa c1 (tw h)) with (fa m (tw h)) in X. destruct (HVB h H H1 X) as [R1 R2]. rewrite c1_ve. destruct (Z.eqb_spec (ve m h) vA); congruence.
Qed.

(** ** an interior edge *)
Let B1 := nx m b.
Let B2 := nx m B1.
Let D1 := tw B1.
Let D2 := nx m D1.
Let D0 := nx m D2.
Let vD := ve m B2.
Section Interior.
Context (Ib : ~ ext m b) (ID : ~ ext m D1) (DEG : B1 <> C2).
Context (GB : G B1) (GD : G D1).
Lemma in_B h : liveH m h -> fa m h = fa m b -> h = b \/ h = B1 \/ h = B2.
Proof. intros H E. apply tri_members; auto; [apply CN; auto|]. apply tri_nx; auto. apply CN; auto. Qed.
Lemma b_facts : liveH m B1 /\ liveH m B2 /\ liveH m D1 /\ liveH m D2 /\ liveH m D0 /\
  nx m B2 = b /\ ve m B1 = vA /\ ve m (tw B2) = vB /\ ve m D1 = vD /\ ve m D2 = vA /\ vA <> vD /\ vD <> vB /\
  fa m B1 = fa m b /\ fa m B2 = fa m b /\ fa m D2 = fa m D1 /\ fa m D0 = fa m D1 /\ ~ ext m B2 /\
  nx m D0 = D1 /\ ve m (tw D0) = vD /\ ve m D0 <> vA /\ ve m D0 <> vD /\
  fa m b <> fa m a /\ fa m D1 <> fa m b /\ fa m D1 <> fa m a /\ fa m C2 <> fa m b.
Proof.
  destruct a_facts as (Lb & L1 & L2 & L3 & L4 & L5 & T & V1 & V2 & V3 & V4 & V5 & N1 & N2 & N3 & F1 & F2 & F3 & F4 & I1 & I2). destruct C2_facts as (FC & Q1 & Q2 & Q3 & Q4).
  assert (M1 : liveH m B1) by (apply CN; auto). assert (M2 : liveH m B2) by (apply CN; auto). assert (M3 : liveH m D1) by (apply CN; auto). assert (M4 : liveH m D2) by (apply CN; auto). assert (M5 : liveH m D0) by (apply CN; auto).
  assert (TB : nx m B2 = b) by (apply tri_nx; auto). assert (TD : nx m D0 = D1) by (apply tri_nx; auto).
  assert (W1 : ve m B1 = vA) by (unfold B1; rewrite (cn_vnx _ CN) by auto; auto). assert (W2 : ve m D1 = vD) by (unfold vD, B2; rewrite (cn_vnx _ CN) by auto; auto).
  assert (W3 : ve m (tw B2) = vB) by (rewrite <- (cn_vnx _ CN B2 M2), TB; auto). assert (W4 : ve m D2 = vA). { unfold D2. rewrite (cn_vnx _ CN) by auto. unfold D1. rewrite tw_tw. auto. }
  assert (W5 : ve m (tw D0) = vD) by (rewrite <- (cn_vnx _ CN D0 M5), TD; auto).
  assert (X1 : vA <> vD). { rewrite <- W1, <- W2. apply NS; auto. } assert (X2 : vD <> vB). { rewrite <- W3. apply NS; auto. }
  assert (X3 : ve m D0 <> vD) by (rewrite <- W5; apply NS; auto). assert (X4 : ve m D0 <> vA). { unfold D0. rewrite (cn_vnx _ CN D2 M4), <- W4. intros E. symmetry in E. revert E. apply NS; auto. }
  assert (E1 : fa m B1 = fa m b) by (apply (cn_fnx _ CN); auto). assert (E2 : fa m B2 = fa m b) by (rewrite <- E1; apply (cn_fnx _ CN); auto).
  assert (E3 : fa m D2 = fa m D1) by (apply (cn_fnx _ CN); auto). assert (E4 : fa m D0 = fa m D1) by (rewrite <- E3; apply (cn_fnx _ CN); auto).
  assert (Y1 : fa m b <> fa m a). { intros E. destruct (in_A b Lb E) as [K|[K|K]]; [revert K; apply tw_neq|apply (f_equal (fun h => ve m (tw h))) in K; congruence|apply (f_equal (ve m)) in K; fold vB vC in K; congruence]. }
  assert (Y2 : fa m D1 <> fa m b). { intros E. destruct (in_B D1 M3 E) as [K|[K|K]]; [apply (f_equal (ve m)) in K; fold vB in K; congruence|revert K; apply tw_neq|]. apply (f_equal (fun h => ve m (tw h))) in K. unfold D1 in K at 1. rewrite tw_tw in K. congruence. }
  assert (Y3 : fa m D1 <> fa m a). { intros E. destruct (in_A D1 M3 E) as [K|[K|K]]; [apply (f_equal (ve m)) in K; fold vA in K; congruence| |].
    - apply (f_equal (fun h => ve m (tw h))) in K. unfold D1 in K at 1. rewrite tw_tw in K. congruence.
    - apply DEG. unfold C2. rewrite <- K. unfold D1. rewrite tw_tw. auto. }
  assert (Y4 : fa m C2 <> fa m b). { intros E. destruct (in_B C2 L3 E) as [K|[K|K]]; auto. apply (f_equal (ve m)) in K. fold vD in K. congruence. }
  repeat (split; auto). unfold ext. rewrite E2. exact Ib.
Qed.
Definition c3 : cmap := undigon c2 B2 vhn fhn.
Lemma B2_neq : B2 <> a /\ B2 <> b /\ B2 <> A1 /\ B2 <> A2 /\ B2 <> C2 /\ B2 <> B1 /\ B2 <> D1.
Proof.
  destruct a_facts as (Lb & L1 & L2 & L3 & L4 & L5 & T & V1 & V2 & V3 & V4 & V5 & N1 & N2 & N3 & F1 & F2 & F3 & F4 & I1 & I2). destruct C2_facts as (FC & Q1 & Q2 & Q3 & Q4).
  destruct b_facts as (M1 & M2 & M3 & M4 & M5 & TB & W1 & W2 & W3 & W4 & X1 & X2 & E1 & E2 & E3 & E4 & I3 & TD & W5 & X3 & X4 & Y1 & Y2 & Y3 & Y4).
  repeat split; intros E; try (apply (f_equal (fa m)) in E; congruence); apply (f_equal (ve m)) in E; fold vD in E; try congruence; fold vB in E; congruence.
Qed.
Lemma D1_neq : D1 <> a /\ D1 <> b /\ D1 <> A1 /\ D1 <> A2 /\ D1 <> C2 /\ D1 <> B1.
Proof.
  destruct a_facts as (Lb & L1 & L2 & L3 & L4 & L5 & T & V1 & V2 & V3 & V4 & V5 & N1 & N2 & N3 & F1 & F2 & F3 & F4 & I1 & I2). destruct C2_facts as (FC & Q1 & Q2 & Q3 & Q4).
  destruct b_facts as (M1 & M2 & M3 & M4 & M5 & TB & W1 & W2 & W3 & W4 & X1 & X2 & E1 & E2 & E3 & E4 & I3 & TD & W5 & X3 & X4 & Y1 & Y2 & Y3 & Y4).
  repeat split; intros E; try (apply (f_equal (fa m)) in E; congruence); apply (f_equal (ve m)) in E; congruence.
Qed.
Lemma c2_B2 : cnx c2 B2 = B1 /\ cnx c2 B1 = B2.
Proof.
  destruct B2_neq as (P1 & P2 & P3 & P4 & P5 & P6 & P7). destruct b_facts as (M1 & M2 & M3 & M4 & M5 & TB & W1 & W2 & W3 & W4 & X1 & X2 & E1 & E2 & E3 & E4 & I3 & TD & W5 & X3 & X4 & Y1 & Y2 & Y3 & Y4).
  destruct a_facts as (Lb & L1 & L2 & L3 & L4 & L5 & T & V1 & V2 & V3 & V4 & V5 & N1 & N2 & N3 & F1 & F2 & F3 & F4 & I1 & I2).
  rewrite !c2_nx. split.
  - destruct (Z.eqb_spec B2 A1); [contradiction|]. rewrite TB. unfold skip. fold b. rewrite Z.eqb_refl. destruct (Z.eqb_spec b a) as [K|]; [exfalso; revert K; apply tw_neq|]. change (cnx (ofMesh m) b) with B1. destruct (Z.eqb_spec B1 C2); [contradiction|auto].
  - destruct (Z.eqb_spec B1 A1) as [K|]; [apply (f_equal (fa m)) in K; congruence|]. fold B2. cbv zeta. unfold skip. fold b. destruct (Z.eqb_spec B2 a); [contradiction|]. destruct (Z.eqb_spec B2 b); [contradiction|]. destruct (Z.eqb_spec B2 C2); [contradiction|auto].
Qed.
Lemma c3_L h : cL c3 h <-> liveH m h /\ h <> a /\ h <> b /\ h <> A2 /\ h <> C2 /\ h <> B1 /\ h <> D1.
Proof. change (cL c3 h) with (cL c2 h /\ h <> cnx c2 B2 /\ h <> tw (cnx c2 B2)). rewrite (proj1 c2_B2), c2_L. fold D1. tauto. Qed.
Lemma c3_nx h : cnx c3 h = (let q := cnx c2 (if h =? B2 then D1 else h) in if q =? D1 then B2 else q).
Proof. change (cnx c3 h) with (subst c2 B2 (cnx c2 (if h =? B2 then tw (cnx c2 B2) else h))). unfold subst. rewrite (proj1 c2_B2). reflexivity. Qed.
Lemma c3_fa h : cfa c3 h = fa m (if h =? B2 then D1 else if h =? A1 then C2 else h).
Proof.
  change (cfa c3 h) with (cfa c2 (if h =? B2 then tw (cnx c2 B2) else h)). rewrite (proj1 c2_B2). fold D1. rewrite c2_fa. destruct D1_neq as (_ & _ & K & _).
  destruct (Z.eqb_spec h B2); auto. destruct (Z.eqb_spec D1 A1); congruence.
Qed.
Lemma c3_conn : CConn (heFill m) c3.
Proof.
  destruct a_facts as (Lb & L1 & L2 & L3 & L4 & L5 & T & V1 & V2 & V3 & V4 & V5 & N1 & N2 & N3 & F1 & F2 & F3 & F4 & I1 & I2). destruct C2_facts as (FC & Q1 & Q2 & Q3 & Q4).
  destruct b_facts as (M1 & M2 & M3 & M4 & M5 & TB & W1 & W2 & W3 & W4 & X1 & X2 & E1 & E2 & E3 & E4 & I3 & TD & W5 & X3 & X4 & Y1 & Y2 & Y3 & Y4).
  destruct B2_neq as (P1 & P2 & P3 & P4 & P5 & P6 & P7). destruct D1_neq as (R1 & R2 & R3 & R4 & R5 & R6). destruct c2_B2 as [Z1 Z2].
  pose proof c2_conn as CC. unfold c3. apply (undigon_conn (heFill m) c2 CC B2); rewrite ?Z1; auto.
  - apply c2_L. auto 6.
  - rewrite c2_fa. fold D1. destruct (Z.eqb_spec D1 A1); [contradiction|]. exact ID.
  - intros v [Hv Nv]. change (v <> vA) in Nv. destruct (HVH v Hv Nv) as (K1 & K2 & K3). split; [|change (cve c2) with (cve c1); rewrite c1_ve, K3; destruct (Z.eqb_spec v vA); congruence].
    apply (proj2 (c3_L _)). pose proof (ng _ K2) as K4. assert (vhn v <> B1 /\ vhn v <> D1) by (split; intros K; rewrite K in K2; auto). tauto.
  - intros f [[Hf Nf] Nf2]. change (cfa c1 A1) with (fa m A1) in Nf. rewrite c2_fa in Nf2. destruct (Z.eqb_spec B2 A1) as [|_]; [contradiction|]. destruct (HFH f Hf) as (K1 & K2 & K3). split.
    + apply (proj2 (c3_L _)). pose proof (ng _ K2) as K4. assert (fhn f <> B1 /\ fhn f <> D1) by (split; intros K; rewrite K in K2; auto). tauto.
    + fold c3. rewrite c3_fa. destruct (Z.eqb_spec (fhn f) B2) as [E|]; [rewrite E in K3; congruence|]. destruct (Z.eqb_spec (fhn f) A1) as [E|]; [rewrite E in K3; congruence|auto].
  - intros h H X. apply (proj1 (c3_L h)) in H as (H & H1 & _). rewrite c2_fa in X. change (cve c2) with (cve c1). rewrite c1_ve.
    destruct (Z.eqb_spec (tw h) A1) as [E|]; [contradiction|]. destruct (HVB h H H1 X) as [S1 S2]. destruct (Z.eqb_spec (ve m h) vA); congruence.
Qed.
Lemma gone6 h : gone m a h <-> h = a \/ h = b \/ h = A2 \/ h = C2 \/ h = B1 \/ h = D1.
Proof.
  unfold gone. fold b A1 A2 B1. rewrite !edge_eq. fold b C2 D1. tauto.
Qed.
Lemma c3_moved h : liveH m h -> fa m h <> fa m a -> fa m h <> fa m b -> cL c3 (moved m a h) /\ cfa c3 (moved m a h) = fa m h /\ cnx c3 (moved m a h) = moved m a (nx m h).
Proof.
  intros H Fa Fb.
  destruct a_facts as (Lb & L1 & L2 & L3 & L4 & L5 & T & V1 & V2 & V3 & V4 & V5 & N1 & N2 & N3 & F1 & F2 & F3 & F4 & I1 & I2). destruct C2_facts as (FC & Q1 & Q2 & Q3 & Q4).
  destruct b_facts as (M1 & M2 & M3 & M4 & M5 & TB & W1 & W2 & W3 & W4 & X1 & X2 & E1 & E2 & E3 & E4 & I3 & TD & W5 & X3 & X4 & Y1 & Y2 & Y3 & Y4).
  destruct A1_neq as (K1 & K2 & K3 & K4). destruct B2_neq as (P1 & P2 & P3 & P4 & P5 & P6 & P7). destruct D1_neq as (R1 & R2 & R3 & R4 & R5 & R6).
  assert (MV : forall k, moved m a k = if k =? C2 then A1 else if k =? D1 then B2 else k).
  { intros k. unfold moved. fold b. fold A1. fold A2. fold C2. fold B1. fold B2. fold D1. destruct (Z.leb_spec (fFill m) (fa m b)) as [K|K]; [exfalso; apply Ib; exact K|auto]. }
  assert (O : h <> a /\ h <> A1 /\ h <> A2 /\ h <> b /\ h <> B1 /\ h <> B2) by (repeat split; intros ->; congruence).
  destruct O as (O1 & O2 & O3 & O4 & O5 & O6).
  assert (NA : nx m h <> a) by (intros E; apply Fa; rewrite <- (cn_fnx _ CN h H), E; auto). assert (NB : nx m h <> b) by (intros E; apply Fb; rewrite <- (cn_fnx _ CN h H), E; auto).
  assert (SK : skip (ofMesh m) a (nx m h) = nx m h) by (apply skip_o; auto).
  assert (NN : cnx c2 (if h =? C2 then A1 else h) = if nx m h =? C2 then A1 else nx m h).
  { rewrite c2_nx. destruct (Z.eqb_spec h C2) as [->|Hc]; [rewrite Z.eqb_refl; cbv zeta; rewrite SK; auto|]. destruct (Z.eqb_spec h A1); [contradiction|]. cbv zeta. rewrite SK. auto. }
  assert (N3' : forall k, (k = h \/ (k = A1 /\ h = C2)) -> k <> D1 -> cnx c2 k = (if nx m h =? C2 then A1 else nx m h) -> cnx c3 k = moved m a (nx m h)).
  { intros k Kk Kd E. rewrite c3_nx. destruct (Z.eqb_spec k B2) as [->|]; [destruct Kk as [|[]]; congruence|]. cbv zeta. rewrite E, MV. destruct (Z.eqb_spec (nx m h) C2); auto. destruct (Z.eqb_spec A1 D1); congruence. }
  rewrite (MV h). destruct (Z.eqb_spec h C2) as [Ec|Hc].
  - split; [apply c3_L; repeat (split; auto); intros E; apply (f_equal (fa m)) in E; congruence|]. split.
    + rewrite c3_fa, Z.eqb_refl. destruct (Z.eqb_spec A1 B2); congruence.
    + apply N3'; auto.
  - destruct (Z.eqb_spec h D1) as [Ed|Hd].
    + split; [apply c3_L; auto 8|]. split; [rewrite c3_fa, Z.eqb_refl; congruence|].
      rewrite c3_nx, Z.eqb_refl. cbv zeta. rewrite Ed in NN |- *. rewrite NN, MV. destruct (Z.eqb_spec (nx m D1) C2); auto. destruct (Z.eqb_spec A1 D1); congruence.
    + split; [apply c3_L; auto 8|]. split; [rewrite c3_fa; destruct (Z.eqb_spec h B2), (Z.eqb_spec h A1); congruence|]. apply N3'; auto.
Qed.
Context (m' : mesh) (DM : dims m' = dims m) (CT : Counted m') (SL : Slots m').
Context (NL : forall h, nx m' h = -1 <-> nx m h = -1 \/ gone m a h).
Context (VL : forall v, vh m' v = -1 <-> vh m v = -1 \/ v = vA).
Context (FL : forall f, fh m' f = -1 <-> fh m f = -1 \/ f = fa m a \/ f = fa m b).
Context (PT : forall h, cL c3 h -> nx m' h = cnx c3 h /\ fa m' h = cfa c3 h /\ ve m' h = cve c1 h).
Context (VP : forall v, liveV m v -> v <> vA -> vh m' v = vhn v).
Context (FP : forall f, liveFL m f -> f <> fa m a -> f <> fa m b -> fh m' f = fhn f).
Context (CO : nVertices m' = nVertices m - 1 /\ nEdges m' = nEdges m - 3 /\ nFaces m' = nFaces m - 2 /\ nLoops m' = nLoops m).
Lemma interior_valid : Valid m' /\ Collapsed m m' a.
Proof.
  assert (HD : heFill m' = heFill m /\ vFill m' = vFill m /\ fFill m' = fFill m /\ bFill m' = bFill m /\ fCap m' = fCap m) by (unfold dims, lens in DM; injection DM as ????????? ?????; auto).
  destruct HD as (D_1 & D_2 & D_3 & D_4 & D_5).
  destruct a_facts as (Lb & L1 & L2 & L3 & L4 & L5 & T & V1 & V2 & V3 & V4 & V5 & N1 & N2 & N3 & F1 & F2 & F3 & F4 & I1 & I2).
  destruct b_facts as (M1 & M2 & M3 & M4 & M5 & TB & W1 & W2 & W3 & W4 & X1 & X2 & E1 & E2 & E3 & E4 & I3 & TD & W5 & X3 & X4 & Y1 & Y2 & Y3 & Y4).
  assert (HL0 : forall h, liveH m' h <-> liveH m h /\ ~ gone m a h). { intros h. unfold liveH. rewrite D_1. pose proof (NL h). tauto. }
  assert (HL : forall h, liveH m' h <-> cL c3 h). { intros h. rewrite HL0, c3_L, gone6. tauto. }
  assert (HV : forall v, liveV m' v <-> liveV m v /\ v <> vA). { intros v. unfold liveV. rewrite D_2. pose proof (VL v). tauto. }
  assert (HF : forall f, liveFL m' f <-> liveFL m f /\ f <> fa m a /\ f <> fa m b). { intros f. unfold liveFL, liveF, liveL. rewrite D_3, D_4, D_5. pose proof (FL f). tauto. }
  assert (CF : forall f, cF c3 f <-> liveFL m f /\ f <> fa m a /\ f <> fa m b).
  { intros f. change (cF c3 f) with ((liveFL m f /\ f <> fa m A1) /\ f <> cfa c2 B2). rewrite c2_fa. destruct B2_neq as (_ & _ & K & _). destruct (Z.eqb_spec B2 A1); [contradiction|]. rewrite F1, E2. tauto. }
  assert (ST' : Stored m') by (apply (dims_stored m); auto; apply V).
  split.
  - split; auto. apply (toMesh_conn (heFill m) c3).
    + apply c3_conn.
    + exact HL.
    + exact HV.
    + intros f. rewrite HF, CF. tauto.
    + intros h H. destruct (PT h H) as (P1 & P2 & P3). split; auto. split; [exact P3|]. split; auto. unfold ext. rewrite P2, D_3. reflexivity.
    + intros v [Hv Nv]. apply VP; auto.
    + intros f Hf. apply CF in Hf. apply FP; tauto.
  - assert (XB : (fFill m <=? fa m (tw a)) = false) by (fold b; unfold ext in Ib; clear -Ib; lia).
    split; auto.
    + intros f. unfold liveF. rewrite D_3. pose proof (FL f) as K. fold b. clear -K. tauto.
    + assert (FLA : liveF m (fa m a)) by (destruct (cn_fa _ CN a La) as [K|K]; auto; exfalso; apply Ia; unfold ext; destruct K as [K _]; destruct (va_st _ V); clear -K st_f; lia). assert (FLB : liveF m (fa m b)) by (destruct (cn_fa _ CN b Lb) as [K|K]; auto; exfalso; apply Ib; unfold ext; destruct K as [K _]; destruct (va_st _ V); clear -K st_f; lia).
      intros f. unfold liveL. rewrite D_4, D_5. pose proof (FL f) as K. assert (K1 : fCap m - bFill m <= f < fCap m -> f <> fa m a /\ f <> fa m b) by (destruct FLA as [FLA _], FLB as [FLB _]; destruct (va_st _ V); clear -FLA FLB st_f; lia). clear -K K1. tauto.
    + intros h H. apply HL in H. apply PT; auto.
    + intros h H Fa Fb Hb. fold b in Fb, Hb. fold b. assert (Fb' : fa m h <> fa m b) by (intros K; apply Ib; auto). destruct (c3_moved h H Fa Fb') as (P1 & P2 & P3).
      split; [apply HL; auto|]. destruct (PT _ P1) as (P4 & P5 & _). split; [congruence|]. rewrite P4, P3. destruct (Z.eqb_spec (nx m h) b) as [K|]; auto. exfalso. apply Fb'. rewrite <- (cn_fnx _ CN h H), K. auto.
    + rewrite XB. cbv zeta. destruct CO as (J1 & J2 & J3 & J4). clear -J1 J2 J3 J4. lia.
Qed.
End Interior.

(** ** an edge on the boundary *)
Section Boundary.
Context (Xb : ext m b).
Lemma gone4 h : gone m a h <-> h = a \/ h = b \/ h = A2 \/ h = C2.
Proof. unfold gone. fold b A1 A2 B1. rewrite !edge_eq. fold b C2. tauto. Qed.
Lemma c2_moved h : liveH m h -> fa m h <> fa m a -> h <> b -> cL c2 (moved m a h) /\ cfa c2 (moved m a h) = fa m h /\ cnx c2 (moved m a h) = moved m a (if nx m h =? b then nx m b else nx m h).
Proof.
  intros H Fa Hb.
  destruct a_facts as (Lb & L1 & L2 & L3 & L4 & L5 & T & V1 & V2 & V3 & V4 & V5 & N1 & N2 & N3 & F1 & F2 & F3 & F4 & I1 & I2). destruct C2_facts as (FC & Q1 & Q2 & Q3 & Q4).
  destruct A1_neq as (K1 & K2 & K3 & K4).
  assert (MV : forall k, moved m a k = if k =? C2 then A1 else k).
  { intros k. unfold moved. fold b. fold A1. fold A2. fold C2. destruct (Z.leb_spec (fFill m) (fa m b)) as [K|K]; [auto|exfalso; unfold ext in Xb; clear -K Xb; lia]. }
  assert (O : h <> a /\ h <> A1 /\ h <> A2) by (repeat split; intros ->; congruence). destruct O as (O1 & O2 & O3).
  assert (NA : nx m h <> a) by (intros E; apply Fa; rewrite <- (cn_fnx _ CN h H), E; auto).
  assert (SK : skip (ofMesh m) a (nx m h) = if nx m h =? b then nx m b else nx m h). { unfold skip. destruct (Z.eqb_spec (nx m h) a); [contradiction|]. fold b. reflexivity. }
  rewrite (MV h). rewrite MV. rewrite <- SK. rewrite c2_fa, c2_nx. destruct (Z.eqb_spec h C2) as [->|Hc].
  - rewrite !Z.eqb_refl. split; [apply c2_L; auto|]. auto.
  - destruct (Z.eqb_spec h A1); [contradiction|]. split; [apply c2_L; auto 6|]. auto.
Qed.
Context (m' : mesh) (DM : dims m' = dims m) (CT : Counted m') (SL : Slots m').
Context (NL : forall h, nx m' h = -1 <-> nx m h = -1 \/ gone m a h).
Context (VL : forall v, vh m' v = -1 <-> vh m v = -1 \/ v = vA).
Context (FL : forall f, fh m' f = -1 <-> fh m f = -1 \/ f = fa m a).
Context (PT : forall h, cL c2 h -> nx m' h = cnx c2 h /\ fa m' h = cfa c2 h /\ ve m' h = cve c1 h).
Context (VP : forall v, liveV m v -> v <> vA -> vh m' v = vhn v).
Context (FP : forall f, liveFL m f -> f <> fa m a -> fh m' f = fhn f).
Context (CO : nVertices m' = nVertices m - 1 /\ nEdges m' = nEdges m - 2 /\ nFaces m' = nFaces m - 1 /\ nLoops m' = nLoops m).
Lemma boundary_valid : Valid m' /\ Collapsed m m' a.
Proof.
  assert (HD : heFill m' = heFill m /\ vFill m' = vFill m /\ fFill m' = fFill m /\ bFill m' = bFill m /\ fCap m' = fCap m) by (unfold dims, lens in DM; injection DM as ????????? ?????; auto).
  destruct HD as (D_1 & D_2 & D_3 & D_4 & D_5).
  destruct a_facts as (Lb & L1 & L2 & L3 & L4 & L5 & T & V1 & V2 & V3 & V4 & V5 & N1 & N2 & N3 & F1 & F2 & F3 & F4 & I1 & I2).
  assert (HL0 : forall h, liveH m' h <-> liveH m h /\ ~ gone m a h). { intros h. unfold liveH. rewrite D_1. pose proof (NL h). tauto. }
  assert (HL : forall h, liveH m' h <-> cL c2 h). { intros h. rewrite HL0, c2_L, gone4. tauto. }
  assert (HV : forall v, liveV m' v <-> liveV m v /\ v <> vA). { intros v. unfold liveV. rewrite D_2. pose proof (VL v). tauto. }
  assert (HF : forall f, liveFL m' f <-> liveFL m f /\ f <> fa m a). { intros f. unfold liveFL, liveF, liveL. rewrite D_3, D_4, D_5. pose proof (FL f). tauto. }
  assert (CF : forall f, cF c2 f <-> liveFL m f /\ f <> fa m a).
  { intros f. change (cF c2 f) with (liveFL m f /\ f <> fa m A1). rewrite F1. tauto. }
  assert (ST' : Stored m') by (apply (dims_stored m); auto; apply V).
  split.
  - split; auto. apply (toMesh_conn (heFill m) c2).
    + apply c2_conn.
    + exact HL.
    + exact HV.
    + intros f. rewrite HF, CF. tauto.
    + intros h H. destruct (PT h H) as (P1 & P2 & P3). split; auto. split; [exact P3|]. split; auto. unfold ext. rewrite P2, D_3. reflexivity.
    + intros v [Hv Nv]. apply VP; auto.
    + intros f Hf. apply CF in Hf. apply FP; tauto.
  - assert (XB : (fFill m <=? fa m (tw a)) = true) by (fold b; unfold ext in Xb; clear -Xb; lia).
    split; auto.
    + intros f. unfold liveF. rewrite D_3. pose proof (FL f) as K. fold b. assert (K1 : 0 <= f < fFill m -> f <> fa m b) by (unfold ext in Xb; clear -Xb; lia). clear -K K1. tauto.
    + assert (FLA : liveF m (fa m a)) by (destruct (cn_fa _ CN a La) as [K|K]; auto; exfalso; apply Ia; unfold ext; destruct K as [K _]; destruct (va_st _ V); clear -K st_f; lia).
      intros f. unfold liveL. rewrite D_4, D_5. pose proof (FL f) as K. assert (K1 : fCap m - bFill m <= f < fCap m -> f <> fa m a) by (destruct FLA as [FLA _]; destruct (va_st _ V); clear -FLA st_f; lia). clear -K K1. tauto.
    + intros h H. apply HL in H. apply PT; auto.
    + intros h H Fa Fb Hb. fold b in Fb, Hb. fold b. destruct (c2_moved h H Fa Hb) as (P1 & P2 & P3).
      split; [apply HL; auto|]. destruct (PT _ P1) as (P4 & P5 & _). split; congruence.
    + rewrite XB. cbv zeta. destruct CO as (J1 & J2 & J3 & J4). clear -J1 J2 J3 J4. lia.
Qed.
End Boundary.
End Core.
