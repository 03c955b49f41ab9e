(** Collapsing a boundary edge: execution. *)
From Verif Require Import Base MeshModel MeshModel2 MeshSpec MeshBase MeshExec MeshOrbit MeshFlip MeshDel MeshOpSpec MeshThms MeshConnect MeshSplit CollapseModel CollapseMap CollapseSpec CollapseProofs CollapseRun.
Open Scope Z_scope.

Lemma chain_conj f g t : (forall x, g (t x) = t (f x)) -> forall l s e, chain f s l e -> chain g (t s) (map t l) (t e).
Proof.
  intros H. induction l as [|x l IH]; intros s e C; cbn in *; [congruence|]. destruct C as [-> C]. split; auto. rewrite H. apply IH. exact C.
Qed.
Lemma incoming_ok m v : Valid m -> liveV m v -> exists l, incoming m v = Ok l /\ forall x, In x l <-> liveH m x /\ ve m (tw x) = v.
Proof.
  intros V Lv. pose proof (va_cn _ V) as CN. destruct (cn_vh _ CN v Lv) as [Lh Eh].
  destruct (prev_ok m V (vh m v) Lh) as (p & Lp & Np & Fp & _ & RP).
  assert (Lt : liveH m (tw p)) by (apply CN; auto). destruct (vert_cycle m V (tw p) Lt) as (l & Hl & C & ND & R & B).
  exists (map tw l). split.
  - unfold incoming. rewrite vHe_ok by (apply (liveV_bnd m V) in Lv; tauto). cbn [bind]. rewrite RP; [|intros x Hx; apply next_live; auto|destruct (va_st _ V); lia]. cbn [bind].
    apply orbit_loop_chain with (fun c => tw (nx m c)).
    + destruct l; cbn; congruence.
    + rewrite <- (tw_tw p). apply (chain_conj (ro m)); auto.
    + intros I. apply in_map_iff with (f := tw) in I || idtac. destruct l as [|x t]; [congruence|]. cbn [map tl] in I. apply in_map_iff in I as (y & E & Hy). cbn in C. destruct C as [-> C]. apply (cycle_tl_notin (tw p) (tw p :: t) ND); [exists (ro m); cbn; auto|].
      cbn. replace (tw p) with y by (rewrite <- E; symmetry; apply tw_tw). exact Hy.
    + intros x Hx. apply in_map_iff in Hx as (y & <- & Hy). apply R in Hy as [Ly _]. rewrite next_live by (auto; apply CN; auto). reflexivity.
    + rewrite map_length. pose proof (loopFuel_big m V). clear -B H. lia.
  - intros x. rewrite in_map_iff. rewrite <- (cn_vnx _ CN p Lp), Np, Eh in R. split.
    + intros (y & <- & Hy). apply R in Hy as [Ly Ey]. rewrite tw_tw. split; auto. apply CN; auto.
    + intros [Hx Ex]. exists (tw x). split; [apply tw_tw|]. apply R. split; auto. apply CN; auto.
Qed.
Lemma firstExterior_ok m l p : Valid m -> (forall x, In x l -> liveH m x) -> In p l -> ext m p -> (forall x, In x l -> ext m x -> x = p) -> firstExterior m l = Ok p.
Proof.
  intros V. induction l as [|x l IH]; intros HL I X U; [destruct I|]. cbn [firstExterior]. rewrite isInterior_ok by (auto; apply HL; left; auto). cbn [bind].
  destruct (Z.leb_spec (fFill m) (fa m x)) as [K|K]; cbn [negb].
  - rewrite <- (U x); auto. left; auto.
  - apply IH; auto; [intros; apply HL; right; auto| |intros; apply U; auto; right; auto]. destruct I as [->|I]; auto. exfalso. unfold ext in X. clear -K X. lia.
Qed.

(** :1084-1130, what follows the tests of collapseBoundary *)
Definition bndTail (m : mesh) (heA0 : Z) : res (mesh * option Z) :=
  let e := edge heA0 in
  let* heA1 := next m heA0 in let* heA2 := next m heA1 in
  let heC2 := tw heA2 in let* heC0 := next m heC2 in let* heC1 := next m heC0 in
  let* fA := faceOf m heA0 in let* fC := faceOf m heC0 in
  let* vA := vertexOf m heA0 in let* vB := vertexOf m heA1 in let* vC := vertexOf m heC0 in
  let heB0 := tw heA0 in
  let* inc := incoming m vB in let* heB0prev := firstExterior m inc in
  let* heB0next := next m heB0 in let* fB := faceOf m heB0 in
  let* m := moveVertex m vA vB in
  let* m := setNext m heC1 heA1 in let* m := setNext m heA1 heC0 in let* m := setNext m heB0prev heB0next in
  let* m := setFace m heA1 fC in
  let* m := setVHeUnlessBoundary m vC heC0 in
  let* m := setFHe m fC heC0 in let* m := setFHe m fB heB0next in
  let* m := deleteEdgeBundle m e in let* m := deleteEdgeBundle m (edge heA2) in
  let* m := deleteVertex m vA in let* m := deleteFace m fA in
  Ok (m, Some vB).

Section Bnd.
Context (m : mesh) (V : Valid m) (TR : triangular m) (NS : noSelfEdges m) (a : Z) (La : liveH m a) (Ia : ~ ext m a) (Xb : ext m (tw a)).
Let CN := va_cn _ V.
Let b := tw a.
Let A1 := nx m a.
Let A2 := nx m A1.
Let C2 := tw A2.
Let C0 := nx m C2.
Let C1 := nx m C0.
Let B1 := nx m b.
Let vA := ve m a.
Let vB := ve m b.
Let vC := ve m A2.
Context (IC : ~ ext m C2).
Let AF : liveH m b /\ liveH m A1 /\ liveH m A2 /\ liveH m C2 /\ liveH m C0 /\ liveH m C1 /\
  nx m A2 = a /\ ve m A1 = vB /\ ve m (tw A1) = vC /\ ve m C2 = vA /\ ve m (tw b) = vA /\ ve m C0 = vC /\
  vA <> vB /\ vB <> vC /\ vC <> vA /\ fa m A1 = fa m a /\ fa m A2 = fa m a /\ fa m C0 = fa m C2 /\ fa m C1 = fa m C2 /\ ~ ext m A1 /\ ~ ext m A2.
Proof. exact (a_facts m V TR NS a La Ia). Qed.
Let AN : A1 <> a /\ A1 <> b /\ A1 <> A2 /\ A1 <> C2.
Proof. exact (A1_neq m V TR NS a La Ia). Qed.
Let CF : nx m C1 = C2 /\ ve m (tw C1) = vA /\ ve m C1 <> vA /\ ve m C1 <> vC /\ C0 <> C2 /\ C1 <> C2 /\ C0 <> A2 /\ C0 <> A1.
Proof. exact (c_facts m V TR NS a La Ia IC). Qed.
Let Gn h : gone m a h <-> h = a \/ h = b \/ h = A2 \/ h = C2.
Proof. apply (gone4 m a Xb). Qed.
Let MV k : moved m a k = if k =? C2 then A1 else k.
Proof. unfold moved. fold b. fold A1. fold A2. fold C2. destruct (Z.leb_spec (fFill m) (fa m b)) as [K|K]; [auto|exfalso; unfold ext in Xb; fold b in Xb; clear -K Xb; lia]. Qed.
Definition bvh (v : Z) : Z := if inner m vC && (v =? vC) then C0 else vh m v.
Definition bfh (f : Z) : Z := if f =? fa m a then A1 else if f =? fa m b then B1 else if f =? fa m C2 then C0 else fh m f.
Definition bback (h : Z) : Z := if h =? A1 then C2 else h.
Lemma bB1 : liveH m B1 /\ ext m B1 /\ ve m B1 = vA /\ fa m B1 = fa m b /\ B1 <> b /\ B1 <> C2 /\ ~ gone m a B1.
Proof.
  destruct AF as (Lb & L1 & L2 & L3 & L4 & L5 & T & V1 & V2 & V3 & V4 & V5 & N1 & N2 & N3 & F1 & F2 & F3 & F4 & I1 & I2).
  assert (M1 : liveH m B1) by (apply CN; auto). assert (X1 : ext m B1) by (apply (ext_nx m V); auto). assert (W1 : ve m B1 = vA) by (unfold B1; rewrite (cn_vnx _ CN b Lb); auto).
  assert (F5 : fa m B1 = fa m b) by (apply (cn_fnx _ CN); auto).
  assert (Q1 : B1 <> b) by (intros E; apply (f_equal (ve m)) in E; fold vB in E; congruence). assert (Q2 : B1 <> C2) by (intros E; apply IC; rewrite <- E; auto).
  do 6 (split; [solve [auto]|]). rewrite Gn. intros [E|[E|[E|E]]]; auto; rewrite E in X1; auto.
Qed.
Lemma bC0 : ~ gone m a C0.
Proof.
  destruct AF as (Lb & L1 & L2 & L3 & L4 & L5 & T & V1 & V2 & V3 & V4 & V5 & N1 & N2 & N3 & F1 & F2 & F3 & F4 & I1 & I2). destruct CF as (G1 & G2 & G3 & G4 & G5 & G6 & G7 & G8).
  rewrite Gn. intros [E|[E|[E|E]]]; auto.
  - apply (f_equal (ve m)) in E. fold vA in E. congruence.
  - apply (f_equal (fa m)) in E. apply IC. unfold ext. rewrite <- F3, E. exact Xb.
Qed.
Lemma bA1 : ~ gone m a A1.
Proof. destruct AN as (K1 & K2 & K3 & K4). rewrite Gn. clear -K1 K2 K3 K4. tauto. Qed.
(** the halfedge before the collapsed edge on the boundary *)
Lemma bP : exists p, liveH m p /\ nx m p = b /\ ext m p /\ ve m (tw p) = vB /\ vh m vB = tw p /\ (forall x, liveH m x -> ve m (tw x) = vB -> ext m x -> x = p).
Proof.
  destruct AF as (Lb & _). destruct (prev_ok m V b Lb) as (p & Lp & Np & Fp & _). assert (X : ext m p) by (unfold ext; rewrite Fp; exact Xb).
  assert (Vp : ve m (tw p) = vB) by (rewrite <- (cn_vnx _ CN p Lp), Np; reflexivity).
  assert (U : forall x, liveH m x -> ve m (tw x) = vB -> ext m x -> vh m vB = tw x). { intros x Lx Ex Xx. rewrite <- Ex. apply (cn_vbd _ CN); [apply CN; auto|rewrite tw_tw; auto]. }
  exists p. do 4 (split; [solve [auto]|]). split; [apply U; auto|]. intros x Lx Ex Xx. apply tw_inj. rewrite <- (U x), <- (U p); auto.
Qed.
Lemma bVH v : liveV m v -> v <> vA -> liveH m (bvh v) /\ ~ gone m a (bvh v) /\ ve m (bvh v) = v.
Proof.
  intros Hv Nv. destruct AF as (Lb & L1 & L2 & L3 & L4 & L5 & T & V1 & V2 & V3 & V4 & V5 & N1 & N2 & N3 & F1 & F2 & F3 & F4 & I1 & I2).
  unfold bvh. destruct (inner m vC && (v =? vC)) eqn:EC.
  { apply andb_true_iff in EC as [_ EC]. apply Z.eqb_eq in EC. subst v. split; auto. split; [apply bC0|auto]. }
  destruct (cn_vh _ CN v Hv) as [K1 K2]. split; auto. split; auto. rewrite Gn. intros [E|[E|[E|E]]].
  - rewrite E in K2. auto.
  - destruct bP as (p & Lp & Np & Xp & Vp & Hp & _). rewrite E in K2. assert (v = vB) by (rewrite <- K2; reflexivity). subst v. rewrite H in E. rewrite Hp in E. apply tw_inj in E. subst p. auto.
  - assert (v = vC) by (rewrite <- K2, E; reflexivity). subst v. rewrite Z.eqb_refl, andb_true_r in EC. unfold inner in EC. rewrite E in EC. fold C2 in EC. unfold ext in IC. clear -EC IC. lia.
  - rewrite E in K2. congruence.
Qed.
Lemma bVB h : liveH m h -> h <> a -> ext m (tw h) -> ve m h <> vA /\ bvh (ve m h) = h.
Proof.
  intros H Na X. assert (K : vh m (ve m h) = h) by (apply (cn_vbd _ CN); auto). assert (Ka : vh m vA = a) by (apply (cn_vbd _ CN); auto).
  split; [intros E; rewrite E in K; congruence|]. unfold bvh. destruct (Z.eqb_spec (ve m h) vC) as [E|]; [|rewrite andb_false_r; auto].
  assert (Q : inner m vC = false). { unfold inner. rewrite <- E, K. unfold ext in X. clear -X. lia. } rewrite Q. auto.
Qed.
Lemma bFH f : liveFL m f -> liveH m (bfh f) /\ ~ gone m a (bfh f) /\ fa m (bfh f) = f.
Proof.
  intros Hf. destruct AF as (Lb & L1 & L2 & L3 & L4 & L5 & T & V1 & V2 & V3 & V4 & V5 & N1 & N2 & N3 & F1 & F2 & F3 & F4 & I1 & I2).
  destruct bB1 as (M1 & X1 & W1 & F5 & Q1 & Q2 & Q3).
  unfold bfh. destruct (Z.eqb_spec f (fa m a)) as [->|O1]; [split; auto; split; [apply bA1|auto]|].
  destruct (Z.eqb_spec f (fa m b)) as [->|O2]; [split; auto|].
  destruct (Z.eqb_spec f (fa m C2)) as [->|O4]; [split; auto; split; [apply bC0|auto]|].
  destruct (cn_fh _ CN f Hf) as [K1 K2]. split; auto. split; auto. rewrite Gn. intros [E|[E|[E|E]]]; rewrite E in K2; congruence.
Qed.

Lemma run_boundary : exists m', bndTail m a = Ok (m', Some vB) /\ Valid m' /\ Collapsed m m' a.
Proof.
  destruct AF as (Lb & L1 & L2 & L3 & L4 & L5 & T & V1 & V2 & V3 & V4 & V5 & N1 & N2 & N3 & F1 & F2 & F3 & F4 & I1 & I2).
  destruct CF as (G1 & G2 & G3 & G4 & G5 & G6 & G7 & G8). destruct AN as (K1 & K2 & K3 & K4). destruct bB1 as (M1 & X1 & W1 & F5 & Q1 & Q2 & Q3). destruct bP as (p & Lp & Np & Xp & Vp & Hp & Up).
  destruct (C2_facts m V TR NS a La Ia) as (FC & U1 & U2 & U3 & U4).
  assert (LvA : liveV m vA) by (apply CN; auto). assert (LvB : liveV m vB) by (apply CN; auto). assert (LvC : liveV m vC) by (apply CN; auto).
  assert (RN : forall h, liveH m h -> next m h = Ok (nx m h)) by (intros; apply next_live; auto).
  assert (RF : forall h, liveH m h -> faceOf m h = Ok (fa m h)) by (intros h H; apply faceOf_ok; apply (liveH_bnd m V) in H; tauto).
  assert (RV : forall h, liveH m h -> vertexOf m h = Ok (ve m h)) by (intros h H; apply vertexOf_ok; apply (liveH_bnd m V) in H; tauto).
  unfold bndTail. cbv zeta. rewrite (RN a La). cbn [bind]. fold A1. rewrite (RN A1 L1). cbn [bind]. fold A2. fold b. fold C2.
  rewrite (RN C2 L3). cbn [bind]. fold C0. rewrite (RN C0 L4). cbn [bind]. fold C1.
  rewrite (RF a La), (RF C0 L4), (RV a La), (RV A1 L1), (RV C0 L4). cbn [bind]. rewrite F3, V5, V1. fold vA.
  destruct (incoming_ok m vB V LvB) as (l & RI & HI). rewrite RI. cbn [bind]. rewrite (firstExterior_ok m l p V); [|intros x Hx; apply HI; auto|apply HI; auto|auto|intros x Hx; apply HI in Hx as [Y1 Y2]; auto]. cbn [bind].
  rewrite (RN b Lb), (RF b Lb). cbn [bind]. fold B1.
  destruct (moveVertex_ok m vA vB V LvA) as (m1 & RM & SM & HN1 & HF1 & HV1 & HFH1 & VE1). rewrite RM. cbn [bind].
  destruct (sl_kept _ _ SM) as [SC LE]. assert (LE' := LE). unfold lens in LE'. injection LE' as LE1 LE2 LE3 LE4 LE5.
  assert (BH : forall h, liveH m h -> 0 <= h < zlen (heNext m1)) by (intros h H; rewrite LE1; apply (liveH_bnd m V) in H; tauto).
  assert (BF_ : forall h, liveH m h -> 0 <= h < zlen (heFace m1)) by (intros h H; rewrite HF1; apply (liveH_bnd m V) in H; tauto).
  assert (BG : forall h, liveH m h -> 0 <= fa m h < zlen (fHalfedge m1)) by (intros h H; rewrite HFH1; apply (liveFL_bnd m V), CN; auto).
  rewrite setNext_ok by (apply BH; auto). cbn [bind].
  rewrite setNext_ok by (unfold with_next; proj; rewrite ?zlen_updZ; apply BH; auto). cbn [bind].
  rewrite setNext_ok by (unfold with_next; proj; rewrite ?zlen_updZ; apply BH; auto). cbn [bind].
  set (w4 := with_next _ p B1). assert (NX4 : forall h, nx w4 h = if h =? p then B1 else if h =? A1 then C0 else if h =? C1 then A1 else nx m h).
  { intros h. unfold w4. rewrite nx_wnext by (unfold with_next; proj; rewrite ?zlen_updZ; apply BH; auto). rewrite nx_wnext by (unfold with_next; proj; rewrite ?zlen_updZ; apply BH; auto).
    rewrite nx_wnext by (apply BH; auto). unfold nx at 1. rewrite HN1. reflexivity. }
  assert (O4 : heFace w4 = heFace m1 /\ fHalfedge w4 = fHalfedge m1 /\ vHalfedge w4 = vHalfedge m1 /\ heVertex w4 = heVertex m1) by (repeat split; reflexivity). destruct O4 as (O4 & O5 & O6 & O7).
  assert (KP4 : Kept m w4). { eapply kept_trans; [split; [exact SC|exact LE]|]. unfold w4. eapply kept_trans; [|apply stored_wnext]. eapply kept_trans; [|apply stored_wnext]. apply stored_wnext. }
  clearbody w4.
  rewrite setFace_ok by (rewrite O4; apply BF_; auto). cbn [bind].
  set (w5 := with_face w4 A1 (fa m C2)). assert (FA5 : forall h, fa w5 h = if h =? A1 then fa m C2 else fa m h).
  { intros h. unfold w5. rewrite fa_wface by (rewrite O4; apply BF_; auto). unfold fa at 2. rewrite O4, HF1. reflexivity. }
  assert (VH5 : forall v, vh w5 v = vh m v) by (intros v; unfold w5; rewrite vh_wface; unfold vh; rewrite O6, HV1; reflexivity).
  assert (FPOS : forall h, liveH m h -> 0 <= fa m h) by (intros h H; apply (liveFL_bnd m V); apply CN; auto).
  assert (KP5 : Kept m w5) by (eapply kept_trans; [exact KP4|apply stored_wface]).
  destruct (cn_vh _ CN vC LvC) as [LvhC EvhC]. assert (LtC : liveH m (tw (vh m vC))) by (apply CN; auto).
  assert (IA1 : fFill m <=? fa m A1 = false) by (unfold ext in I1; clear -I1; lia). assert (IC2 : fFill m <=? fa m C2 = false) by (unfold ext in IC; clear -IC; lia).
  rewrite (unlessBoundary_ok m w5 vC C0); auto; rewrite ?VH5; auto.
  2: { unfold w5. proj. rewrite O6, HV1. reflexivity. }
  2: { unfold w5. proj. rewrite zlen_updZ, O4, HF1. reflexivity. }
  2: { destruct KP5 as [S5 _]. unfold scal in S5. congruence. }
  2: { rewrite FA5. destruct (_ =? A1); auto. }
  2: { unfold inner. rewrite FA5. destruct (Z.eqb_spec (tw (vh m vC)) A1) as [->|]; auto. rewrite IA1, IC2. auto. }
  cbn [bind]. rewrite setFHe_ok by (unfold w5; proj; rewrite O5; apply BG; auto). cbn [bind]. rewrite setFHe_ok by (proj; rewrite zlen_updZ; unfold w5; proj; rewrite O5; apply BG; auto). cbn [bind].
  set (M := with_fhe _ (fa m b) B1).
  assert (NXM : forall h, nx M h = if h =? p then B1 else if h =? A1 then C0 else if h =? C1 then A1 else nx m h) by exact NX4.
  assert (FAM : forall h, fa M h = if h =? A1 then fa m C2 else fa m h) by exact FA5.
  assert (VEM : forall h, liveH m h -> ve M h = if ve m h =? vA then vB else ve m h). { intros h H. rewrite <- VE1 by auto. unfold M, ve. proj. unfold w5. proj. rewrite O7. reflexivity. }
  assert (VHM : forall v, vh M v = bvh v). { intros v. unfold M. rewrite !vh_wfhe. rewrite vh_wvi by (unfold w5; proj; rewrite O6, HV1; apply (liveV_bnd m V); auto). rewrite VH5. reflexivity. }
  assert (FHM : forall f, fh M f = if f =? fa m b then B1 else if f =? fa m C2 then C0 else fh m f).
  { intros f. unfold M. rewrite fh_wfhe by (proj; rewrite zlen_updZ; unfold w5; proj; rewrite O5; apply BG; auto). rewrite fh_wfhe by (unfold w5; proj; rewrite O5; apply BG; auto). rewrite fh_wvi. unfold w5. rewrite fh_wface. unfold fh at 1. rewrite O5, HFH1. reflexivity. }
  assert (KPM : Kept m M). { eapply kept_trans; [exact KP5|]. unfold M. eapply kept_trans; [|apply stored_wfhe]. eapply kept_trans; [|apply stored_wfhe]. apply with_if_kept. }
  clearbody M. clear NX4 O4 O5 O6 O7 KP4 w5 FA5 VH5 KP5.
  assert (POS : forall h, liveH m h -> h <> -1) by (intros h [[H _] _]; clear -H; lia).
  assert (FLV : forall f, liveFL m f -> fh m f <> -1) by (intros f [[_ ?]|[_ ?]]; auto).
  assert (BVne : forall v, bvh v = -1 <-> vh m v = -1). { intros v. unfold bvh. destruct (Z.eqb_spec v vC) as [->|]; [|rewrite andb_false_r; clear; tauto]. destruct (inner m vC); cbn [andb]; [|clear; tauto]. pose proof (POS _ L4) as Z1. destruct LvC as [_ Z2]. clear -Z1 Z2. tauto. }
  assert (S2 : SameLive m M). { split; auto.
    - intros h. rewrite NXM. destruct (Z.eqb_spec h p) as [->|]; [pose proof (POS _ M1) as Z1; destruct Lp as [_ Z2]; clear -Z1 Z2; tauto|]. destruct (Z.eqb_spec h A1) as [->|]; [pose proof (POS _ L4) as Z1; destruct L1 as [_ Z2]; clear -Z1 Z2; tauto|].
      destruct (Z.eqb_spec h C1) as [->|]; [pose proof (POS _ L1) as Z1; destruct L5 as [_ Z2]; clear -Z1 Z2; tauto|]. clear; tauto.
    - intros h _. rewrite FAM. destruct (Z.eqb_spec h A1) as [->|]; [|clear; tauto]. clear -IA1 IC2. lia.
    - intros v. rewrite VHM. apply BVne.
    - intros f. rewrite FHM. destruct (Z.eqb_spec f (fa m b)) as [->|]; [pose proof (POS _ M1) as Z1; pose proof (FLV _ (cn_fa _ CN b Lb)) as Z2; clear -Z1 Z2; tauto|].
      destruct (Z.eqb_spec f (fa m C2)) as [->|]; [pose proof (POS _ L4) as Z1; pose proof (FLV _ (cn_fa _ CN C2 L3)) as Z2; clear -Z1 Z2; tauto|clear; tauto]. }
  assert (ST : Stored M) by (eapply kept_stored; [apply S2|apply V]). assert (CT : Counted M) by (eapply same_live_counted; [exact S2|apply V]).
  pose proof (kept_dims _ _ KPM) as DM. destruct (dims_fill _ _ DM) as (D_1 & D_2 & D_3).
  assert (AL : forall k, liveH m k -> alive M k). { intros k K. split; [rewrite D_1; apply K|]. split; [rewrite (sl_h _ _ S2); apply K|]. rewrite FAM. destruct (k =? A1); auto. }
  assert (LFa : liveF m (fa m a)). { destruct (cn_fa _ CN a La) as [K|[K _]]; auto. exfalso. apply Ia. unfold ext. destruct (va_st _ V). clear -K st_f. lia. }
  assert (Q5 : A2 <> a) by (intros E; apply (f_equal (ve m)) in E; fold vC vA in E; auto). assert (Q8 : A2 <> b) by (intros E; apply (f_equal (ve m)) in E; fold vB vC in E; congruence).
  destruct (del_bnd M a A2 vA (fa m a)) as (m' & RD & DD & CD & NXD & VFD & VHD & FHD & COD).
  { exact ST. } { exact CT. } { apply AL. exact La. } { apply AL. exact Lb. } { apply AL. exact L2. } { apply AL. exact L3. }
  { repeat split; auto. }
  { split; [rewrite D_2; apply LvA|]. rewrite (sl_v _ _ S2). apply LvA. }
  { split; [rewrite D_3; apply LFa|]. rewrite (sl_f _ _ S2). apply LFa. }
  assert (IE : forall k, isE k a || isE k A2 = true <-> gone m a k). { intros k. rewrite !orb_true_iff, !isE_iff, Gn. fold b C2. clear. tauto. }
  exists m'. split.
  { repeat match type of RD with bind ?x _ = _ => destruct x as [?| |]; cbn [bind] in RD |- *; [|discriminate RD|discriminate RD] end. rewrite RD. reflexivity. }
  assert (FaB : fa m b <> fa m a) by (intros E; apply Ia; unfold ext; rewrite <- E; exact Xb).
  apply (boundary_valid m V TR NS a La Ia IC bvh bfh (gone m a)); auto; try (apply Gn; clear; tauto).
  - apply bVH.
  - apply bVB.
  - apply bFH.
  - rewrite DD. exact DM.
  - destruct (va_sl _ V) as [S1' S2']. assert (HD : heFill m' = heFill m /\ vFill m' = vFill m /\ fFill m' = fFill m /\ bFill m' = bFill m /\ fCap m' = fCap m /\ vCap m' = vCap m) by (rewrite <- DD in DM; unfold dims, lens in DM; injection DM as ????????? ?????; auto 8).
    destruct HD as (H_1 & H_2 & H_3 & H_4 & H_5 & H_6). split.
    + intros v Hv. rewrite H_2, H_6 in Hv. rewrite H_1, VHD, VHM. assert (ND : forall g, liveV m g -> (v =? g) = false) by (intros g [K _]; clear -K Hv; lia). unfold bvh. rewrite !ND, andb_false_r by auto. auto.
    + intros f Hf. rewrite H_3, H_4, H_5 in Hf. rewrite H_1, FHD, FHM. assert (ND : forall g, liveFL m g -> (f =? g) = false) by (intros g [[K _]|[K _]]; clear -K Hf; lia). rewrite !ND by (try (apply CN; auto); left; auto). auto.
  - intros h. rewrite NXD. rewrite <- IE. destruct (isE h a || isE h A2); [clear; tauto|]. rewrite (sl_h _ _ S2). clear. intuition discriminate.
  - intros v. rewrite VHD, VHM. fold vA. destruct (Z.eqb_spec v vA) as [->|]; [clear; tauto|]. rewrite BVne. clear -n. tauto.
  - intros f. rewrite FHD. destruct (Z.eqb_spec f (fa m a)) as [->|]; [clear; tauto|]. rewrite (sl_f _ _ S2). clear -n. tauto.
  - intros h H. apply (c2_L m V TR NS a La Ia bvh bfh) in H.
    assert (HH : liveH m h /\ ~ gone m a h) by (rewrite Gn; clear -H; tauto). destruct HH as [H1 H2]. assert (K : isE h a || isE h A2 = false) by (rewrite <- IE in H2; apply not_true_is_false; auto).
    rewrite NXD, K. destruct (VFD h K) as [-> ->]. rewrite NXM, FAM, VEM by auto.
    assert (BK : liveH m (bback h) /\ fa m (bback h) <> fa m a /\ bback h <> b /\ moved m a (bback h) = h).
    { rewrite MV. unfold bback. rewrite Gn in H2. destruct (Z.eqb_spec h A1) as [->|O1]; [rewrite Z.eqb_refl; auto|]. split; auto. split; [|split; [clear -H2; tauto|destruct (Z.eqb_spec h C2); [exfalso; clear -H2 e; tauto|auto]]].
      intros E. destruct (in_A m V TR a La Ia h H1 E) as [Y|[Y|Y]]; [clear -H2 Y; tauto|auto|apply H2; auto]. }
    destruct BK as (Y1 & Y2 & Y3 & Y4). destruct (c2_moved m V TR NS a La Ia bvh bfh Xb (bback h) Y1 Y2 Y3) as (Z1 & Z2 & Z3). rewrite Y4 in Z2, Z3.
    split; [etransitivity; [|symmetry; exact Z3]|split; [etransitivity; [|symmetry; exact Z2]|reflexivity]].
    + rewrite MV. fold b. fold B1. unfold bback. destruct (Z.eqb_spec h p) as [->|O1].
      { destruct (Z.eqb_spec p A1) as [->|]; [contradiction|]. rewrite Np, Z.eqb_refl. destruct (Z.eqb_spec B1 C2); [contradiction|auto]. }
      destruct (Z.eqb_spec h A1) as [->|O2].
      { fold C0. destruct (Z.eqb_spec C0 b) as [E|]; [exfalso; apply bC0; apply Gn; auto|]. destruct (Z.eqb_spec C0 C2); [contradiction|auto]. }
      destruct (Z.eqb_spec h C1) as [->|O3]. { rewrite G1. destruct (Z.eqb_spec C2 b); [contradiction|]. rewrite Z.eqb_refl. auto. }
      destruct (Z.eqb_spec (nx m h) b) as [E|]. { exfalso. apply O1. apply (cn_inj _ CN); auto. congruence. }
      destruct (Z.eqb_spec (nx m h) C2) as [E|]; auto. exfalso. apply O3. apply (cn_inj _ CN); auto. congruence.
    + unfold bback. destruct (h =? A1); auto.
  - intros v Hv Nv. rewrite VHD, VHM. fold vA in Nv. destruct (Z.eqb_spec v vA); congruence.
  - intros f Hf O1. rewrite FHD, FHM. unfold bfh. destruct (Z.eqb_spec f (fa m a)); [contradiction|]. auto.
  - assert (H : scal M = scal m) by apply KPM. unfold scal in H. injection H as _ _ H1 H2 H3 H4 _ _ _ _ _ _ _ _ _. clear -COD H1 H2 H3 H4. lia.
Qed.
End Bnd.
