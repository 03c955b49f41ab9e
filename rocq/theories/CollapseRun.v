(** Execution of collapseEdgeTriangular. *)
From Verif Require Import Base MeshModel MeshModel2 MeshSpec MeshBase MeshExec MeshOrbit MeshFlip MeshDel MeshOpSpec MeshThms MeshConnect MeshSplit CollapseModel CollapseMap CollapseSpec CollapseProofs.
Open Scope Z_scope.

Lemma delEdge_ok m h : Stored m -> Counted m -> 0 <= h < heFill m -> nx m h <> -1 -> nx m (tw h) <> -1 -> 0 <= fa m h -> 0 <= fa m (tw h) ->
  exists m', deleteEdgeBundle m (edge h) = Ok m' /\ dims m' = dims m /\ Counted m' /\
    (forall k, nx m' k = if (k =? h) || (k =? tw h) then -1 else nx m k) /\
    (forall k, k <> h -> k <> tw h -> ve m' k = ve m k /\ fa m' k = fa m k) /\ (forall v, vh m' v = vh m v) /\ (forall f, fh m' f = fh m f) /\
    (nVertices m' = nVertices m /\ nEdges m' = nEdges m - 1 /\ nFaces m' = nFaces m /\ nLoops m' = nLoops m).
Proof.
  intros ST CT B N1 N2 F1 F2. assert (K : eHe (edge h) = h \/ eHe (edge h) = tw h) by (apply edge_eq; apply edge_eHe).
  assert (E : 0 <= eHe (edge h) < heFill m). { unfold eHe, edge. destruct ST as [_ _ _ _ _ _ [T _] _ _]. clear -B T. assert (2 * (h / 2) <= h) by lia. lia. }
  destruct K as [K|K].
  - destruct (deleteEdge_ok m (edge h) ST CT E) as (m' & R & D & C & NX & VF & VH & FH & CO); rewrite ?K; auto. rewrite K in *. exists m'.
    injection CO as _ _ Q1 Q2 Q3 Q4. auto 12.
  - destruct (deleteEdge_ok m (edge h) ST CT E) as (m' & R & D & C & NX & VF & VH & FH & CO); rewrite ?K, ?tw_tw; auto. rewrite K, tw_tw in *. exists m'.
    injection CO as _ _ Q1 Q2 Q3 Q4. split; auto. split; auto. split; auto. split; [intros k; rewrite NX, orb_comm; auto|]. auto 12.
Qed.

Definition alive (m : mesh) (h : Z) : Prop := 0 <= h < heFill m /\ nx m h <> -1 /\ 0 <= fa m h.
Lemma alive_dims m m' h : dims m' = dims m -> nx m' h = nx m h -> fa m' h = fa m h -> alive m h -> alive m' h.
Proof. intros D E1 E2 (A & B & C). unfold alive. rewrite E1, E2. replace (heFill m') with (heFill m); auto. unfold dims in D. congruence. Qed.
(** two edges, neither halfedge of one being one of the other *)
Definition apart (h k : Z) : Prop := k <> h /\ k <> tw h /\ tw k <> h /\ tw k <> tw h.
Definition isE (k h : Z) : bool := (k =? h) || (k =? tw h).
Lemma isE_no k h : k <> h -> k <> tw h -> isE k h = false.
Proof. intros. unfold isE. destruct (Z.eqb_spec k h), (Z.eqb_spec k (tw h)); cbn; cbn; congruence. Qed.
Lemma isE_iff k h : isE k h = true <-> k = h \/ k = tw h.
Proof. unfold isE. rewrite orb_true_iff, !Z.eqb_eq. tauto. Qed.
Lemma dims_fill m m' : dims m' = dims m -> heFill m' = heFill m /\ vFill m' = vFill m /\ fFill m' = fFill m.
Proof. intros D. unfold dims in D. injection D as ????? ???? ?. auto. Qed.

Lemma del2 M a x : Stored M -> Counted M -> alive M a -> alive M (tw a) -> alive M x -> alive M (tw x) -> apart a x ->
  exists m', (let* m := deleteEdgeBundle M (edge a) in deleteEdgeBundle m (edge x)) = Ok m' /\ dims m' = dims M /\ Counted m' /\
    (forall k, nx m' k = if isE k a || isE k x then -1 else nx M k) /\
    (forall k, isE k a || isE k x = false -> ve m' k = ve M k /\ fa m' k = fa M k) /\ (forall v, vh m' v = vh M v) /\ (forall f, fh m' f = fh M f) /\
    (nVertices m' = nVertices M /\ nEdges m' = nEdges M - 2 /\ nFaces m' = nFaces M /\ nLoops m' = nLoops M).
Proof.
  intros ST CT (A1 & A2 & A3) (A4 & A5 & A6) X1 X2 (P1 & P2 & P3 & P4).
  destruct (delEdge_ok M a) as (m1 & R1 & D1 & C1 & NX1 & VF1 & VH1 & FH1 & CO1); auto. rewrite R1. cbn [bind].
  assert (G : forall k, k <> a -> k <> tw a -> alive M k -> alive m1 k).
  { intros k K1 K2. apply alive_dims; auto; [rewrite NX1; fold (isE k a); rewrite isE_no by auto; auto|apply VF1; auto]. }
  destruct (G x P1 P2 X1) as (G1 & G2 & G3). destruct (G (tw x) P3 P4 X2) as (G4 & G5 & G6).
  destruct (delEdge_ok m1 x) as (m2 & R2 & D2 & C2 & NX2 & VF2 & VH2 & FH2 & CO2); auto; [apply (dims_stored M); auto|].
  exists m2. split; auto. split; [congruence|]. split; auto. split; [|split; [|split; [|split]]].
  - intros k. rewrite NX2, NX1. fold (isE k a) (isE k x). destruct (isE k a), (isE k x); auto.
  - intros k K. apply orb_false_iff in K as [K1 K2]. unfold isE in K1, K2. apply orb_false_iff in K1 as [K1 K3], K2 as [K2 K4]. apply Z.eqb_neq in K1, K2, K3, K4.
    destruct (VF2 k K2 K4) as [-> ->]. apply VF1; auto.
  - intros v. rewrite VH2. auto.
  - intros f. rewrite FH2. auto.
  - clear -CO1 CO2. lia.
Qed.
Lemma del_bnd M a x v f : Stored M -> Counted M -> alive M a -> alive M (tw a) -> alive M x -> alive M (tw x) -> apart a x ->
  liveV M v -> liveF M f ->
  exists m', (let* m := deleteEdgeBundle M (edge a) in let* m := deleteEdgeBundle m (edge x) in let* m := deleteVertex m v in deleteFace m f) = Ok m' /\ dims m' = dims M /\ Counted m' /\
    (forall k, nx m' k = if isE k a || isE k x then -1 else nx M k) /\
    (forall k, isE k a || isE k x = false -> ve m' k = ve M k /\ fa m' k = fa M k) /\ (forall w, vh m' w = if w =? v then -1 else vh M w) /\ (forall g, fh m' g = if g =? f then -1 else fh M g) /\
    (nVertices m' = nVertices M - 1 /\ nEdges m' = nEdges M - 2 /\ nFaces m' = nFaces M - 1 /\ nLoops m' = nLoops M).
Proof.
  intros ST CT A1 A2 X1 X2 P [Lv1 Lv2] [Lf1 Lf2].
  destruct (del2 M a x) as (m1 & R1 & D1 & C1 & NX1 & VF1 & VH1 & FH1 & CO1); auto.
  destruct (deleteEdgeBundle M (edge a)) as [m0| |]; cbn [bind] in R1 |- *; try discriminate. rewrite R1. cbn [bind].
  assert (S1 : Stored m1) by (apply (dims_stored M); auto). destruct (dims_fill M m1 D1) as (Q1 & Q2 & Q3).
  destruct (deleteVertex_ok m1 v) as (m2 & R2 & D2 & C2 & NX2 & VH2 & FH2 & CO2); auto; [rewrite Q2; auto|rewrite VH1; auto|]. rewrite R2. cbn [bind].
  assert (S2 : Stored m2) by (apply (dims_stored m1); auto). destruct (dims_fill m1 m2 D2) as (Q4 & Q5 & Q6).
  destruct (deleteFace_ok m2 f) as (m3 & R3 & D3 & C3 & NX3 & VH3 & FH3 & CO3); auto; [rewrite Q6, Q3; auto|rewrite FH2, FH1; auto|].
  exists m3. split; auto. split; [congruence|]. split; auto. split; [|split; [|split; [|split]]].
  - intros k. rewrite (proj1 (NX3 k)), (proj1 (NX2 k)). auto.
  - intros k K. destruct (NX3 k) as (_ & -> & ->), (NX2 k) as (_ & -> & ->). auto.
  - intros w. rewrite VH3, VH2, VH1. auto.
  - intros g. rewrite FH3, FH2, FH1. auto.
  - injection CO2 as _ _ E1 E2 E3 E4. injection CO3 as _ _ E5 E6 E7 E8. clear -CO1 E1 E2 E3 E4 E5 E6 E7 E8. lia.
Qed.
Lemma del_int M a x y v f g : Stored M -> Counted M -> alive M a -> alive M (tw a) -> alive M x -> alive M (tw x) -> alive M y -> alive M (tw y) ->
  apart a x -> apart a y -> apart x y -> liveV M v -> liveF M f -> liveF M g -> f <> g ->
  exists m', (let* m := deleteEdgeBundle M (edge a) in let* m := deleteEdgeBundle m (edge x) in let* m := deleteEdgeBundle m (edge y) in
      let* m := deleteVertex m v in let* m := deleteFace m f in deleteFace m g) = Ok m' /\ dims m' = dims M /\ Counted m' /\
    (forall k, nx m' k = if isE k a || isE k x || isE k y then -1 else nx M k) /\
    (forall k, isE k a || isE k x || isE k y = false -> ve m' k = ve M k /\ fa m' k = fa M k) /\ (forall w, vh m' w = if w =? v then -1 else vh M w) /\
    (forall h, fh m' h = if (h =? f) || (h =? g) then -1 else fh M h) /\
    (nVertices m' = nVertices M - 1 /\ nEdges m' = nEdges M - 3 /\ nFaces m' = nFaces M - 2 /\ nLoops m' = nLoops M).
Proof.
  intros ST CT A1 A2 X1 X2 Y1 Y2 P (U1 & U2 & U3 & U4) (W1 & W2 & W3 & W4) [Lv1 Lv2] [Lf1 Lf2] [Lg1 Lg2] FG.
  destruct (del2 M a x) as (m1 & R1 & D1 & C1 & NX1 & VF1 & VH1 & FH1 & CO1); auto.
  destruct (deleteEdgeBundle M (edge a)) as [m0| |]; cbn [bind] in R1 |- *; try discriminate. rewrite R1. cbn [bind].
  assert (S1 : Stored m1) by (apply (dims_stored M); auto). destruct (dims_fill M m1 D1) as (Q1 & Q2 & Q3).
  assert (G : forall k, k <> a -> k <> tw a -> k <> x -> k <> tw x -> alive M k -> alive m1 k).
  { intros k K1 K2 K3 K4. assert (Z : isE k a || isE k x = false) by (rewrite !isE_no by auto; auto). apply alive_dims; auto; [rewrite NX1, Z; auto|apply VF1; auto]. }
  destruct (G y U1 U2 W1 W2 Y1) as (G1 & G2 & G3). destruct (G (tw y) U3 U4 W3 W4 Y2) as (G4 & G5 & G6).
  destruct (delEdge_ok m1 y) as (m2 & R2 & D2 & C2 & NX2 & VF2 & VH2 & FH2 & CO2); auto. rewrite R2. cbn [bind].
  assert (S2 : Stored m2) by (apply (dims_stored m1); auto). destruct (dims_fill m1 m2 D2) as (Q4 & Q5 & Q6).
  destruct (deleteVertex_ok m2 v) as (m3 & R3 & D3 & C3 & NX3 & VH3 & FH3 & CO3); auto; [rewrite Q5, Q2; auto|rewrite VH2, VH1; auto|]. rewrite R3. cbn [bind].
  assert (S3 : Stored m3) by (apply (dims_stored m2); auto). destruct (dims_fill m2 m3 D3) as (Q7 & Q8 & Q9).
  destruct (deleteFace_ok m3 f) as (m4 & R4 & D4 & C4 & NX4 & VH4 & FH4 & CO4); auto; [rewrite Q9, Q6, Q3; auto|rewrite FH3, FH2, FH1; auto|]. rewrite R4. cbn [bind].
  assert (S4 : Stored m4) by (apply (dims_stored m3); auto). destruct (dims_fill m3 m4 D4) as (Q10 & Q11 & Q12).
  destruct (deleteFace_ok m4 g) as (m5 & R5 & D5 & C5 & NX5 & VH5 & FH5 & CO5); auto; [rewrite Q12, Q9, Q6, Q3; auto|rewrite FH4, FH3, FH2, FH1; destruct (Z.eqb_spec g f); congruence|].
  exists m5. split; auto. split; [congruence|]. split; auto. split; [|split; [|split; [|split]]].
  - intros k. rewrite (proj1 (NX5 k)), (proj1 (NX4 k)), (proj1 (NX3 k)), NX2, NX1. fold (isE k y). destruct (isE k a), (isE k x), (isE k y); auto.
  - intros k K. apply orb_false_iff in K as [K1 K2]. unfold isE in K2. apply orb_false_iff in K2 as [K2 K3]. apply Z.eqb_neq in K2, K3.
    destruct (NX5 k) as (_ & -> & ->), (NX4 k) as (_ & -> & ->), (NX3 k) as (_ & -> & ->). destruct (VF2 k K2 K3) as [-> ->]. auto.
  - intros w. rewrite VH5, VH4, VH3, VH2, VH1. auto.
  - intros h. rewrite FH5, FH4, FH3, FH2, FH1. destruct (h =? f), (h =? g); auto.
  - injection CO3 as _ _ E1 E2 E3 E4. injection CO4 as _ _ E5 E6 E7 E8. injection CO5 as _ _ H1 H2 H3 H4. clear -CO1 CO2 E1 E2 E3 E4 E5 E6 E7 E8 H1 H2 H3 H4. lia.
Qed.

(** writing one value at many halfedges *)
Lemma setVertices_ok w : forall l m, (forall x, In x l -> 0 <= x < zlen (heVertex m)) ->
  exists m', foldM (fun m h => setVertex m h w) l m = Ok m' /\ SameLive m m' /\ heNext m' = heNext m /\ heFace m' = heFace m /\ vHalfedge m' = vHalfedge m /\ fHalfedge m' = fHalfedge m /\
    forall h, ve m' h = if in_dec Z.eq_dec h l then w else ve m h.
Proof.
  induction l as [|x t IH]; intros m B.
  - exists m. split; [reflexivity|]. split; [apply same_live_refl|]. auto 6.
  - cbn [foldM]. rewrite setVertex_ok by (apply B; left; auto). cbn [bind]. destruct (IH (with_vertex m x w)) as (m' & R & S & N1 & N2 & N3 & N4 & E).
    + intros y Hy. unfold with_vertex. proj. rewrite zlen_updZ. apply B. right; auto.
    + exists m'. split; auto. split; [eapply same_live_trans; [apply sl_wvertex|exact S]|]. repeat (split; auto).
      intros h. rewrite E. rewrite ve_wvertex by (apply B; left; auto). destruct (in_dec Z.eq_dec h t) as [K|K], (in_dec Z.eq_dec h (x :: t)) as [K2|K2]; auto.
      * exfalso. apply K2. right; auto.
      * destruct (Z.eqb_spec h x); auto. destruct K2; [congruence|contradiction].
      * destruct (Z.eqb_spec h x); auto. exfalso. apply K2. left; auto.
Qed.
Lemma moveVertex_ok m v w : Valid m -> liveV m v ->
  exists m', moveVertex m v w = Ok m' /\ SameLive m m' /\ heNext m' = heNext m /\ heFace m' = heFace m /\ vHalfedge m' = vHalfedge m /\ fHalfedge m' = fHalfedge m /\
    forall h, liveH m h -> ve m' h = if ve m h =? v then w else ve m h.
Proof.
  intros V Lv. destruct (vertHalfedges_ok m V v Lv) as (l & R & _ & _ & _ & I). unfold moveVertex. rewrite R. cbn [bind].
  destruct (setVertices_ok w l m) as (m' & R' & S & N1 & N2 & N3 & N4 & E); [intros x Hx; apply I in Hx as [Hx _]; apply (liveH_bnd m V) in Hx; tauto|].
  exists m'. repeat (split; auto). intros h H. rewrite E. destruct (in_dec Z.eq_dec h l) as [K|K], (Z.eqb_spec (ve m h) v); auto.
  - exfalso. apply I in K. tauto.
  - exfalso. apply K, I. auto.
Qed.

(** the vertex keeps its representative if it is on the boundary *)
Definition inner (m : mesh) (v : Z) : bool := negb (fFill m <=? fa m (tw (vh m v))).
Lemma inner_no m v h : Valid m -> inner m v = true -> liveH m h -> ve m h = v -> ~ ext m (tw h).
Proof.
  intros V I H E X. pose proof (cn_vbd _ (va_cn _ V) h H X) as K. rewrite E in K. unfold inner in I. rewrite K in I. unfold ext in X. clear -I X. lia.
Qed.
Lemma unlessBoundary_ok m M v h : Valid m -> liveV m v -> zlen (vHalfedge M) = zlen (vHalfedge m) -> zlen (heFace M) = zlen (heFace m) -> fFill M = fFill m ->
  liveH m (vh M v) -> 0 <= fa M (tw (vh M v)) -> negb (fFill m <=? fa M (tw (vh M v))) = inner m v ->
  setVHeUnlessBoundary M v h = Ok (with_vhe_if (inner m v) M v h).
Proof.
  intros V Lv Z1 Z2 FF L P I. pose proof (liveV_bnd m V v Lv) as [_ B]. unfold setVHeUnlessBoundary, vIsBoundary, isInterior.
  rewrite vHe_ok by (rewrite Z1; auto). cbn [bind]. assert (Lt : liveH m (tw (vh M v))) by (apply V; auto). apply (liveH_bnd m V) in Lt.
  rewrite faceOf_ok by (rewrite Z2; tauto). cbn [bind]. unfold isLoop. rewrite FF. destruct (Z.ltb_spec (fa M (tw (vh M v))) 0); [clear -H P; lia|]. cbn [orb].
  rewrite negb_involutive. rewrite <- setVHe_if_ok by (intros _; rewrite Z1; auto). rewrite <- I. destruct (fFill m <=? fa M (tw (vh M v))); reflexivity.
Qed.
Lemma with_if_kept b M v h : Kept M (with_vhe_if b M v h).
Proof. destruct b; [apply stored_wvhe|destruct M; split; reflexivity]. Qed.
Lemma vh_writes m M vB vC vD p q r : Valid m -> liveV m vB -> liveV m vC -> liveV m vD -> vB <> vC -> vB <> vD -> liveH m q -> ve m q = vC ->
  zlen (vHalfedge M) = zlen (vHalfedge m) -> zlen (heFace M) = zlen (heFace m) -> fFill M = fFill m -> (forall v, vh M v = vh m v) ->
  (forall k, liveH m k -> 0 <= fa M k /\ (fFill m <= fa M k <-> ext m k)) ->
  exists M', (let* m := setVHeUnlessBoundary M vB p in let* m := setVHeUnlessBoundary m vC q in setVHeUnlessBoundary m vD r) = Ok M' /\ Kept M M' /\
    (forall h, nx M' h = nx M h /\ ve M' h = ve M h /\ fa M' h = fa M h) /\ (forall f, fh M' f = fh M f) /\
    (forall v, vh M' v = if inner m vD && (v =? vD) then r else if inner m vC && (v =? vC) then q else if inner m vB && (v =? vB) then p else vh m v).
Proof.
  intros V LB LC LD N1 N2 Lq Eq Z1 Z2 FF VH FX. pose proof (va_cn _ V) as CN.
  assert (BB : 0 <= vB < zlen (vHalfedge m)) by (apply (liveV_bnd m V); auto). assert (BC : 0 <= vC < zlen (vHalfedge m)) by (apply (liveV_bnd m V); auto). assert (BD : 0 <= vD < zlen (vHalfedge m)) by (apply (liveV_bnd m V); auto).
  assert (LV : forall v, liveV m v -> liveH m (vh m v) /\ liveH m (tw (vh m v))). { intros v Hv. destruct (cn_vh _ CN v Hv) as [K _]. split; auto. apply CN; auto. }
  assert (XX : forall k, liveH m k -> (fFill m <=? fa M k) = (fFill m <=? fa m k)). { intros k K. destruct (FX k K) as [_ K2]. unfold ext in K2. clear -K2. lia. }
  rewrite (unlessBoundary_ok m M vB p); auto; rewrite ?VH; try (apply LV; auto); try (apply FX, LV; auto); try (rewrite XX by (apply LV; auto); reflexivity). cbn [bind].
  set (M1 := with_vhe_if _ M vB p). assert (ZM1 : zlen (vHalfedge M1) = zlen (vHalfedge m)) by (unfold M1; proj; rewrite zlen_if; auto).
  assert (VC : vh M1 vC = vh m vC). { unfold M1. rewrite vh_wvi by (rewrite Z1; auto). destruct (Z.eqb_spec vC vB); [congruence|]. rewrite andb_false_r. auto. }
  assert (FA1 : forall k, fa M1 k = fa M k) by reflexivity.
  rewrite (unlessBoundary_ok m M1 vC q); auto; rewrite ?VC, ?FA1; try (apply LV; auto); try (apply FX, LV; auto); try (rewrite XX by (apply LV; auto); reflexivity). cbn [bind].
  set (M2 := with_vhe_if _ M1 vC q). assert (ZM2 : zlen (vHalfedge M2) = zlen (vHalfedge m)) by (unfold M2; proj; rewrite zlen_if; auto).
  assert (FA2 : forall k, fa M2 k = fa M k) by reflexivity.
  assert (VD : vh M2 vD = if inner m vC && (vD =? vC) then q else vh m vD). { unfold M2. rewrite vh_wvi by (rewrite ZM1; auto). unfold M1. rewrite vh_wvi by (rewrite Z1; auto). destruct (Z.eqb_spec vD vB); [congruence|]. rewrite (andb_false_r (inner m vB)), VH. auto. }
  assert (LD2 : liveH m (vh M2 vD)). { rewrite VD. destruct (_ && _); auto. apply LV; auto. }
  rewrite (unlessBoundary_ok m M2 vD r); auto; rewrite ?FA2.
  2: { apply FX. apply CN; auto. }
  2: { rewrite XX by (apply CN; auto). rewrite VD. destruct (inner m vC) eqn:EI; [|reflexivity]. destruct (Z.eqb_spec vD vC) as [->|]; [|reflexivity]. cbn [andb]. rewrite EI.
       pose proof (inner_no m vC q V EI Lq Eq) as K. unfold ext in K. clear -K. lia. }
  eexists. split; [reflexivity|]. split; [eapply kept_trans; [|eapply kept_trans]; apply with_if_kept|]. split; [auto|]. split; [auto|].
  intros v. rewrite vh_wvi by (rewrite ZM2; auto). unfold M2. rewrite vh_wvi by (rewrite ZM1; auto). unfold M1. rewrite vh_wvi by (rewrite Z1; auto). rewrite VH. auto.
Qed.
