(** What the flipping loop returns, for each of the three policies. *)
From Verif Require Import Base MeshModel MeshSpec MeshOpSpec MeshBase MeshOrbit MeshExec MeshFlip MeshThms.
From Verif Require Import GeoModel GeoSpec GeoProofs DelaunayModel DelaunayProofs DelaunaySpec DelaunayRules.
From Coq Require Import Reals Lra Psatz.
Open Scope R_scope.

Lemma tw_edge h : edge (tw h) = edge h. Proof. apply edge_eq; auto. Qed.
Lemma euclidean_good m len : Valid m -> triangular m -> (GoodM TriGood m len <-> euclidean m len).
Proof.
  intros V TR. split; intros H h L X.
  - destruct (H h L X) as (G1 & G2 & G3 & G4 & G5 & G6). cbv zeta. lra.
  - assert (L2 := cn_nx _ (va_cn _ V) _ L). assert (L3 := cn_nx _ (va_cn _ V) _ L2). destruct (TR h L X) as (_ & E3 & _).
    assert (X2 : ~ ext m (nx m h)) by (unfold ext; rewrite (cn_fnx _ (va_cn _ V)) by auto; auto).
    assert (X3 : ~ ext m (nx m (nx m h))) by (unfold ext; rewrite (cn_fnx _ (va_cn _ V)) by auto; auto).
    pose proof (H _ L X) as G1. pose proof (H _ L2 X2) as G2. pose proof (H _ L3 X3) as G3. cbv zeta in *. rewrite E3 in *. unfold tri, TriGood. lra.
Qed.
Lemma positive_good m len : Valid m -> (GoodM PosGood m len <-> positiveLens m len).
Proof.
  intros V. split; intros H h L X.
  - destruct (H h L X) as (G1 & _). auto.
  - assert (L2 := cn_nx _ (va_cn _ V) _ L). assert (L3 := cn_nx _ (va_cn _ V) _ L2).
    assert (X2 : ~ ext m (nx m h)) by (unfold ext; rewrite (cn_fnx _ (va_cn _ V)) by auto; auto).
    assert (X3 : ~ ext m (nx m (nx m h))) by (unfold ext; rewrite (cn_fnx _ (va_cn _ V)) by auto; auto).
    pose proof (H _ L X). pose proof (H _ L2 X2). pose proof (H _ L3 X3). unfold tri, PosGood. auto.
Qed.

(** an edge that the loop does not flip although both sides are triangles: one of them is folded onto itself *)
Lemma not_flippable m e : Valid m -> triangular m -> liveH m (eHe e) -> ~ ext m (tw (eHe e)) -> ~ FlipPre m (eHe e) ->
  nx m (eHe e) = tw (eHe e) \/ nx m (tw (eHe e)) = eHe e.
Proof.
  intros V TR L X N. assert (LT := cn_tw _ (va_cn _ V) _ L). assert (X0 : ~ ext m (eHe e)) by (apply (cn_ebd _ (va_cn _ V)); auto; unfold eHe; lia).
  destruct (TR _ L X0) as (_ & E1 & N1). destruct (TR _ LT X) as (_ & E2 & N2).
  destruct (Z.eq_dec (nx m (eHe e)) (tw (eHe e))) as [|D1]; auto. destruct (Z.eq_dec (nx m (tw (eHe e))) (eHe e)) as [|D2]; auto.
  exfalso. apply N. split; auto.
Qed.
Definition weight m len e := edgeCotanWeight (sideV m len (eHe e)) (sideV m len (tw (eHe e))).
Definition score m len e := hyperbolicScore (sideV m len (eHe e)) (sideV m len (tw (eHe e))).
Lemma weight_cot m len e : Valid m -> triangular m -> liveH m (eHe e) -> ~ ext m (tw (eHe e)) ->
  weight m len e = cotOf (tri m len (eHe e)) + cotOf (tri m len (tw (eHe e))).
Proof.
  intros V TR L X. assert (LT := cn_tw _ (va_cn _ V) _ L). assert (X0 : ~ ext m (eHe e)) by (apply (cn_ebd _ (va_cn _ V)); auto; unfold eHe; lia).
  unfold weight, edgeCotanWeight, sideV. rewrite !weight_rot by (apply side_rot; auto). auto.
Qed.
Lemma folded_weight m len e : Valid m -> triangular m -> GoodM TriGood m len -> liveH m (eHe e) -> ~ ext m (tw (eHe e)) -> ~ FlipPre m (eHe e) -> 0 < weight m len e.
Proof.
  intros V TR G L X N. rewrite weight_cot by auto. assert (LT := cn_tw _ (va_cn _ V) _ L). assert (X0 : ~ ext m (eHe e)) by (apply (cn_ebd _ (va_cn _ V)); auto; unfold eHe; lia).
  destruct (TR _ L X0) as (_ & E1 & N1). destruct (TR _ LT X) as (_ & E2 & N2). pose proof (G _ L X0) as GA. pose proof (G _ LT X) as GB. unfold tri in *.
  destruct (not_flippable m e V TR L X N) as [E|E].
  - rewrite E in E1 |- *. rewrite E1. rewrite E in GA. rewrite !tw_edge in *. destruct (euclid_folded _ _ GA). lra.
  - rewrite E in E2 |- *. rewrite E2. rewrite E in GB. rewrite !tw_edge in *. destruct (euclid_folded _ _ GB). lra.
Qed.
Lemma folded_score m len e : Valid m -> triangular m -> GoodM PosGood m len -> liveH m (eHe e) -> ~ ext m (tw (eHe e)) -> ~ FlipPre m (eHe e) -> 0 < score m len e.
Proof.
  intros V TR G L X N. assert (LT := cn_tw _ (va_cn _ V) _ L). assert (X0 : ~ ext m (eHe e)) by (apply (cn_ebd _ (va_cn _ V)); auto; unfold eHe; lia).
  destruct (TR _ L X0) as (_ & E1 & N1). destruct (TR _ LT X) as (_ & E2 & N2). pose proof (G _ L X0) as (GA1 & GA2 & GA3). pose proof (G _ LT X) as (GB1 & GB2 & GB3).
  unfold score, sideV, tri. rewrite tw_edge in *. rewrite hyper_score by auto.
  assert (K : forall l a, 0 < l -> 0 < a -> 0 < (l * l + a * a - l * l) / (l * a * l) + (a * a + l * l - l * l) / (a * l * l)).
  { intros l a Hl Ha. replace ((l * l + a * a - l * l) / (l * a * l) + (a * a + l * l - l * l) / (a * l * l)) with (2 * (a / (l * l))) by (field; lra).
    assert (0 < a / (l * l)) by (apply Rdiv_lt_0_compat; auto; apply Rmult_lt_0_compat; auto). lra. }
  destruct (not_flippable m e V TR L X N) as [E|E].
  - rewrite E in *. rewrite E1 in *. rewrite !tw_edge in *. apply K; auto.
  - rewrite E in *. rewrite E2 in *. rewrite !tw_edge in *. rewrite Rplus_comm. apply K; auto.
Qed.

(** the statement about one edge *)
Lemma delaunayEdge_weight m len eps e : Valid m -> triangular m -> GoodM TriGood m len -> liveH m (eHe e) -> ~ ext m (tw (eHe e)) ->
  (delaunayEdge m len eps (eHe e) <-> - eps <= weight m len e).
Proof.
  intros V TR G L X. rewrite weight_cot by auto. assert (LT := cn_tw _ (va_cn _ V) _ L). assert (X0 : ~ ext m (eHe e)) by (apply (cn_ebd _ (va_cn _ V)); auto; unfold eHe; lia).
  pose proof (G _ L X0) as GA. pose proof (G _ LT X) as GB. unfold tri in *. rewrite tw_edge in *.
  assert (EX : exists p0 p1 p2 p3, laidOut m len (eHe e) p0 p1 p2 p3).
  { destruct (layout_diamond _ _ _ _ _ GA GB) as (p0 & p1 & p2 & p3 & Q1 & Q2 & Q3 & Q4 & Q5 & Q6 & Q7 & _). exists p0, p1, p2, p3. unfold laidOut. auto 10. }
  assert (WT : forall p0 p1 p2 p3, laidOut m len (eHe e) p0 p1 p2 p3 ->
    cotOf (len (edge (eHe e)), len (edge (nx m (eHe e))), len (edge (nx m (nx m (eHe e))))) +
    cotOf (len (edge (eHe e)), len (edge (nx m (tw (eHe e)))), len (edge (nx m (nx m (tw (eHe e)))))) = (cotAt p1 p2 p0 + cotAt p3 p0 p2) / 2).
  { intros p0 p1 p2 p3 (Q1 & Q2 & Q3 & Q4 & Q5 & Q6 & Q7). rewrite <- Q2, <- Q3, <- Q4, <- Q5. rewrite <- Q1 at 1. rewrite <- Q1.
    assert (EA : area2 p1 p2 p0 = area2 p2 p0 p1) by (unfold area2; ring). assert (EB : area2 p3 p0 p2 = area2 p0 p2 p3) by (unfold area2; ring).
    rewrite (cotOf_points p1 p2 p0) by lra. rewrite (dist2_sym p2 p0). rewrite (cotOf_points p3 p0 p2) by lra. lra. }
  split.
  - intros (_ & K). destruct EX as (p0 & p1 & p2 & p3 & Q). rewrite (WT _ _ _ _ Q). apply (K _ _ _ _ Q).
  - intros W. split; auto. intros p0 p1 p2 p3 Q. rewrite <- (WT _ _ _ _ Q). exact W.
Qed.
(** seen from the other side *)
Lemma laidOut_tw m len h p0 p1 p2 p3 : laidOut m len h p0 p1 p2 p3 <-> laidOut m len (tw h) p2 p3 p0 p1.
Proof. unfold laidOut. rewrite tw_tw, tw_edge, (dist2_sym p0 p2). tauto. Qed.
Lemma delaunayEdge_tw m len eps h : delaunayEdge m len eps h <-> delaunayEdge m len eps (tw h).
Proof.
  assert (H : forall h, delaunayEdge m len eps h -> delaunayEdge m len eps (tw h)).
  { intros h' ((p0 & p1 & p2 & p3 & Q) & K). split; [exists p2, p3, p0, p1; apply laidOut_tw in Q; auto|].
    intros q0 q1 q2 q3 Q'. assert (Q2 := Q'). apply laidOut_tw in Q2. specialize (K _ _ _ _ Q2). lra. }
  split; auto. intros K. rewrite <- (tw_tw h). auto.
Qed.
Lemma idealDelaunayEdge_tw m len eps h : idealDelaunayEdge m len eps h <-> idealDelaunayEdge m len eps (tw h).
Proof. unfold idealDelaunayEdge. rewrite tw_tw, tw_edge. split; intros; lra. Qed.
Lemma either_side (Q : Z -> Prop) m h : (forall h, Q h <-> Q (tw h)) -> Q (eHe (edge h)) -> liveH m h -> Q h.
Proof.
  intros S H L. assert (E : eHe (edge h) = h \/ eHe (edge h) = tw h) by (apply edge_eq; apply edge_eHe). destruct E as [E|E]; rewrite E in H; auto. apply S. auto.
Qed.
Lemma interior_both m h : Valid m -> liveH m h -> ~ ext m h -> ~ ext m (tw h) -> liveH m (eHe (edge h)) /\ ~ ext m (tw (eHe (edge h))).
Proof.
  intros V L X1 X2. split; [apply liveH_eHe; auto|]. assert (E : eHe (edge h) = h \/ eHe (edge h) = tw h) by (apply edge_eq; apply edge_eHe).
  destruct E as [E|E]; rewrite E; rewrite ?tw_tw; auto.
Qed.

(** the empty circle *)
Lemma circle_weight m len h : delaunayEdge m len 0 h -> emptyCircle m len h.
Proof.
  intros (_ & K) p0 p1 p2 p3 o r Q O0 O1 O2. specialize (K _ _ _ _ Q). destruct Q as (_ & _ & _ & _ & _ & A & B).
  destruct (Rle_lt_dec r (dist2 p3 o)) as [|C]; auto. exfalso.
  apply (inCircle_ok p2 p0 p1 p3 o r A O2 O0 O1) in C. unfold inCircleTest in C. unfold cotAt in K.
  assert (EA : area2 p1 p2 p0 = area2 p2 p0 p1) by (unfold area2; ring). assert (EB : area2 p3 p0 p2 = area2 p0 p2 p3) by (unfold area2; ring). rewrite EA, EB in K.
  set (d1 := (px p2 - px p1) * (px p0 - px p1) + (py p2 - py p1) * (py p0 - py p1)) in K. set (d3 := (px p0 - px p3) * (px p2 - px p3) + (py p0 - py p3) * (py p2 - py p3)) in K.
  assert (W : 0 <= d1 * area2 p0 p2 p3 + d3 * area2 p2 p0 p1).
  { replace (d1 * area2 p0 p2 p3 + d3 * area2 p2 p0 p1) with ((d1 / area2 p2 p0 p1 + d3 / area2 p0 p2 p3) * (area2 p2 p0 p1 * area2 p0 p2 p3)) by (field; lra).
    apply Rmult_le_pos; [lra|]. apply Rlt_le, Rmult_lt_0_compat; auto. }
  assert (D : inCircleDet p2 p0 p1 p3 = - (d1 * area2 p0 p2 p3 + d3 * area2 p2 p0 p1)) by (unfold inCircleDet, det3, norm2_2, d1, d3, area2; cbn [px py]; ring).
  lra.
Qed.

(** ** the loop under a Euclidean policy *)
Definition finished (m : mesh) (len : Z -> R) (fixed : Z -> bool) (m' : mesh) (len' : Z -> R) : Prop :=
  Valid m' /\ triangular m' /\ same_elements m m' /\ counts m' = counts m /\ (forall h, liveH m h -> (ext m' h <-> ext m h)) /\
  (forall h, liveH m h -> fixed (edge h) = true \/ ext m h \/ ext m (tw h) -> ve m' h = ve m h /\ len' (edge h) = len (edge h)).

Section Euclid.
Context (P : policy R) (eps : R).
Context (HL : pLen P = layoutLen).
Context (HB : forall sa sb, pBad P sa sb = true -> edgeCotanWeight sa sb < 0).
Context (HG : forall sa sb, 0 <= edgeCotanWeight sa sb -> pBad P sa sb = false).
Context (HF : forall x, pFin P x = true).

Lemma euclid_loop fuel m len : Valid m -> triangular m -> euclidean m len ->
  let r := flipLoop P fuel m len in
  r = Ok None \/ (pThrow P = true /\ (exists h, liveH m h /\ ext m h) /\ r = Throw) \/
  exists m' len' n, r = Ok (Some (m', len', n)) /\ (0 <= n)%Z /\ (n = 0%Z -> m' = m /\ len' = len) /\ finished m len (pFixed P) m' len' /\ euclidean m' len' /\
    forall e, liveH m' (eHe e) -> ~ ext m' (tw (eHe e)) -> pFixed P e = false -> badV P m' len' e = false.
Proof.
  intros V TR G r. subst r. apply (euclidean_good m len V TR) in G.
  assert (RULE : forall l02 l01 l12 l23 l30 ta tb, TriGood (l02, l01, l12) -> TriGood (l02, l23, l30) ->
    rotated (l02, l01, l12) ta -> rotated (l02, l23, l30) tb -> pBad P ((l02, l01, l12), ta) ((l02, l23, l30), tb) = true ->
    let x := pLen P l01 l12 l23 l30 l02 in pFin P x = true ->
    TriGood (x, l30, l01) /\ TriGood (x, l12, l23) /\ pBad P ((x, l30, l01), (x, l30, l01)) ((x, l12, l23), (x, l12, l23)) = false).
  { intros l02 l01 l12 l23 l30 ta tb GA GB RA RB B x _. subst x. rewrite HL. apply HB in B. destruct (euclid_rule _ _ _ _ _ _ _ GA GB RA RB B) as (Q1 & Q2 & Q3). auto. }
  destruct (flipLoop_ok P TriGood TriGood_rot RULE fuel m len V TR G) as [H|[(H1 & (e & H2 & H3) & H4)|(m' & len' & n & E & V' & TR' & G' & R' & N & N0 & S)]]; [auto|right; left|right; right].
  - split; auto. split; auto. exists (tw (eHe e)). split; auto. apply (va_cn _ V); auto.
  - exists m', len', n. split; auto. split; auto. split; auto. destruct R' as (R1 & R2 & R3 & R4). split; [unfold finished; auto 10|].
    split; [apply euclidean_good; auto|]. intros e L X FX. destruct (S e L X) as [C|[C|[C|C]]]; auto; [congruence|rewrite HF in C; discriminate|].
    apply HG. pose proof (folded_weight m' len' e V' TR' G' L X C) as W. unfold weight in W. lra.
Qed.
End Euclid.

(** isDelaunay() answers whether every edge passes its test *)
Lemma isDelaunay_ok marked eps m len : Valid m -> triangular m ->
  exists b, isDelaunay marked eps m len = Ok b /\
    (b = true <-> forall e, liveH m (eHe e) -> ~ ext m (tw (eHe e)) -> marked e = false -> - eps <= weight m len e).
Proof.
  intros V TR. unfold isDelaunay.
  assert (H : forall es, (forall e, In e es -> liveH m (eHe e)) -> exists b, allDelaunay marked eps m len es = Ok b /\
    (b = true <-> forall e, In e es -> ~ ext m (tw (eHe e)) -> marked e = false -> - eps <= weight m len e)).
  { induction es as [|e es IH]; intros LE; cbn [allDelaunay]. { exists true. split; auto. split; auto. intros _ e []. }
    destruct (IH (fun x Hx => LE x (or_intror Hx))) as (b & E & K). assert (L : liveH m (eHe e)) by (apply LE; left; auto).
    assert (LT := cn_tw _ (va_cn _ V) _ L). assert (X0 : ~ ext m (eHe e)) by (apply (cn_ebd _ (va_cn _ V)); auto; unfold eHe; lia).
    rewrite eIsBoundary_ok by auto. cbn [bind]. destruct (fFill m <=? fa m (tw (eHe e)))%Z eqn:EB; cbn [orb bind].
    - exists b. split; auto. rewrite K. split; intros Q x; [intros [<-|I] X; [exfalso; apply X; unfold ext; lia|]; apply Q; auto|intros I; apply Q; right; auto].
    - assert (X : ~ ext m (tw (eHe e))) by (unfold ext; lia). destruct (marked e) eqn:EM; cbn [bind].
      + exists b. split; auto. rewrite K. split; intros Q x; [intros [<-|I] X' M; [congruence|]; apply Q; auto|intros I; apply Q; right; auto].
      + rewrite !sideLens_ok by auto. cbn [bind]. fold (weight m len e). destruct (ltb (weight m len e) (- eps)) eqn:W.
        * exists false. split; auto. split; [discriminate|]. intros Q. apply ltb_true in W. specialize (Q e (or_introl eq_refl) X EM). lra.
        * apply ltb_false in W. exists b. split; auto. rewrite K. split; intros Q x; [intros [<-|I] X' M; [auto|]; apply Q; auto|intros I; apply Q; right; auto]. }
  destruct (H (liveEdges m)) as (b & E & K). { intros e I. apply liveEdges_in; auto. }
  exists b. split; auto. rewrite K. split; intros Q e; [intros L; apply Q; apply liveEdges_in; auto|intros I; apply Q; apply liveEdges_in; auto].
Qed.

(** ** simple flipToDelaunay *)
Definition closed (m : mesh) : Prop := forall h, liveH m h -> ~ ext m h.
Lemma simple_euclid eps fuel m len : 0 <= eps -> Valid m -> triangular m -> closed m -> euclidean m len ->
  let r := flipLoop (simplePolicy false eps) fuel m len in
  r = Ok None \/ exists m' len' n, r = Ok (Some (m', len', n)) /\ (0 <= n)%Z /\ (n = 0%Z -> m' = m /\ len' = len) /\ finished m len (fun _ => false) m' len' /\ closed m' /\
    euclidean m' len' /\ (forall h, liveH m' h -> delaunayEdge m' len' eps h) /\ (eps = 0 -> forall h, liveH m' h -> emptyCircle m' len' h).
Proof.
  intros EP V TR CL G r.
  destruct (euclid_loop (simplePolicy false eps) eq_refl) with (fuel := fuel) (m := m) (len := len) as [H|[(_ & (h & H1 & H2) & _)|(m' & len' & n & E & N & N0 & F & G' & B)]]; auto.
  - intros sa sb H. cbn in H. apply ltb_true in H. lra.
  - intros sa sb H. cbn. apply ltb_false. lra.
  - exfalso. apply (CL h); auto.
  - right. exists m', len', n. split; auto. split; auto. split; auto. split; auto.
    assert (CL' : closed m').
    { destruct F as (_ & _ & SE & _ & SX & _). intros h Lh. apply (proj1 SE) in Lh. rewrite SX by auto. apply CL; auto. }
    split; auto. split; auto.
    assert (D : forall h, liveH m' h -> delaunayEdge m' len' eps h).
    { destruct F as (V' & TR' & _). intros h Lh. assert (LT := cn_tw _ (va_cn _ V') _ Lh). destruct (interior_both m' h V' Lh (CL' _ Lh) (CL' _ LT)) as (L1 & X1).
      apply (either_side (delaunayEdge m' len' eps) m' h (delaunayEdge_tw m' len' eps)); auto. apply delaunayEdge_weight; auto. { apply euclidean_good; auto. }
      specialize (B _ L1 X1 eq_refl). unfold badV in B. cbn in B. apply ltb_false in B. exact B. }
    split; auto. intros -> h Lh. apply circle_weight. auto.
Qed.

(** a mesh with a boundary edge: no run of the simple function returns *)
Lemma simple_boundary hyperbolic eps fuel m len : Valid m -> triangular m -> (exists h, liveH m h /\ ext m h) ->
  flipLoop (simplePolicy hyperbolic eps) fuel m len = Ok None \/ flipLoop (simplePolicy hyperbolic eps) fuel m len = Throw.
Proof.
  intros V TR (h & L & X). assert (L0 := liveH_eHe m h V L).
  assert (X0 : ext m (tw (eHe (edge h)))).
  { assert (E : eHe (edge h) = h \/ eHe (edge h) = tw h) by (apply edge_eq; apply edge_eHe). destruct E as [E|E]; [|rewrite E, tw_tw; auto].
    exfalso. rewrite <- E in X. revert X. apply (cn_ebd _ (va_cn _ V)); [auto|unfold eHe; lia]. }
  apply (drain_boundary (simplePolicy hyperbolic eps) fuel m len _ _ _ (edge h)); auto; [apply liveEdges_QI; auto|apply liveEdges_in; auto].
Qed.

(** ** the hyperbolic flavour *)
Lemma simple_hyper eps fuel m len : 0 <= eps -> Valid m -> triangular m -> closed m -> positiveLens m len ->
  let r := flipLoop (simplePolicy true eps) fuel m len in
  r = Ok None \/ exists m' len' n, r = Ok (Some (m', len', n)) /\ (0 <= n)%Z /\ (n = 0%Z -> m' = m /\ len' = len) /\ finished m len (fun _ => false) m' len' /\ closed m' /\
    positiveLens m' len' /\ (forall h, liveH m' h -> idealDelaunayEdge m' len' eps h).
Proof.
  intros EP V TR CL G r. subst r. set (P := simplePolicy true eps). apply (positive_good m len V) in G.
  assert (RULE : forall l02 l01 l12 l23 l30 ta tb, PosGood (l02, l01, l12) -> PosGood (l02, l23, l30) ->
    rotated (l02, l01, l12) ta -> rotated (l02, l23, l30) tb -> pBad P ((l02, l01, l12), ta) ((l02, l23, l30), tb) = true ->
    let x := pLen P l01 l12 l23 l30 l02 in pFin P x = true ->
    PosGood (x, l30, l01) /\ PosGood (x, l12, l23) /\ pBad P ((x, l30, l01), (x, l30, l01)) ((x, l12, l23), (x, l12, l23)) = false).
  { intros l02 l01 l12 l23 l30 ta tb GA GB _ _ B x _. subst x. cbn [P simplePolicy pBad pLen] in *. apply ltb_true in B.
    destruct (hyper_rule _ _ _ _ _ ta tb GA GB ltac:(lra)) as (Q1 & Q2 & Q3). split; auto. split; auto. apply ltb_false. lra. }
  destruct (flipLoop_ok P PosGood PosGood_rot RULE fuel m len V TR G) as [H|[(H1 & (e & H2 & H3) & H4)|(m' & len' & n & E & V' & TR' & G' & R' & N & N0 & S)]]; auto.
  - exfalso. apply (CL (tw (eHe e))); auto. apply (va_cn _ V); auto.
  - right. exists m', len', n. split; auto. split; auto. split; auto. destruct R' as (R1 & R2 & R3 & R4). split; [unfold finished; auto 10|].
    assert (CL' : closed m') by (intros h Lh; apply (proj1 R1) in Lh; rewrite R3 by auto; apply CL; auto). split; auto. split; [apply positive_good; auto|].
    intros h Lh. assert (LT := cn_tw _ (va_cn _ V') _ Lh). destruct (interior_both m' h V' Lh (CL' _ Lh) (CL' _ LT)) as (L1 & X1).
    apply (either_side (idealDelaunayEdge m' len' eps) m' h (idealDelaunayEdge_tw m' len' eps)); auto.
    assert (B : - eps <= score m' len' (edge h)).
    { destruct (S (edge h) L1 X1) as [C|[C|[C|C]]]; [discriminate| |discriminate|].
      - unfold badV in C. cbn in C. apply ltb_false in C. exact C.
      - pose proof (folded_score m' len' _ V' TR' G' L1 X1 C). lra. }
    assert (LT1 := cn_tw _ (va_cn _ V') _ L1). destruct (G' _ L1 (CL' _ L1)) as (GA1 & GA2 & GA3). destruct (G' _ LT1 X1) as (GB1 & GB2 & GB3).
    unfold score, sideV, tri in B. rewrite tw_edge in *. rewrite hyper_score in B by auto. exact B.
Qed.

(** ** the intrinsic triangulations *)
Lemma tri_euclid P marked eps fuel m len : 0 <= eps -> P = integerPolicy marked eps \/ (0 < eps /\ P = signpostPolicy marked eps) -> Valid m -> triangular m -> euclidean m len ->
  let r := flipLoop P fuel m len in
  r = Ok None \/ exists m' len' n, r = Ok (Some (m', len', n)) /\ (0 <= n)%Z /\ (n = 0%Z -> m' = m /\ len' = len) /\ finished m len marked m' len' /\
    euclidean m' len' /\ (forall h, liveH m' h -> ~ ext m' h -> ~ ext m' (tw h) -> marked (edge h) = false -> delaunayEdge m' len' eps h) /\
    isDelaunay marked eps m' len' = Ok true.
Proof.
  intros EP HP V TR G r. subst r.
  assert (HL : pLen P = layoutLen) by (destruct HP as [->|(_ & ->)]; auto). assert (HF : forall x, pFin P x = true) by (destruct HP as [->|(_ & ->)]; auto).
  assert (HX : pFixed P = marked) by (destruct HP as [->|(_ & ->)]; auto). assert (HT : pThrow P = false) by (destruct HP as [->|(_ & ->)]; auto).
  assert (HB : forall sa sb, pBad P sa sb = true -> edgeCotanWeight sa sb < 0).
  { intros sa sb. destruct HP as [->|(Q & ->)]; cbn [pBad integerPolicy signpostPolicy]; [rewrite ltb_true; lra|]. rewrite negb_true_iff, ltb_false. lra. }
  assert (HG : forall sa sb, 0 <= edgeCotanWeight sa sb -> pBad P sa sb = false).
  { intros sa sb H. destruct HP as [->|(Q & ->)]; cbn [pBad integerPolicy signpostPolicy]; [apply ltb_false; lra|]. rewrite negb_false_iff, ltb_true. lra. }
  assert (HD : forall sa sb, pBad P sa sb = false -> - eps <= edgeCotanWeight sa sb).
  { intros sa sb. destruct HP as [->|(Q & ->)]; cbn [pBad integerPolicy signpostPolicy]; [rewrite ltb_false; lra|]. rewrite negb_false_iff, ltb_true. lra. }
  destruct (euclid_loop P HL HB HG HF fuel m len V TR G) as [H|[(C & _)|(m' & len' & n & E & N & N0 & F & G' & B)]]; auto; [congruence|].
  right. exists m', len', n. rewrite HX in *. split; auto. split; auto. split; auto. split; auto. split; auto. destruct F as (V' & TR' & _).
  assert (W : forall e, liveH m' (eHe e) -> ~ ext m' (tw (eHe e)) -> marked e = false -> - eps <= weight m' len' e) by (intros e L X M; apply HD, B; auto).
  split.
  - intros h Lh X1 X2 M. destruct (interior_both m' h V' Lh X1 X2) as (L1 & X3).
    apply (either_side (delaunayEdge m' len' eps) m' h (delaunayEdge_tw m' len' eps)); auto. apply delaunayEdge_weight; auto. apply euclidean_good; auto.
  - destruct (isDelaunay_ok marked eps m' len' V' TR') as (b & E' & K). rewrite E'. f_equal. apply K. auto.
Qed.
