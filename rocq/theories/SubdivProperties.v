(** C91, C92: subdivision into quads. *)
From Coq Require Import Reals Lra.
From Verif Require Import Base DataModel MeshModel MeshSpec MeshBase MeshBuildModel MeshOpSpec MeshOrbit MeshExec MeshDataModel MeshHistorySpec MeshHistory CollapseModel FastModel SubdivModel SubdivSpec IntrinsicSpec Intrinsic1 Subdiv1 Subdiv4 MeshCheck MeshExamples MeshHistoryCheck PointProperties FieldProperties GeoModel.
Open Scope Z_scope.

(** linearSubdivide *)
Theorem C91_linear m pos : Valid m -> NoDeadLoops m -> 0 < heFill m -> noDangling m ->
  exists m' pos' vt md ce corner, linearSubdivide m pos = Ok (m', pos') /\ Valid m' /\ NoDeadLoops m' /\ Refined m m' vt md ce corner /\
    (* old vertices stay, the others are at the middles of the edges and faces *)
    (forall v, liveV m v -> pos' (vt v) = pos v) /\
    (forall e, liveH m (eHe e) -> isMean (fun h => pos (ve m h)) [eHe e; tw (eHe e)] (pos' (md e))) /\
    (forall f l, liveF m f -> sidesAre m f l -> isMean (fun h => pos (ve m h)) l (pos' (ce f))) /\
    nVertices m' = nVertices m + nEdges m + nFaces m /\ nEdges m' = 2 * nEdges m + nInterior m /\ nFaces m' = nInterior m /\ nLoops m' = nLoops m.
Proof.
  intros V ND H0 D1. destruct (face_points m pos V) as (facePt & EF & PF & _). destruct (edge_points m (midPoint m pos) (fun e => div3 (add3 (pos (ve m (eHe e))) (pos (ve m (tw (eHe e))))) 2%R) V) as (edgePt & EE & PE).
  { intros e L. unfold midPoint. rewrite (vOf _ _ V) by auto. cbn [bind]. rewrite (vOf _ _ V) by (apply (cn_tw _ (va_cn _ V)); auto). reflexivity. }
  destruct (quad_split m pos edgePt facePt V ND H0 D1) as (m' & pos' & vt & md & ce & corner & E & V' & ND' & RF & A1 & A2 & A3 & CT).
  exists m', pos', vt, md, ce, corner. split; [|split; [exact V'|split; [exact ND'|split; [exact RF|split; [exact A1|split; [|split; [|exact CT]]]]]]].
  - unfold linearSubdivide. apply bind_Ok_inv in EF as (fs & -> & EF). cbn [bind]. rewrite EF. cbn [bind]. apply bind_Ok_inv in EE as (es & -> & EE). cbn [bind]. rewrite EE. cbn [bind]. exact E.
  - intros e L. rewrite A2 by auto. apply (two_points (fun h => pos (ve m h))). apply PE; auto.
  - intros f l L SA. rewrite A3 by auto. apply PF; auto.
Qed.
Print Assumptions C91_linear.

(** catmullClarkSubdivide: the same mesh (the positions are not those of Catmull and Clark, see below), with the positions the code computes. facePt and edgePt are the face and edge points; boundary loops count as faces with their point at the origin *)
Theorem C92_catmull_clark_partial m pos : Valid m -> NoDeadLoops m -> 0 < heFill m -> noDangling m ->
  exists m' pos' vt md ce corner facePt, catmullClarkSubdivide m pos = Ok (m', pos') /\ Valid m' /\ NoDeadLoops m' /\ Refined m m' vt md ce corner /\
    (forall f l, liveF m f -> sidesAre m f l -> isMean (fun h => pos (ve m h)) l (facePt f)) /\ (forall f, ~ liveF m f -> facePt f = mk3 0 0 0) /\
    (forall f, liveF m f -> pos' (ce f) = facePt f) /\
    (forall e, liveH m (eHe e) -> isMean facePt [fa m (eHe e); fa m (tw (eHe e))] (pos' (md e))) /\
    (forall v l, liveV m v -> leavingAre m v l -> forall q, q = qx \/ q = qy \/ q = qz -> let D := INR (length l) in
      (q (pos' (vt v)) * (D * D) = Rsum (fun h => q (facePt (fa m h))) l + 2 * Rsum (fun h => q (pos' (md (edge h)))) l + D * (D - 3) * q (pos v))%R) /\
    nVertices m' = nVertices m + nEdges m + nFaces m /\ nEdges m' = 2 * nEdges m + nInterior m /\ nFaces m' = nInterior m /\ nLoops m' = nLoops m.
Proof.
  intros V ND H0 D1. pose proof (va_cn _ V) as CN. destruct (face_points m pos V) as (facePt & EF & PF & PZ). destruct (edge_points m (ccEdgePoint m facePt) (fun e => div3 (add3 (facePt (fa m (eHe e))) (facePt (fa m (tw (eHe e))))) 2%R) V) as (edgePt & EE & PE).
  { intros e L. unfold ccEdgePoint. rewrite (fOf _ _ V) by auto. cbn [bind]. rewrite (fOf _ _ V) by (apply (cn_tw _ CN); auto). reflexivity. }
  destruct (vertex_points m pos facePt edgePt V PZ) as (newPos & EV & PV).
  destruct (quad_split m newPos edgePt facePt V ND H0 D1) as (m' & pos' & vt & md & ce & corner & E & V' & ND' & RF & A1 & A2 & A3 & CT).
  exists m', pos', vt, md, ce, corner, facePt. split; [|split; [exact V'|split; [exact ND'|split; [exact RF|split; [exact PF|split; [exact PZ|split; [exact A3|split; [|split; [|exact CT]]]]]]]]].
  - unfold catmullClarkSubdivide. apply bind_Ok_inv in EF as (fs & -> & EF). cbn [bind]. rewrite EF. cbn [bind]. apply bind_Ok_inv in EE as (es & -> & EE). cbn [bind]. rewrite EE. cbn [bind]. apply bind_Ok_inv in EV as (vs & -> & EV). cbn [bind]. rewrite EV. cbn [bind]. exact E.
  - intros e L. rewrite A2 by auto. apply two_points. apply PE; auto.
  - intros v l L SA q Hq D. unfold D. rewrite A1 by auto. rewrite (PV v l L SA q Hq). f_equal. f_equal. f_equal. apply Rsum_ext. intros h Ih. apply SA in Ih as [Lh _]. rewrite A2; auto.
    destruct (edge_two h (edge h) eq_refl) as [<-|K]; auto. rewrite <- (tw_tw (eHe _)), <- K. apply (cn_tw _ CN); auto.
Qed.
Print Assumptions C92_catmull_clark_partial.

(** a square and a triangle that share a side, a tetrahedron, and a single triangle *)
Definition mixed := built [[0;1;2;3];[2;1;4]].
Lemma mixed_valid : Valid mixed. Proof. apply validb_Valid. vm_compute. reflexivity. Qed.
Definition noDanglingb m := allb (fun h => negb (inH m h) || negb (nx m (tw h) =? h)) (heFill m).
Lemma noDanglingb_ok m : noDanglingb m = true -> noDangling m.
Proof. unfold noDanglingb. rewrite allb_ok. intros H e L E. specialize (H (eHe e) (proj1 L)). rewrite (proj2 (inH_live m (eHe e)) L), E, Z.eqb_refl in H. discriminate H. Qed.
Example C91_witness : (Valid mixed /\ NoDeadLoops mixed /\ 0 < heFill mixed /\ noDangling mixed) /\ (Valid tet /\ NoDeadLoops tet /\ 0 < heFill tet /\ noDangling tet) /\
  (forall pos, exists m' pos', linearSubdivide mixed pos = Ok (m', pos') /\ Valid m' /\ nVertices m' = 13 /\ nEdges m' = 19 /\ nFaces m' = 7 /\ nLoops m' = 1).
Proof.
  assert (A : Valid mixed /\ NoDeadLoops mixed /\ 0 < heFill mixed /\ noDangling mixed) by (split; [exact mixed_valid|]; split; [vm_compute; reflexivity|]; split; [vm_compute; reflexivity|]; apply noDanglingb_ok; vm_compute; reflexivity).
  split; [exact A|]. split; [split; [exact tet_valid|]; split; [vm_compute; reflexivity|]; split; [vm_compute; reflexivity|]; apply noDanglingb_ok; vm_compute; reflexivity|].
  intros pos. destruct A as (A1 & A2 & A3 & A4). destruct (C91_linear mixed pos A1 A2 A3 A4) as (m' & pos' & vt & md & ce & corner & E & V' & _ & _ & _ & _ & _ & C1 & C2 & C3 & C4).
  exists m', pos'. split; [exact E|]. split; [exact V'|]. rewrite C1, C2, C3, C4. vm_compute. auto.
Qed.

(** a mesh where e.halfedge() starts at a vertex of degree one: insertVertexAlongEdge breaks it (C11) and the subdivision throws *)
Theorem C91_degree_one_refuted : exists polys m, buildMesh polys = Ok m /\ Valid m /\ NoDeadLoops m /\ 0 < heFill m /\ forall pos, linearSubdivide m pos = Throw.
Proof. exists [[0;1;2;1]], folded. split; [vm_compute; reflexivity|]. split; [exact folded_valid|]. split; [vm_compute; reflexivity|]. split; [vm_compute; reflexivity|]. intros pos. vm_compute. reflexivity. Qed.
Print Assumptions C91_degree_one_refuted.

(** catmullClarkSubdivide on a surface with boundary: with every vertex at one point the new vertices should be there too, but the middles of the boundary edges are not *)
Theorem C92_boundary_refuted : exists m pos p m' pos', Valid m /\ NoDeadLoops m /\ 0 < heFill m /\ noDangling m /\ (forall v, pos v = p) /\
  catmullClarkSubdivide m pos = Ok (m', pos') /\ Valid m' /\ exists v, liveV m' v /\ pos' v <> p.
Proof.
  assert (ND : NoDeadLoops lone3) by (vm_compute; reflexivity). assert (H0 : 0 < heFill lone3) by (vm_compute; reflexivity). assert (D1 : noDangling lone3) by (apply noDanglingb_ok; vm_compute; reflexivity).
  set (p := mk3 1 1 1). set (pos := fun _ : Z => p). destruct (C92_catmull_clark_partial lone3 pos lone3_valid ND H0 D1) as (m' & pos' & vt & md & ce & corner & facePt & E & V' & _ & RF & PF & PZ & _ & PE & _).
  exists lone3, pos, p, m', pos'. split; [exact lone3_valid|]. split; [exact ND|]. split; [exact H0|]. split; [exact D1|]. split; [reflexivity|]. split; [exact E|]. split; [exact V'|]. exists (md 0).
  assert (L0 : liveH lone3 (eHe 0)) by (apply inH_live; vm_compute; reflexivity). split; [apply (rf_vert _ _ _ _ _ _ RF); right; left; exists 0; auto|].
  pose proof (PE 0 L0 qx (or_introl eq_refl)) as K. cbn [length fold_right] in K. change (INR 2) with (1 + 1)%R in K.
  assert (F0 : fa lone3 (eHe 0) = 0) by (vm_compute; reflexivity). assert (F1 : facePt (fa lone3 (tw (eHe 0))) = mk3 0 0 0) by (apply PZ; intros [B _]; vm_compute in B; destruct B as [_ B]; discriminate B).
  rewrite F0, F1 in K. assert (LF : liveF lone3 0) by (apply inF_live; vm_compute; reflexivity).
  destruct (faceHalfedges_ok lone3 lone3_valid 0 (or_introl LF)) as (l & El & _ & _ & Nl & Il). assert (l = [0; 2; 4]) as -> by (vm_compute in El; injection El as <-; reflexivity).
  pose proof (PF 0 [0; 2; 4] LF (conj Nl Il) qx (or_introl eq_refl)) as K2. cbn [length fold_right] in K2. change (INR 3) with (1 + 1 + 1)%R in K2. unfold pos, p in K2. cbn [qx] in K, K2.
  intros K3. rewrite K3 in K. unfold p in K. cbn [qx] in K. lra.
Qed.
Print Assumptions C92_boundary_refuted.
(** on a closed surface, the new vertex of an edge is not where Catmull and Clark put it, at the mean of its ends and the two face points *)
Theorem C92_rule_refuted : exists m pos m' pos' vt md ce corner e, Valid m /\ NoDeadLoops m /\ 0 < heFill m /\ noDangling m /\ (forall h, liveH m h -> ~ ext m h) /\
  catmullClarkSubdivide m pos = Ok (m', pos') /\ Valid m' /\ Refined m m' vt md ce corner /\ liveH m (eHe e) /\
  (qx (pos' (md e)) * 4 <> qx (pos (ve m (eHe e))) + qx (pos (ve m (tw (eHe e)))) + qx (pos' (ce (fa m (eHe e)))) + qx (pos' (ce (fa m (tw (eHe e))))))%R.
Proof.
  assert (ND : NoDeadLoops tet) by (vm_compute; reflexivity). assert (H0 : 0 < heFill tet) by (vm_compute; reflexivity). assert (D1 : noDangling tet) by (apply noDanglingb_ok; vm_compute; reflexivity).
  set (a := ve tet (eHe 0)). set (pos := fun v : Z => if v =? a then mk3 1 0 0 else mk3 0 0 0). destruct (C92_catmull_clark_partial tet pos tet_valid ND H0 D1) as (m' & pos' & vt & md & ce & corner & facePt & E & V' & _ & RF & PF & PZ & PC & PE & _).
  exists tet, pos, m', pos', vt, md, ce, corner, 0. split; [exact tet_valid|]. split; [exact ND|]. split; [exact H0|]. split; [exact D1|]. split; [exact tet_closed|]. split; [exact E|]. split; [exact V'|]. split; [exact RF|].
  assert (L0 : liveH tet (eHe 0)) by (apply inH_live; vm_compute; reflexivity). split; [exact L0|].
  pose proof (PE 0 L0 qx (or_introl eq_refl)) as K. cbn [length fold_right] in K. change (INR 2) with (1 + 1)%R in K. set (f := fa tet (eHe 0)) in *. set (g := fa tet (tw (eHe 0))) in *.
  assert (LF : liveF tet f) by (apply inF_live; vm_compute; reflexivity). assert (LG : liveF tet g) by (apply inF_live; vm_compute; reflexivity). rewrite !PC by auto.
  assert (A1 : forall k, liveF tet k -> (k = f \/ k = g) -> qx (facePt k) = (1 / 3)%R).
  { intros k Lk Hk. destruct (faceHalfedges_ok tet tet_valid k (or_introl Lk)) as (l & El & _ & _ & Nl & Il). pose proof (PF k l Lk (conj Nl Il) qx (or_introl eq_refl)) as K2.
    assert (W : exists x y z, l = [x; y; z] /\ ((ve tet x =? a) = true /\ (ve tet y =? a) = false /\ (ve tet z =? a) = false \/ (ve tet x =? a) = false /\ (ve tet y =? a) = true /\ (ve tet z =? a) = false \/ (ve tet x =? a) = false /\ (ve tet y =? a) = false /\ (ve tet z =? a) = true)).
    { destruct Hk as [->| ->]; vm_compute in El; injection El as <-; do 3 eexists; (split; [reflexivity|]); vm_compute; auto 10. }
    destruct W as (x & y & z & -> & W). cbn [length fold_right] in K2. change (INR 3) with (1 + 1 + 1)%R in K2. unfold pos in K2. destruct W as [(W1 & W2 & W3)|[(W1 & W2 & W3)|(W1 & W2 & W3)]]; rewrite W1, W2, W3 in K2; cbn [qx] in K2; lra. }
  rewrite (A1 f), (A1 g) in * by auto. unfold pos at 1 2. rewrite (proj2 (Z.eqb_eq (ve tet (eHe 0)) a) eq_refl). assert (B : (ve tet (tw (eHe 0)) =? a) = false) by (vm_compute; reflexivity). rewrite B. cbn [qx]. lra.
Qed.
Print Assumptions C92_rule_refuted.
