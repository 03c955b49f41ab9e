(** C87: intrinsic mollification. C88: indices of direction fields. *)
From Coq Require Import Reals Lra.
From Verif Require Import Base DataModel MeshModel MeshSpec MeshBase MeshOpSpec MeshCheck MeshExamples MeshDataModel MeshHistorySpec CountSpec CollapseModel CollapseProofs PointProperties DelaunayExamples MeshHistoryCheck
  GeoModel IntrinsicModel IntrinsicSpec TangentSpec FieldModel FieldSpec Intrinsic1 Intrinsic3 Intrinsic4 Intrinsic5 Intrinsic6 Intrinsic7 Intrinsic8 Intrinsic11 Intrinsic12 Intrinsic13 Intrinsic14 IntrinsicProperties FrameModel EmbeddedModel Field1 Field2 Field3 Field4 Field5.
Open Scope R_scope.

(** mollifyIntrinsicAbsolute adds the same amount to every edge length, the least nonnegative one after which in every triangle two sides exceed the
    third by at least the margin. With a positive margin, positive lengths become the lengths of nondegenerate triangles, whatever they were before. *)
Theorem C87_absolute : forall m len margin, Valid m -> length (dat len) = Z.to_nat (eCap m) ->
  exists out eps, mollifyIntrinsicAbsolute m len margin = Ok out /\ 0 <= eps /\ (forall h, liveH m h -> lh out h = lh len h + eps) /\
    (forall h, liveH m h -> ~ ext m h -> lh out (nx m (nx m h)) + margin <= lh out h + lh out (nx m h)) /\
    (forall eps' other, 0 <= eps' -> (forall h, liveH m h -> lh other h = lh len h + eps') -> (forall h, liveH m h -> ~ ext m h -> lh other (nx m (nx m h)) + margin <= lh other h + lh other (nx m h)) -> eps <= eps') /\
    ((forall h, liveH m h -> 0 < lh len h) -> 0 < margin -> triangular m -> Metric m out).
Proof. exact mollify_absolute. Qed.
Print Assumptions C87_absolute.

(** mollifyIntrinsic takes the margin relative to the mean edge length. *)
Theorem C87_relative : forall m len factor, Valid m -> length (dat len) = Z.to_nat (eCap m) ->
  exists es out, elements m EEdge = Ok es /\ mollifyIntrinsic m len factor = Ok out /\ mollifyIntrinsicAbsolute m len (factor * (total (valAt len) es / IZR (nEdges m))) = Ok out /\
    ((forall h, liveH m h -> 0 < lh len h) -> 0 < factor -> triangular m -> Metric m out).
Proof. exact mollify_relative. Qed.
Print Assumptions C87_relative.

(** the tetrahedron with one edge far too long: no triangle there *)
Definition longLens : mdata R := {| dat := map (fun i => if (i =? 0)%nat then 10 else 1) (seq 0 (Z.to_nat (eCap tet))); dflt := 0 |}.
Lemma long_at h : liveH tet h -> lh longLens h = if (edge h =? 0)%Z then 10 else 1.
Proof.
  intros K. pose proof (va_st tet tet_valid) as S. pose proof (st_he _ S). pose proof (st_edge _ S) as [S1 S2]. destruct K as [K _]. assert (B : (0 <= edge h < eCap tet)%Z) by (unfold edge; lia). unfold lh, valAt, at_, longLens. cbn [dat].
  rewrite (nth_indep _ 0 ((fun i => if (i =? 0)%nat then 10 else 1) 0%nat)) by (rewrite map_length, seq_length; lia). rewrite (map_nth (fun i => if (i =? 0)%nat then 10 else 1)), seq_nth by lia. cbn [Nat.add].
  destruct (Z.eqb_spec (edge h) 0) as [->|N]; [reflexivity|]. destruct (Nat.eqb_spec (Z.to_nat (edge h)) 0); [lia|reflexivity].
Qed.
Example C87_witness : Valid tet /\ triangular tet /\ length (dat longLens) = Z.to_nat (eCap tet) /\ (forall h, liveH tet h -> 0 < lh longLens h) /\ ~ Metric tet longLens.
Proof.
  split; [exact tet_valid|]. split; [exact tet_triangular|]. split; [reflexivity|]. split; [intros h K; rewrite long_at by auto; destruct (edge h =? 0)%Z; lra|].
  intros M. assert (L0 : liveH tet 0) by (apply inH_live; vm_compute; tauto). assert (L1 : liveH tet (nx tet 0)) by (apply inH_live; vm_compute; tauto). assert (L2 : liveH tet (nx tet (nx tet 0))) by (apply inH_live; vm_compute; tauto).
  pose proof (mt_tri _ _ M 0%Z L0) as T. rewrite !long_at in T by auto. assert (E1 : (edge (nx tet 0) =? 0)%Z = false) by (vm_compute; reflexivity). assert (E2 : (edge (nx tet (nx tet 0)) =? 0)%Z = false) by (vm_compute; reflexivity). rewrite E1, E2 in T. change (edge 0 =? 0)%Z with true in T. cbv iota in T.
  assert (X : ~ ext tet 0) by (unfold ext; vm_compute; intros Q; apply Q; reflexivity). specialize (T X). lra.
Qed.

(** computeFaceIndex: in a face without boundary edges, 2 pi times the index is exactly n times the curvature of the face plus the turning of the field
    along its three sides, where n is the symmetry order and the turning along a halfedge is the one angle in [-pi, pi) from the transported value at its
    tail to the value at its tip. In any face the index is the nearest integer to this, counting the sides that are not on the boundary. Over a closed
    surface the indices add up to n times the Euler characteristic, less one for every edge at whose two ends the field is exactly opposite. *)
Theorem C88_face_index_partial : forall m len field n, Valid m -> triangular m -> Metric m len -> length (dat field) = Z.to_nat (vCap m) -> (forall v, liveV m v -> vecAt field v <> mk2 0 0) ->
  exists angles sums scaled vec tr K idx, cornerAngles m len = Ok angles /\ vertexAngleSums m angles = Ok sums /\ cornerScaledAngles m angles sums = Ok scaled /\ halfedgeVectorsInVertex m len scaled = Ok vec /\ transportAlong m vec = Ok tr /\
    faceGaussianCurvatures m scaled = Ok K /\ computeFaceIndex m tr K field (INR n) = Ok idx /\
    let along h d := turnsBy (cmul (cpown (vecAt tr h) n) (vecAt field (ve m h))) (vecAt field (ve m (tw h))) d in
    exists d : Z -> R, (forall h, liveH m h -> along h (d h) /\ forall t, along h t -> t = d h) /\
    (forall f l, liveF m f -> aroundFace m f l -> (forall h, In h l -> ~ ext m (tw h)) -> 2 * PI * IZR (intAt idx f) = INR n * valAt K f + Rsum d l) /\
    (forall f l, liveF m f -> facing m f l -> nearest ((INR n * valAt K f + Rsum d l) / (2 * PI)) (intAt idx f)) /\
    (closedMesh m -> forall fs opposite, elements m EFace = Ok fs -> NoDup opposite -> (forall e, In e opposite <-> liveE m EEdge e /\ along (eHe e) (- PI)) ->
      total (fun f => IZR (intAt idx f)) fs + INR (length opposite) = INR n * IZR (euler m)).
Proof. exact face_index_all. Qed.
Print Assumptions C88_face_index_partial.

(** computeVertexIndex: the same around interior vertices, for a field given in the faces and transported across edges; boundary vertices have index zero. *)
Theorem C88_vertex_index_partial : forall m len field n, Valid m -> triangular m -> Metric m len -> length (dat field) = Z.to_nat (capacity m EFace) -> (forall f, liveF m f -> vecAt field f <> mk2 0 0) ->
  exists areas vec tr angles sums K idx, faceAreas m len = Ok areas /\ halfedgeVectorsInFace m len areas = Ok vec /\ transportAcross m vec = Ok tr /\ cornerAngles m len = Ok angles /\ vertexAngleSums m angles = Ok sums /\
    vertexGaussianCurvatures m sums = Ok K /\ computeVertexIndex m tr K field (INR n) = Ok idx /\
    let across h d := turnsBy (cmul (cpown (vecAt tr h) n) (vecAt field (fa m h))) (vecAt field (fa m (tw h))) d in
    exists d : Z -> R, (forall h, liveH m h -> ~ ext m h -> ~ ext m (tw h) -> across h (d h) /\ forall t, across h t -> t = d h) /\
    (forall v l, liveV m v -> ~ onBoundary m v -> arriving m v l -> 2 * PI * IZR (intAt idx v) = INR n * valAt K v + Rsum d l) /\
    (forall v, liveV m v -> onBoundary m v -> intAt idx v = 0%Z) /\
    (closedMesh m -> forall vs opposite, elements m EVertex = Ok vs -> NoDup opposite -> (forall e, In e opposite <-> liveE m EEdge e /\ across (eHe e) (- PI)) ->
      total (fun v => IZR (intAt idx v)) vs + INR (length opposite) = INR n * IZR (euler m)).
Proof. exact vertex_index_all. Qed.
Print Assumptions C88_vertex_index_partial.

Lemma tet_closed : closedMesh tet.
Proof. intros h L X. assert (G : forallb (fun h => negb (extb tet h)) (zl tet EHalfedge) = true) by (vm_compute; reflexivity). rewrite forallb_forall in G. apply (zl_In tet tet_valid EHalfedge) in L. apply G in L. apply (extb_spec tet) in X. rewrite X in L. discriminate L. Qed.
Definition constField (k : nat) : mdata V2 := {| dat := repeat (mk2 1 0) k; dflt := mk2 0 0 |}.
Lemma const_at k i : (0 <= i < Z.of_nat k)%Z -> vecAt (constField k) i = mk2 1 0.
Proof. intros H. unfold vecAt, at_, constField. cbn [dat]. rewrite (nth_indep _ _ (mk2 1 0)) by (rewrite repeat_length; lia). apply nth_repeat. Qed.
Lemma e1_ne : mk2 1 0 <> mk2 0 0. Proof. intros E. injection E. lra. Qed.
Example C88_witness : Valid tet /\ triangular tet /\ Metric tet tetLens /\ closedMesh tet /\ length (dat (constField (Z.to_nat (vCap tet)))) = Z.to_nat (vCap tet) /\ (forall v, liveV tet v -> vecAt (constField (Z.to_nat (vCap tet))) v <> mk2 0 0) /\ (exists v, liveV tet v /\ ~ onBoundary tet v) /\
  length (dat (constField (Z.to_nat (capacity tet EFace)))) = Z.to_nat (capacity tet EFace) /\ (forall f, liveF tet f -> vecAt (constField (Z.to_nat (capacity tet EFace))) f <> mk2 0 0) /\ euler tet = 2%Z.
Proof.
  split; [exact tet_valid|]. split; [exact tet_triangular|]. split; [apply range_metric, tet_valid|]. split; [exact tet_closed|]. split; [apply repeat_length|]. split; [intros v L; rewrite const_at by (apply (v_cap tet tet_valid); auto); apply e1_ne|].
  split. { exists 0%Z. split; [apply inV_live; vm_compute; reflexivity|]. intros (h & L & _ & X). apply (tet_closed h L X). }
  split; [apply repeat_length|]. split; [|reflexivity]. intros f L. rewrite const_at by (apply (f_cap tet tet_valid); auto). apply e1_ne.
Qed.

(** The indices of a field on a closed surface need not add up to the Euler characteristic: they do not when the field is opposite at the ends of an edge. *)
Theorem C88_opposite_refuted : exists m len field, Valid m /\ triangular m /\ Metric m len /\ closedMesh m /\ length (dat field) = Z.to_nat (vCap m) /\ (forall v, liveV m v -> vecAt field v <> mk2 0 0) /\
  exists angles sums scaled vec tr K idx fs, cornerAngles m len = Ok angles /\ vertexAngleSums m angles = Ok sums /\ cornerScaledAngles m angles sums = Ok scaled /\ halfedgeVectorsInVertex m len scaled = Ok vec /\ transportAlong m vec = Ok tr /\
    faceGaussianCurvatures m scaled = Ok K /\ computeFaceIndex m tr K field 1 = Ok idx /\ elements m EFace = Ok fs /\ total (fun f => IZR (intAt idx f)) fs < IZR (euler m).
Proof.
  assert (MT : Metric tet tetLens) by (apply range_metric, tet_valid). destruct (transport_along_all tet tetLens tet_valid tet_triangular MT) as (A & S & C & vec & tr & EA & ES & EC & EV & ET & RO).
  assert (L0 : liveH tet 0) by (apply inH_live; vm_compute; tauto). destruct (RO 0%Z L0) as (U & _). set (r := vecAt tr 0) in *.
  pose (x := {| dat := [mk2 1 0; mk2 (- px r) (- py r); mk2 1 0; mk2 1 0]; dflt := mk2 0 0 |}). assert (LX : length (dat x) = Z.to_nat (vCap tet)) by reflexivity.
  assert (V4 : forall v, liveV tet v -> (0 <= v < 4)%Z) by (intros v Lv; apply (v_cap tet tet_valid) in Lv; assert (Q : Z.of_nat (Z.to_nat (vCap tet)) = 4%Z) by reflexivity; rewrite Q in Lv; exact Lv).
  assert (NX : forall v, liveV tet v -> vecAt x v <> mk2 0 0).
  { intros v Lv. apply V4 in Lv. assert (v = 0 \/ v = 1 \/ v = 2 \/ v = 3)%Z as [->|[->|[->| ->]]] by lia; try exact e1_ne. change (vecAt x 1) with (mk2 (- px r) (- py r)). intros Q. injection Q as Q1 Q2. unfold norm2_2 in U. nra. }
  destruct (face_index_all tet tetLens x 1 tet_valid tet_triangular MT LX NX) as (A' & S' & C' & vec' & tr' & K & idx & EA' & ES' & EC' & EV' & ET' & EK & EI & d & D & _ & _ & T).
  assert (A' = A) as -> by congruence. assert (S' = S) as -> by congruence. assert (C' = C) as -> by congruence. assert (vec' = vec) as -> by congruence. assert (tr' = tr) as -> by congruence.
  exists tet, tetLens, x. split; [exact tet_valid|]. split; [exact tet_triangular|]. split; auto. split; [exact tet_closed|]. split; auto. split; auto. exists A, S, C, vec, tr, K, idx, (els tet EFace). do 6 (split; [assumption|]). split; [exact EI|]. destruct (els_ok tet EFace tet_valid) as (EF & _). split; auto.
  assert (VE0 : ve tet 0 = 0%Z) by (vm_compute; reflexivity). assert (VE1 : ve tet (tw 0) = 1%Z) by (vm_compute; reflexivity).
  set (opp := filter (fun e => if Req_EM_T (d (eHe e)) (- PI) then true else false) (zl tet EEdge)).
  assert (IO : forall e, In e opp <-> liveE tet EEdge e /\ turnsBy (cmul (cpown (vecAt tr (eHe e)) 1) (vecAt x (ve tet (eHe e)))) (vecAt x (ve tet (tw (eHe e)))) (- PI)).
  { intros e. unfold opp. rewrite filter_In. rewrite (zl_In tet tet_valid EEdge). split; intros [Le Q]; split; auto; destruct (D (eHe e) Le) as [D1 D2].
    - destruct (Req_EM_T (d (eHe e)) (- PI)) as [E|]; [rewrite <- E; exact D1|discriminate].
    - apply D2 in Q. destruct (Req_EM_T (d (eHe e)) (- PI)); auto; congruence. }
  specialize (T tet_closed _ opp EF (NoDup_filter _ (zl_NoDup tet tet_valid EEdge)) IO). change (INR 1) with 1 in T. rewrite Rmult_1_l in T. assert (P : (1 <= length opp)%nat).
  { assert (I : In 0%Z opp). { refine (proj2 (IO 0%Z) _). split; [exact L0|]. change (eHe 0) with 0%Z. rewrite VE0, VE1. pose proof PI_RGT_0. split; [lra|]. exists 1. split; [lra|].
      change (vecAt x 0) with (mk2 1 0). change (vecAt x 1) with (mk2 (- px r) (- py r)). fold r. unfold cpown, cmul, fromAngle, mul2. cbn [px py]. rewrite cos_neg, sin_neg, cos_PI, sin_PI. f_equal; ring. }
    clear - I. destruct opp; [destruct I|cbn; lia]. }
  apply le_INR in P. change (INR 1) with 1 in P. clear - P T. lra.
Qed.
Print Assumptions C88_opposite_refuted.

(** a lone triangle: every corner is scaled to half a turn *)
Lemma lone m len h0 h1 h2 : Valid m -> triangular m -> Metric m len -> liveF m 0 -> fh m 0 = h0 -> nx m h0 = h1 -> nx m h1 = h2 -> ve m h0 = 0%Z -> ve m h1 = 1%Z -> ve m h2 = 2%Z -> ve m (tw h0) = 1%Z -> ve m (tw h1) = 2%Z -> ve m (tw h2) = 0%Z -> Z.to_nat (vCap m) = 3%nat ->
  (forall v, liveV m v -> (0 <= v < 3)%Z) -> liveV m 0 -> liveV m 1 -> liveV m 2 -> cornersAt m 0 = [h0] -> cornersAt m 1 = [h1] -> cornersAt m 2 = [h2] -> bdb m 0 = true -> bdb m 1 = true -> bdb m 2 = true -> ext m (tw h0) -> ext m (tw h1) -> ext m (tw h2) ->
  exists field, length (dat field) = Z.to_nat (vCap m) /\ (forall v, liveV m v -> vecAt field v <> mk2 0 0) /\
  exists angles sums scaled vec tr K idx, cornerAngles m len = Ok angles /\ vertexAngleSums m angles = Ok sums /\ cornerScaledAngles m angles sums = Ok scaled /\ halfedgeVectorsInVertex m len scaled = Ok vec /\ transportAlong m vec = Ok tr /\
    faceGaussianCurvatures m scaled = Ok K /\ computeFaceIndex m tr K field 1 = Ok idx /\ aroundFace m 0 [h0; h1; h2] /\ exists d, (forall h, In h [h0; h1; h2] -> turnsBy (cmul (vecAt tr h) (vecAt field (ve m h))) (vecAt field (ve m (tw h))) (d h)) /\
    valAt K 0 + Rsum d [h0; h1; h2] = 0 /\ intAt idx 0 = 1%Z.
Proof.
  intros V TR MT LF F0 N1 N2 V0 V1 V2 T0 T1 T2 VC V3 L0 L1 L2 C0 C1 C2 B0 B1 B2 X0 X1 X2. pose proof (va_cn m V) as CN. pose proof PI_RGT_0 as PP.
  destruct (cornerAngles_ok m V TR len MT) as (A & EA & LA & HA). destruct (sums_ok m V A LA) as (S & ES & LS & HS). destruct (scaled_ok m V A S LA LS) as (C & EC & LC & HC).
  assert (SC : forall v, liveV m v -> Rsum (valAt C) (cornersAt m v) = turn m v) by (intros v Lv; apply (scaled_sum m V TR len MT A S C v); auto).
  destruct (vertexVectors_ok m V TR len MT C LC) as (vec & EV & LV & HV). destruct (along_ok m V vec LV) as (tr & ET & LT & HT). destruct (faceGauss_ok m V TR C LC) as (K & EK & LK & HK).
  assert (RO : forall h, liveH m h -> rotates (vecAt vec) (vecAt tr) h) by (apply (alongRot m V len MT C vec tr HV HT)).
  destruct (fh_int m V 0%Z LF) as [K0 FF]. rewrite F0 in K0, FF. destruct (ring3_ok m V TR _ K0) as [NR IR]. assert (R3 : ring3 m h0 = [h0; h1; h2]) by (unfold ring3; rewrite N1, N2; reflexivity). rewrite R3 in NR, IR. rewrite FF in IR.
  assert (LIVE : forall h, In h [h0; h1; h2] -> liveH m h) by (intros h Hh; apply IR in Hh; apply Hh). pose proof (LIVE h0) as LH0. pose proof (LIVE h1) as LH1. pose proof (LIVE h2) as LH2. cbn [In] in LH0, LH1, LH2.
  assert (S3 : valAt C h0 = PI /\ valAt C h1 = PI /\ valAt C h2 = PI).
  { pose proof (SC _ L0) as Q0. pose proof (SC _ L1) as Q1. pose proof (SC _ L2) as Q2. rewrite C0 in Q0. rewrite C1 in Q1. rewrite C2 in Q2. unfold turn in Q0, Q1, Q2. rewrite B0 in Q0. rewrite B1 in Q1. rewrite B2 in Q2. cbn in Q0, Q1, Q2. lra. }
  destruct S3 as (S0 & S1 & S2).
  assert (EK0 : valAt K 0 = 2 * PI). { rewrite HK by auto. rewrite F0, R3. unfold Rsum; cbn [fold_right]. rewrite S0, S1, S2. lra. }
  pose proof (face_holonomy m V TR len MT C vec tr SC HV RO 0%Z LF) as HOL. rewrite F0, R3 in HOL. unfold Rsum in HOL; cbn [fold_right] in HOL. rewrite S0, S1, S2 in HOL.
  set (r0 := vecAt tr h0) in *. set (r1 := vecAt tr h1) in *. set (r2 := vecAt tr h2) in *.
  assert (U0 : r0 = fromAngle (arg2 r0)) by (apply unit_arg, RO; tauto). assert (U1 : r1 = fromAngle (arg2 r1)) by (apply unit_arg, RO; tauto). assert (U2 : r2 = fromAngle (arg2 r2)) by (apply unit_arg, RO; tauto).
  set (w := - (2 * PI / 3)). set (a0 := arg2 r0) in *. set (a1 := arg2 r1) in *. set (a2 := arg2 r2) in *.
  pose (x := {| dat := [fromAngle 0; fromAngle (w + a0); fromAngle (w + (a1 + (w + a0)))]; dflt := mk2 0 0 |}). assert (LX : length (dat x) = Z.to_nat (vCap m)) by (rewrite VC; reflexivity).
  assert (FN : forall t, fromAngle t <> mk2 0 0). { intros t Q. unfold fromAngle in Q. injection Q as Q1 Q2. pose proof (sin2_cos2 t) as Q3. unfold Rsqr in Q3. rewrite Q1, Q2 in Q3. lra. }
  assert (NX : forall v, liveV m v -> vecAt x v <> mk2 0 0). { intros v Lv. apply V3 in Lv. assert (v = 0 \/ v = 1 \/ v = 2)%Z as [->|[->| ->]] by lia; apply FN. }
  exists x. split; auto. split; auto.
  destruct (face_index_all m len x 1 V TR MT LX NX) as (A' & S' & C' & vec' & tr' & K' & idx & EA' & ES' & EC' & EV' & ET' & EK' & EI & d & D & _ & NB & _).
  assert (A' = A) as -> by congruence. assert (S' = S) as -> by congruence. assert (C' = C) as -> by congruence. assert (vec' = vec) as -> by congruence. assert (tr' = tr) as -> by congruence. assert (K' = K) as -> by congruence.
  exists A, S, C, vec, tr, K, idx. do 6 (split; [assumption|]). split; [exact EI|]. split; [split; [exact NR|]; intros h; rewrite IR; unfold intH; tauto|].
  assert (RW : - PI <= w < PI) by (unfold w; lra). assert (TA : forall h a b c, vecAt tr h = fromAngle a -> vecAt x (ve m h) = fromAngle b -> vecAt x (ve m (tw h)) = fromAngle c -> eqm c (w + (a + b)) -> turnsBy (cmul (vecAt tr h) (vecAt x (ve m h))) (vecAt x (ve m (tw h))) w).
  { intros h a b c Ea Eb Ec Q. rewrite Ea, Eb, Ec. split; [exact RW|]. exists 1. split; [lra|]. rewrite !cmul_angle. apply fromAngle_eqm in Q. rewrite Q. unfold mul2, fromAngle. cbn [px py]. f_equal; ring. }
  exists (fun _ => w). split; [|split].
  - intros h [<-|[<-|[<-|[]]]].
    + apply (TA h0 a0 0 (w + a0)); auto. rewrite V0; reflexivity. rewrite T0; reflexivity. apply eqm_eq; ring.
    + apply (TA h1 a1 (w + a0) (w + (a1 + (w + a0)))); auto. rewrite V1; reflexivity. rewrite T1; reflexivity. apply eqm_refl.
    + apply (TA h2 a2 (w + (a1 + (w + a0))) 0); auto. rewrite V2; reflexivity. rewrite T2; reflexivity. destruct HOL as [k HOL]. exists (- k)%Z. rewrite opp_IZR. unfold w. clear - HOL. lra.
  - rewrite EK0. unfold Rsum; cbn [fold_right]. unfold w. lra.
  - specialize (NB 0%Z [] LF). assert (FA : facing m 0 []). { split; [constructor|]. intros h. split; [intros []|]. intros (Q1 & Q2 & Q3 & Q4). assert (I : In h [h0; h1; h2]) by (apply IR; split; auto; split; auto). destruct I as [<-|[<-|[<-|[]]]]; contradiction. }
    specialize (NB FA). unfold nearest in NB. unfold Rsum in NB; cbn [fold_right INR] in NB. rewrite EK0 in NB. replace ((1 * (2 * PI) + 0) / (2 * PI)) with 1 in NB by (field; lra). clear - NB. rewrite <- minus_IZR in NB. apply Rabs_le_between' in NB || idtac.
    rewrite <- abs_IZR in NB. assert (Z.abs (1 - intAt idx 0) < 1)%Z by (apply lt_IZR; lra). lia.
Qed.
Definition lone3 := built [[0;1;2]]%Z.
Lemma lone3_valid : Valid lone3. Proof. apply validb_Valid. vm_compute. reflexivity. Qed.
Lemma lone3_triangular : triangular lone3.
Proof.
  intros h L X. assert (G : forallb (fun h => extb lone3 h || ((nx lone3 (nx lone3 (nx lone3 h)) =? h)%Z && negb (nx lone3 h =? h)%Z))%bool (zl lone3 EHalfedge) = true) by (vm_compute; reflexivity). rewrite forallb_forall in G. apply (zl_In lone3 lone3_valid EHalfedge) in L. apply G in L.
  apply Bool.orb_true_iff in L as [L|L]; [apply extb_spec in L; contradiction|]. apply andb_prop in L as [L1 L2]. split; [exact X|]. split; [apply Z.eqb_eq; exact L1|]. apply Bool.negb_true_iff, Z.eqb_neq in L2. exact L2.
Qed.
(** At a face on the boundary the reported index can differ from the number of turns the field makes around it, because the turning along its boundary
    edges is left out: here the field turns zero times around the only face and the reported index is one. *)
Theorem C88_boundary_refuted : exists m len field f l, Valid m /\ triangular m /\ Metric m len /\ length (dat field) = Z.to_nat (vCap m) /\ (forall v, liveV m v -> vecAt field v <> mk2 0 0) /\ liveF m f /\ aroundFace m f l /\
  exists angles sums scaled vec tr K idx d, cornerAngles m len = Ok angles /\ vertexAngleSums m angles = Ok sums /\ cornerScaledAngles m angles sums = Ok scaled /\ halfedgeVectorsInVertex m len scaled = Ok vec /\ transportAlong m vec = Ok tr /\
    faceGaussianCurvatures m scaled = Ok K /\ computeFaceIndex m tr K field 1 = Ok idx /\
    (forall h, In h l -> turnsBy (cmul (vecAt tr h) (vecAt field (ve m h))) (vecAt field (ve m (tw h))) (d h)) /\ valAt K f + Rsum d l = 2 * PI * 0 /\ intAt idx f = 1%Z.
Proof.
  assert (MT : Metric lone3 (rangeLens (Z.to_nat (eCap lone3)))) by (apply range_metric, lone3_valid). assert (LF : liveF lone3 0) by (apply inF_live; vm_compute; reflexivity).
  assert (B3 : forall v, liveV lone3 v -> (0 <= v < 3)%Z). { intros v Lv. apply (v_cap lone3 lone3_valid) in Lv. assert (E : Z.of_nat (Z.to_nat (vCap lone3)) = 3%Z) by (vm_compute; reflexivity). rewrite E in Lv. exact Lv. }
  assert (E0 : ext lone3 (tw 0)) by (apply extb_spec; vm_compute; reflexivity). assert (E1 : ext lone3 (tw 2)) by (apply extb_spec; vm_compute; reflexivity). assert (E2 : ext lone3 (tw 4)) by (apply extb_spec; vm_compute; reflexivity).
  destruct (lone lone3 (rangeLens (Z.to_nat (eCap lone3))) 0 2 4 lone3_valid lone3_triangular MT LF ltac:(vm_compute; reflexivity) ltac:(vm_compute; reflexivity) ltac:(vm_compute; reflexivity) ltac:(vm_compute; reflexivity) ltac:(vm_compute; reflexivity) ltac:(vm_compute; reflexivity) ltac:(vm_compute; reflexivity) ltac:(vm_compute; reflexivity) ltac:(vm_compute; reflexivity) ltac:(vm_compute; reflexivity) B3 ltac:(apply inV_live; vm_compute; reflexivity) ltac:(apply inV_live; vm_compute; reflexivity) ltac:(apply inV_live; vm_compute; reflexivity) ltac:(vm_compute; reflexivity) ltac:(vm_compute; reflexivity) ltac:(vm_compute; reflexivity) ltac:(vm_compute; reflexivity) ltac:(vm_compute; reflexivity) ltac:(vm_compute; reflexivity) E0 E1 E2) as (x & LX & NX & A & S & C & vec & tr & K & idx & EA & ES & EC & EV & ET & EK & EI & AF & d & D & Q & I).
  exists lone3, (rangeLens (Z.to_nat (eCap lone3))), x, 0%Z, [0; 2; 4]%Z. split; [exact lone3_valid|]. split; [exact lone3_triangular|]. split; [exact MT|]. split; [exact LX|]. split; [exact NX|]. split; [exact LF|]. split; [exact AF|].
  exists A, S, C, vec, tr, K, idx, d. do 8 (split; [assumption|]). split; [rewrite Q; ring|exact I].
Qed.
Print Assumptions C88_boundary_refuted.
