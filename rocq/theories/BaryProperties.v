(** C68, C69: barycentric vectors *)
From Verif Require Import Base MeshModel MeshSpec MeshOpSpec MeshCheck MeshBuildModel MeshExamples PointModel PointSpec PointProofs PointProperties GeoModel GeoSpec GeoProofs BaryModel BarySpec BaryProofs.
From Coq Require Import Reals Lra.
Open Scope Z_scope.

(** C68. The vector between two points of a common face takes every linear function from its value at the first point
    to its value at the second; without a common face the constructor throws. Missing: two points of a common edge, see
    the refutation (two vertices joined by an edge are covered). *)
Theorem C68_between_partial m p q : Valid m -> triangular m -> onMesh m p -> onMesh m q ->
  ((exists f, liveF m f /\ touches m (elemOf p) f /\ touches m (elemOf q) f) ->
   (elemOf p <> elemOf q -> (forall e, liveH m (2 * e) -> ~ (onEdge m (elemOf p) e /\ onEdge m (elemOf q) e)) \/ exists v w, p = PVertex v /\ q = PVertex w) ->
   (forall e t, p <> PEdge e t \/ forall s, q <> PEdge e s) ->
   exists b, bvBetween m p q = Ok b /\ onMeshV m b /\ forall d, change m d b = (valueAt m d q - valueAt m d p)%R) /\
  (~ (exists f, liveF m f /\ touches m (elemOf p) f /\ touches m (elemOf q) f) -> bvBetween m p q = Throw).
Proof. intros V. exact (between_ok m V p q). Qed.
Print Assumptions C68_between_partial.
(** for every edge, the vector from one point inside it to another points the wrong way *)
Theorem C68_between_refuted m e s t : Valid m -> liveH m (2 * e) ->
  exists b, bvBetween m (PEdge e s) (PEdge e t) = Ok b /\ forall d, change m d b = (valueAt m d (PEdge e s) - valueAt m d (PEdge e t))%R.
Proof. intros V. exact (between_reversed m e s t). Qed.
Print Assumptions C68_between_refuted.
(** the vector of a halfedge in a face it touches *)
Theorem C68_halfedge m h f : Valid m -> triangular m -> liveH m h -> liveF m f -> touches m (EE (edge h)) f ->
  exists b, bvHalfedge m h f = Ok b /\ elemOfV b = EF f /\ zeroSum b /\ forall d, change m d b = (d (ve m (tw h)) - d (ve m h))%R.
Proof. intros V. exact (bvHalfedge_ok m V h f). Qed.
Print Assumptions C68_halfedge.
(** the same vector in a face; vertex and face vectors that are not part of the face are refused. Missing: edge vectors
    that are not part of the face, see the refutation. *)
Theorem C68_in_face_partial m b f : Valid m -> triangular m -> onMeshV m b -> liveF m f ->
  (touches m (elemOfV b) f -> exists x y z, bvInFace m b f = Ok (BFace f x y z) /\ sameVector m (BFace f x y z) b /\ (zeroSum b -> zeroSum (BFace f x y z))) /\
  ((forall e x y, b <> BEdge e x y) -> ~ touches m (elemOfV b) f -> bvInFace m b f = Throw).
Proof. intros V T A F. split; [exact (bvInFace_ok m V b f T A F)|]. intros N. exact (bvInFace_throw m V b f N F). Qed.
Print Assumptions C68_in_face_partial.
(** an edge vector is accepted by every face, whether the edge belongs to it or not *)
Theorem C68_in_face_refuted m e x y f : Valid m -> liveF m f -> exists x' y' z', bvInFace m (BEdge e x y) f = Ok (BFace f x' y' z').
Proof. intros V. exact (bvInFace_any m V e x y f). Qed.
Print Assumptions C68_in_face_refuted.
Theorem C68_some_face m b : Valid m -> triangular m -> onMeshV m b ->
  exists f x y z, bvInSomeFace m b = Ok (BFace f x y z) /\ liveF m f /\ touches m (elemOfV b) f /\ sameVector m (BFace f x y z) b /\ (zeroSum b -> zeroSum (BFace f x y z)).
Proof. intros V. exact (bvInSomeFace_ok m V b). Qed.
Print Assumptions C68_some_face.
Theorem C68_in_edge m b e : Valid m -> onMeshV m b -> liveH m (2 * e) ->
  (onEdge m (elemOfV b) e -> exists x y, bvInEdge m b e = Ok (BEdge e x y) /\ sameVector m (BEdge e x y) b /\ (zeroSum b -> zeroSum (BEdge e x y))) /\
  (~ onEdge m (elemOfV b) e -> bvInEdge m b e = Throw).
Proof. intros V. exact (bvInEdge_ok m V b e). Qed.
Print Assumptions C68_in_edge.
Theorem C68_shared_face m a b : Valid m -> liveE m a -> liveE m b ->
  exists r, bvSharedFace m a b = Ok r /\ match r with Some f => liveF m f /\ touches m a f /\ touches m b f | None => forall f, liveF m f -> ~ (touches m a f /\ touches m b f) end.
Proof. intros V. exact (bvSharedFace_ok m V a b). Qed.
Print Assumptions C68_shared_face.
Theorem C68_shared_edge m a b : Valid m -> liveE m a -> liveE m b ->
  exists r, bvSharedEdge m a b = Ok r /\ match r with Some e => liveH m (2 * e) /\ onEdge m a e /\ onEdge m b e | None => a <> b -> forall e, liveH m (2 * e) -> ~ (onEdge m a e /\ onEdge m b e) end.
Proof. intros V. exact (bvSharedEdge_ok m V a b). Qed.
Print Assumptions C68_shared_edge.
(** sums and differences, when both vectors belong to one face; otherwise the operators throw *)
Theorem C68_add m a b : Valid m -> triangular m -> onMeshV m a -> onMeshV m b ->
  ((exists f, liveF m f /\ touches m (elemOfV a) f /\ touches m (elemOfV b) f) ->
   exists c, bvAdd m a b = Ok c /\ onMeshV m c /\ (forall d, change m d c = (change m d a + change m d b)%R) /\ (zeroSum a -> zeroSum b -> zeroSum c)) /\
  (~ (exists f, liveF m f /\ touches m (elemOfV a) f /\ touches m (elemOfV b) f) -> bvAdd m a b = Throw).
Proof.
  intros V T A B. destruct (combine_ok m V Rplus 1 a b ltac:(intros; ring) T A B) as (X & Y). split; [|exact Y].
  intros F. destruct (X F) as (c & E & L & C & Z). exists c. split; [exact E|]. split; [exact L|]. split; [|exact Z]. intros d. rewrite C. ring.
Qed.
Print Assumptions C68_add.
Theorem C68_subtract m a b : Valid m -> triangular m -> onMeshV m a -> onMeshV m b ->
  ((exists f, liveF m f /\ touches m (elemOfV a) f /\ touches m (elemOfV b) f) ->
   exists c, bvSub m a b = Ok c /\ onMeshV m c /\ (forall d, change m d c = (change m d a - change m d b)%R) /\ (zeroSum a -> zeroSum b -> zeroSum c)) /\
  (~ (exists f, liveF m f /\ touches m (elemOfV a) f /\ touches m (elemOfV b) f) -> bvSub m a b = Throw).
Proof.
  intros V T A B. destruct (combine_ok m V Rminus (-1) a b ltac:(intros; ring) T A B) as (X & Y). split; [|exact Y].
  intros F. destruct (X F) as (c & E & L & C & Z). exists c. split; [exact E|]. split; [exact L|]. split; [|exact Z]. intros d. rewrite C. ring.
Qed.
Print Assumptions C68_subtract.
(** multiples, quotients, the opposite; and the projection to coordinates with sum zero, which leaves such coordinates alone *)
Theorem C68_scale m s b d : change m d (bvScale s b) = (s * change m d b)%R /\ (s <> 0%R -> change m d (bvDiv b s) = (change m d b / s)%R) /\ change m d (bvNeg b) = (- change m d b)%R /\
  elemOfV (bvScale s b) = elemOfV b /\ elemOfV (bvDiv b s) = elemOfV b /\ elemOfV (bvNeg b) = elemOfV b.
Proof. destruct b as [v|e x y|f x y z]; cbn; repeat split; try reflexivity; try (intros; field; auto); try ring; lra. Qed.
Print Assumptions C68_scale.
Theorem C68_normalized m b : zeroSum (bvNormalized b) /\ elemOfV (bvNormalized b) = elemOfV b /\ (zeroSum b -> sameVector m (bvNormalized b) b).
Proof.
  destruct b as [v|e x y|f x y z]; cbn; (split; [lra || exact I|]); (split; [reflexivity|]); intros Z d; cbn; auto; rewrite Z; field.
Qed.
Print Assumptions C68_normalized.
(** two points on different sides of face 0 of two triangles; the diagonal in both faces; edges 0 and 4 have no common face *)
Example C68_witness : onMesh quad (PEdge 0 (1/3)) /\ onMesh quad (PEdge 1 (1/4)) /\ bvBetween quad (PEdge 0 (1/3)) (PEdge 1 (1/4)) = Ok (BFace 0 (0 - (1 - 1/3)) (1 - 1/4 - 1/3) (1/4 - 0))%R /\
  bvHalfedge quad 4 1 = Ok (BFace 1 (-1 * -1) (1 * -1) (0 * -1))%R /\ onMeshV quad (BEdge 2 1 (-1)) /\ bvInFace quad (BEdge 2 1 (-1)) 1 = Ok (BFace 1 (-1) 1 0)%R /\ liveF quad 1 /\
  touches quad (EE 2) 1 /\ bvInEdge quad (BEdge 2 1 (-1)) 0 = Throw /\ bvAdd quad (BEdge 0 1 (-1)) (BEdge 4 1 (-1)) = Throw.
Proof.
  split; [conc|]. split; [conc|]. split; [reflexivity|]. split; [reflexivity|]. split; [conc|]. split; [reflexivity|]. split; [conc|]. split; [exists 5; conc|]. split; reflexivity.
Qed.

(** C69. Whenever the vertices of the face have positions in space that agree with the edge lengths, [dot], [norm2] and
    [norm] are the scalar product and the length of the vectors there *)
Theorem C69_dot m len u v : Valid m -> triangular m -> onMeshV m u -> onMeshV m v -> zeroSum u -> zeroSum v ->
  ((exists f, liveF m f /\ touches m (elemOfV u) f /\ touches m (elemOfV v) f) ->
   exists r f, bvDot m len u v = Ok r /\ liveF m f /\ touches m (elemOfV u) f /\ touches m (elemOfV v) f /\ forall P, lengths3 m len P f -> r = inner3 (embed3 m P u) (embed3 m P v)) /\
  (~ (exists f, liveF m f /\ touches m (elemOfV u) f /\ touches m (elemOfV v) f) -> bvDot m len u v = Throw).
Proof. intros V. exact (dot_ok m V len u v). Qed.
Print Assumptions C69_dot.
Theorem C69_norm m len b : Valid m -> triangular m -> onMeshV m b -> zeroSum b ->
  exists r f, bvNorm2 m len b = Ok r /\ bvNorm m len b = Ok (sqrt r) /\ liveF m f /\ touches m (elemOfV b) f /\ forall P, lengths3 m len P f -> r = inner3 (embed3 m P b) (embed3 m P b).
Proof. intros V. exact (norm2_ok m V len b). Qed.
Print Assumptions C69_norm.
(** Whenever the face is laid out counter-clockwise in the plane with its edge lengths, [rotate90] and [rotate] turn the
    vector there by a quarter turn, and by the angle. A vector along an edge is turned into the face on its left (on its
    right for angles above a half turn) if there is one. *)
Theorem C69_rotate90 m len b : Valid m -> triangular m -> onMeshV m b -> zeroSum b ->
  exists r f, bvRotate90 m len b = Ok r /\ liveF m f /\ touches m (elemOfV b) f /\ onMeshV m r /\ touches m (elemOfV r) f /\ zeroSum r /\
    (forall e x y, b = BEdge e x y -> elemOfV r = EF f /\ let h := if Rlt_dec x 0 then 2 * e else tw (2 * e) in ~ ext m h -> f = fa m h) /\
    forall P, lengths2 m len P f -> ccw m P f -> embed2 m P r = turn (PI / 2) (embed2 m P b).
Proof. intros V. exact (bvRotate90_ok m V len b). Qed.
Print Assumptions C69_rotate90.
Theorem C69_rotate m len b angle : Valid m -> triangular m -> onMeshV m b -> zeroSum b ->
  exists r f, bvRotate m len b angle = Ok r /\ liveF m f /\ touches m (elemOfV b) f /\ onMeshV m r /\ touches m (elemOfV r) f /\ zeroSum r /\
    (forall e x y, b = BEdge e x y -> let h := if Rlt_dec x 0 then 2 * e else tw (2 * e) in
       ((regularizeAngle angle < PI)%R -> elemOfV r = EF f /\ (~ ext m h -> f = fa m h)) /\ ((regularizeAngle angle > PI)%R -> elemOfV r = EF f /\ (~ ext m (tw h) -> f = fa m (tw h)))) /\
    forall P, lengths2 m len P f -> ccw m P f -> embed2 m P r = turn angle (embed2 m P b).
Proof. intros V. exact (bvRotate_ok m V len b angle). Qed.
Print Assumptions C69_rotate.

(** two right triangles of side lengths 3, 4, 5, in the plane: vertices 0 (0,0), 1 (4,0), 2 (4,3), 3 (0,3) *)
Definition rect (v : Z) : V2 := if v =? 0 then mk2 0 0 else if v =? 1 then mk2 4 0 else if v =? 2 then mk2 4 3 else mk2 0 3.
Definition rect3 (v : Z) : V3 := mk3 (px (rect v)) (py (rect v)) 0.
Definition rectLen (e : Z) : R := if e =? 2 then 5%R else if (e =? 0) || (e =? 3) then 4%R else 3%R.
Ltac corners m := repeat match goal with |- context [ve m ?x] => let r := eval vm_compute in (ve m x) in change (ve m x) with r end; repeat match goal with |- context [edge ?x] => let r := eval vm_compute in (edge x) in change (edge x) with r end.
Lemma rect_lengths f : lengths2 quad rectLen rect f.
Proof.
  intros h (B & _) _. change (heFill quad) with 10 in B.
  assert (S : forall x y, (0 <= y -> x = y * y -> sqrt x = y)%R) by (intros x y Y ->; apply sqrt_square; auto).
  assert (C : h = 0 \/ h = 1 \/ h = 2 \/ h = 3 \/ h = 4 \/ h = 5 \/ h = 6 \/ h = 7 \/ h = 8 \/ h = 9) by lia.
  destruct C as [->|[->|[->|[->|[->|[->|[->|[->|[->| ->]]]]]]]]]; corners quad; unfold rectLen, dist2, Rsqr, rect; cbn [Z.eqb Pos.eqb orb px py]; symmetry; apply S; lra.
Qed.
Lemma rect_ccw f : liveF quad f -> ccw quad rect f.
Proof. intros (B & _). change (fFill quad) with 2 in B. assert (C : f = 0 \/ f = 1) by lia. destruct C as [-> | ->]; unfold ccw; corners quad; unfold area2, rect; cbn [Z.eqb Pos.eqb px py]; lra. Qed.
Lemma rect_lengths3 f : lengths3 quad rectLen rect3 f.
Proof. intros h L F. rewrite (rect_lengths f h L F). unfold dist2, dist3, rect3. cbn [qx qy qz]. f_equal. unfold Rsqr. ring. Qed.
(** the vector from vertex 0 to vertex 1 in face 0 has length 4; the diagonal is turned into the face on its left *)
Example C69_witness : onMeshV quad (BFace 0 (-1) 1 0) /\ zeroSum (BFace 0 (-1) 1 0) /\ liveF quad 0 /\ lengths3 quad rectLen rect3 0 /\ lengths2 quad rectLen rect 0 /\ ccw quad rect 0 /\
  embed3 quad rect3 (BFace 0 (-1) 1 0) = mk3 4 0 0 /\ bvNorm2 quad rectLen (BFace 0 (-1) 1 0) = Ok 16%R /\ onMeshV quad (BEdge 2 1 (-1)) /\ ~ ext quad (tw (2 * 2)) /\ fa quad (tw (2 * 2)) = 1.
Proof.
  split; [conc|]. split; [cbn; lra|]. split; [conc|]. split; [apply rect_lengths3|]. split; [apply rect_lengths|]. split; [apply rect_ccw; conc|].
  split; [unfold embed3, change, rect3; corners quad; unfold rect; cbn [Z.eqb Pos.eqb px py qx qy qz]; f_equal; lra|].
  split; [cbn [bvNorm2]; change (sides quad rectLen 0) with (Ok (mk3 4 3 5)); cbn [bind qx qy qz]; f_equal; lra|]. split; [conc|]. split; [conc|reflexivity].
Qed.
