(** C41, C42, C64, C65: points on the surface *)
From Verif Require Import Base MeshModel MeshSpec MeshOpSpec MeshCheck MeshBuildModel MeshExamples PointModel PointSpec PointProofs GeoModel GeoSpec GeoProofs GeoVec.
From Coq Require Import Reals Lra.
Open Scope Z_scope.

(** [interpolate] computes the value at the point *)
Theorem C41_interpolate m data p : Valid m -> onMesh m p -> interpolate m data p = Ok (valueAt m data p).
Proof. intros V. exact (interpolate_ok m V data p). Qed.
Print Assumptions C41_interpolate.
(** the constructor taking a halfedge measures along the halfedge *)
Theorem C41_halfedge m h t : Valid m -> liveH m h -> onMesh m (pointOnHalfedge h t) /\
  forall data, valueAt m data (pointOnHalfedge h t) = ((1 - t) * data (ve m h) + t * data (ve m (tw h)))%R.
Proof. intros V. exact (pointOnHalfedge_ok m V h t). Qed.
Print Assumptions C41_halfedge.
(** [inSomeFace] returns the same point in a face its element belongs to; coordinates stay non-negative *)
Theorem C41_some_face m p : Valid m -> triangular m -> onMesh m p ->
  exists f x y z, inSomeFace m p = Ok (PFace f x y z) /\ liveF m f /\ touches m (elemOf p) f /\ samePoint m (PFace f x y z) p /\
    (match p with PVertex _ => True | PEdge _ t => (0 <= t <= 1)%R | PFace _ a b c => (0 <= a /\ 0 <= b /\ 0 <= c)%R end -> (0 <= x /\ 0 <= y /\ 0 <= z)%R).
Proof. intros V. exact (inSomeFace_ok m V p). Qed.
Print Assumptions C41_some_face.
(** [inFace f] returns the same point in f, or throws when the element of the point is not part of f *)
Theorem C41_in_face m p f : Valid m -> triangular m -> onMesh m p -> liveF m f ->
  (touches m (elemOf p) f -> exists x y z, inFace m p f = Ok (PFace f x y z) /\ samePoint m (PFace f x y z) p) /\
  (~ touches m (elemOf p) f -> inFace m p f = Throw).
Proof. intros V. exact (inFace_ok m V p f). Qed.
Print Assumptions C41_in_face.
(** [inEdge e] throws for points that are not on e, and returns points of e unchanged. For the end points of e see below. *)
Theorem C41_in_edge_partial m p e : Valid m -> onMesh m p -> liveH m (2 * e) ->
  (~ onEdge m (elemOf p) e -> inEdge m p e = Throw) /\ (forall e' t, p = PEdge e' t -> e' = e -> inEdge m p e = Ok p).
Proof. intros V. exact (inEdge_ok m V p e). Qed.
Print Assumptions C41_in_edge_partial.
(** for every edge with distinct end points, [inEdge] turns each end point into the other one *)
Theorem C41_in_edge_refuted m e : Valid m -> liveH m (2 * e) -> ve m (2 * e) <> ve m (tw (2 * e)) ->
  exists p q, inEdge m (PVertex (ve m (2 * e))) e = Ok p /\ inEdge m (PVertex (ve m (tw (2 * e)))) e = Ok q /\
    (forall data, valueAt m data p = data (ve m (tw (2 * e)))) /\ (forall data, valueAt m data q = data (ve m (2 * e))).
Proof. intros V. exact (inEdge_swaps m V e). Qed.
Print Assumptions C41_in_edge_refuted.

Lemma quad_tri : triangular quad. Proof. apply triangularb_ok. vm_compute. reflexivity. Qed.
(** the midpoint of the diagonal, edge 2, in both faces; vertex 3 is not in face 0 *)
Example C41_witness : onMesh quad (PEdge 2 (1/3)) /\ liveF quad 1 /\ inFace quad (PEdge 2 (1/3)) 0 = Ok (PFace 0 (1/3) 0 (1 - 1/3))%R /\
  inFace quad (PEdge 2 (1/3)) 1 = Ok (PFace 1 (1 - (1 - 1/3)) (1 - 1/3) 0)%R /\ inFace quad (PVertex 3) 0 = Throw /\ inSomeFace quad (PVertex 3) = Ok (PFace 1 0 0 1)%R /\
  liveH quad (2 * 2) /\ ve quad (2 * 2) <> ve quad (tw (2 * 2)).
Proof. split; [conc|]. split; [conc|]. split; [reflexivity|]. split; [reflexivity|]. split; [reflexivity|]. split; [reflexivity|]. split; conc. Qed.

(** C42. Coordinates listed from [h.vertex()] on, permuted to the order of the face, denote the same point; and
    permuting back gives the same triple. *)
Theorem C42_to_canonical m h b : Valid m -> triangular m -> liveH m h -> ~ ext m h ->
  exists c, permuteBarycentricToCanonical m b h = Ok c /\ permuteBarycentricFromCanonical m c h = Ok b /\
    (forall data, valueAt m data (PFace (fa m h) (qx c) (qy c) (qz c)) = (qx b * data (ve m h) + qy b * data (ve m (nx m h)) + qz b * data (ve m (nx m (nx m h))))%R).
Proof. exact (permute_ok m h b). Qed.
Print Assumptions C42_to_canonical.
Theorem C42_from_canonical m h b : Valid m -> triangular m -> liveH m h -> ~ ext m h ->
  exists c, permuteBarycentricFromCanonical m b h = Ok c /\ permuteBarycentricToCanonical m c h = Ok b.
Proof. exact (permute_ok' m h b). Qed.
Print Assumptions C42_from_canonical.
Example C42_witness : liveH quad 6 /\ ~ ext quad 6 /\ permuteBarycentricToCanonical quad (mk3 1 2 3) 6 = Ok (mk3 3 1 2).
Proof. split; [conc|]. split; [conc|reflexivity]. Qed.

(** C64. [nearestVertex] is a vertex with the largest weight *)
Theorem C64_nearest m p : Valid m -> onMesh m p ->
  exists v w, nearestVertex m p = Ok v /\ In (v, w) (weights m p) /\ forall u w', In (u, w') (weights m p) -> (w' <= w)%R.
Proof. intros V. exact (nearestVertex_ok m V p). Qed.
Print Assumptions C64_nearest.
Example C64_witness : onMesh quad (PFace 1 (1/5) (3/5) (1/5)) /\ nearestVertex quad (PFace 1 (1/5) (3/5) (1/5)) = Ok 2.
Proof. split; [conc|]. cbn [nearestVertex]. destruct (Rge_dec (1/5) (3/5)); [exfalso; lra|]. destruct (Rge_dec (3/5) (1/5)); [reflexivity|exfalso; lra]. Qed.

(** C65. [sharedFace] and [sharedEdge] return a face (edge) both elements belong to, and null only if there is none. Two
    equal vertices are not asked for: [sharedEdge] looks for an edge joining them. *)
Theorem C65_face m a b : Valid m -> liveE m a -> liveE m b ->
  exists r, sharedFace m a b = Ok r /\
    match r with Some f => liveF m f /\ touches m a f /\ touches m b f | None => forall f, liveF m f -> ~ (touches m a f /\ touches m b f) end.
Proof. intros V. exact (sharedFace_ok m V a b). Qed.
Print Assumptions C65_face.
Theorem C65_edge m a b : Valid m -> liveE m a -> liveE m b ->
  exists r, sharedEdge m a b = Ok r /\
    match r with Some e => liveH m (2 * e) /\ onEdge m a e /\ onEdge m b e | None => (forall v, a = EV v -> b <> EV v) -> forall e, liveH m (2 * e) -> ~ (onEdge m a e /\ onEdge m b e) end.
Proof. intros V. exact (sharedEdge_ok m V a b). Qed.
Print Assumptions C65_edge.
(** [checkAdjacent] finds every pair of different elements of a common face. What it reports is a common face or a common
    boundary loop. Missing for the full property: see the refutations. *)
Theorem C65_adjacent_partial m a b : Valid m -> triangular m -> liveE m a -> liveE m b ->
  exists r, checkAdjacent m a b = Ok r /\
    (r = true -> exists f, liveFL m f /\ touches m a f /\ touches m b f) /\
    (a <> b -> (exists f, liveF m f /\ touches m a f /\ touches m b f) -> r = true).
Proof. intros V. exact (checkAdjacent_ok m V a b). Qed.
Print Assumptions C65_adjacent_partial.
(** without boundary the answer is exact *)
Theorem C65_closed m a b : Valid m -> triangular m -> (forall f, ~ liveL m f) -> liveE m a -> liveE m b -> a <> b ->
  exists r, checkAdjacent m a b = Ok r /\ (r = true <-> exists f, liveF m f /\ touches m a f /\ touches m b f).
Proof.
  intros V T C A B N. destruct (checkAdjacent_ok m V a b T A B) as (r & E & X & Y). exists r. split; [exact E|]. split; [|exact (Y N)].
  intros R. destruct (X R) as (f & [F|F] & G); [exists f; auto|destruct (C f F)].
Qed.
Print Assumptions C65_closed.
(** vertex 3 and edge 1 of two triangles 012, 023 have no face in common, nor have the edges 0 and 4 *)
Theorem C65_boundary_refuted : exists m v e a b, Valid m /\ triangular m /\ liveE m (EV v) /\ liveE m (EE e) /\ liveE m (EE a) /\ liveE m (EE b) /\
  checkAdjacent m (EV v) (EE e) = Ok true /\ (forall f, liveF m f -> ~ (touches m (EV v) f /\ touches m (EE e) f)) /\
  checkAdjacent m (EE a) (EE b) = Ok true /\ (forall f, liveF m f -> ~ (touches m (EE a) f /\ touches m (EE b) f)).
Proof.
  exists quad, 3, 1, 0, 4. split; [exact quad_valid|]. split; [exact quad_tri|]. split; [conc|]. split; [conc|]. split; [conc|]. split; [conc|].
  split; [reflexivity|]. split.
  - destruct (sharedFace_ok quad quad_valid (EV 3) (EE 1)) as (r & E & R); [conc|conc|]. assert (sharedFace quad (EV 3) (EE 1) = Ok None) as K by reflexivity. rewrite K in E. injection E as <-. exact R.
  - split; [reflexivity|]. destruct (sharedFace_ok quad quad_valid (EE 0) (EE 4)) as (r & E & R); [conc|conc|]. assert (sharedFace quad (EE 0) (EE 4) = Ok None) as K by reflexivity. rewrite K in E. injection E as <-. exact R.
Qed.
Print Assumptions C65_boundary_refuted.
Example C65_witness : liveE quad (EV 3) /\ liveE quad (EE 2) /\ sharedFace quad (EV 3) (EE 2) = Ok (Some 1) /\ sharedFace quad (EV 1) (EV 3) = Ok None /\
  sharedEdge quad (EV 0) (EV 2) = Ok (Some 2) /\ sharedEdge quad (EV 1) (EV 3) = Ok None /\ checkAdjacent quad (EV 1) (EV 3) = Ok false /\ (forall f, ~ liveL tet f).
Proof. split; [conc|]. split; [conc|]. split; [reflexivity|]. split; [reflexivity|]. split; [reflexivity|]. split; [reflexivity|]. split; [reflexivity|]. intros f (A & _). change (4 - 0 <= f < 4) in A. lia. Qed.
