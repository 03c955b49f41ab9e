(** C46: flipping to Delaunay. Statements in the vocabulary of DelaunaySpec.v. *)
From Verif Require Import Base MeshModel MeshSpec MeshOpSpec MeshExamples MeshCheck MeshBase DelaunayModel DelaunaySpec DelaunayProofs DelaunayThms DelaunayExamples.
From Coq Require Import Reals Lra.
Open Scope R_scope.

(** flipToDelaunay on a closed triangle mesh with Euclidean edge lengths: no undefined behaviour and no error; if the loop stops
    ([Ok None]: it has not after [fuel] queue entries), the mesh is valid with the same elements, the new lengths are Euclidean,
    every edge has cotangent weight at least -eps, and for eps = 0 the circumcircle of each triangle contains no corner of a neighbour. *)
Theorem C46_simple : forall eps fuel m len, 0 <= eps -> Valid m -> triangular m -> closed m -> euclidean m len ->
  let r := flipLoop (simplePolicy false eps) fuel m len in
  r = Ok None \/ exists m' len' n, r = Ok (Some (m', len', n)) /\ (0 <= n)%Z /\ (n = 0%Z -> m' = m /\ len' = len) /\ finished m len (fun _ => false) m' len' /\ closed m' /\
    euclidean m' len' /\ (forall h, liveH m' h -> delaunayEdge m' len' eps h) /\ (eps = 0 -> forall h, liveH m' h -> emptyCircle m' len' h).
Proof. exact simple_euclid. Qed.
Print Assumptions C46_simple.

(** the hyperbolic flavour: any positive lengths *)
Theorem C46_hyperbolic : forall eps fuel m len, 0 <= eps -> Valid m -> triangular m -> closed m -> positiveLens m len ->
  let r := flipLoop (simplePolicy true eps) fuel m len in
  r = Ok None \/ exists m' len' n, r = Ok (Some (m', len', n)) /\ (0 <= n)%Z /\ (n = 0%Z -> m' = m /\ len' = len) /\ finished m len (fun _ => false) m' len' /\ closed m' /\
    positiveLens m' len' /\ (forall h, liveH m' h -> idealDelaunayEdge m' len' eps h).
Proof. exact simple_hyper. Qed.
Print Assumptions C46_hyperbolic.

(** IntrinsicTriangulation::flipToDelaunay, integer-coordinate and signpost version, with boundary and marked edges: these keep their
    end points and lengths, all others end up Delaunay, and isDelaunay() then answers true. *)
Theorem C46_triangulation : forall P marked eps fuel m len, 0 <= eps ->
  P = integerPolicy marked eps \/ (0 < eps /\ P = signpostPolicy marked eps) -> Valid m -> triangular m -> euclidean m len ->
  let r := flipLoop P fuel m len in
  r = Ok None \/ exists m' len' n, r = Ok (Some (m', len', n)) /\ (0 <= n)%Z /\ (n = 0%Z -> m' = m /\ len' = len) /\ finished m len marked m' len' /\
    euclidean m' len' /\ (forall h, liveH m' h -> ~ ext m' h -> ~ ext m' (tw h) -> marked (edge h) = false -> delaunayEdge m' len' eps h) /\
    isDelaunay marked eps m' len' = Ok true.
Proof. exact tri_euclid. Qed.
Print Assumptions C46_triangulation.

(** isDelaunay() answers exactly whether every unmarked edge between two faces is Delaunay *)
Theorem C46_test : forall marked eps m len, Valid m -> triangular m -> euclidean m len ->
  exists b, isDelaunay marked eps m len = Ok b /\
    (b = true <-> forall h, liveH m h -> ~ ext m h -> ~ ext m (tw h) -> marked (edge h) = false -> delaunayEdge m len eps h).
Proof.
  intros marked eps m len V TR G. destruct (isDelaunay_ok marked eps m len V TR) as (b & E & K). exists b. split; auto. rewrite K.
  assert (G' : GoodM DelaunayRules.TriGood m len) by (apply euclidean_good; auto). split.
  - intros Q h L X1 X2 M. destruct (interior_both m h V L X1 X2) as (L1 & X3).
    apply (either_side (delaunayEdge m len eps) m h (delaunayEdge_tw m len eps)); auto. apply delaunayEdge_weight; auto.
  - intros Q e L X M. apply delaunayEdge_weight; auto. apply Q; auto; [|rewrite edge_eHe; auto]. apply (cn_ebd _ (va_cn _ V)); auto. unfold eHe. lia.
Qed.
Print Assumptions C46_test.

(** flipToDelaunay never returns on a mesh with a boundary edge *)
Theorem C46_boundary_refuted : forall hyperbolic eps fuel m len, Valid m -> triangular m -> (exists h, liveH m h /\ ext m h) ->
  flipLoop (simplePolicy hyperbolic eps) fuel m len = Ok None \/ flipLoop (simplePolicy hyperbolic eps) fuel m len = Throw.
Proof. exact simple_boundary. Qed.
Print Assumptions C46_boundary_refuted.

(** the hypotheses are met by a tetrahedron, on which each policy makes one flip *)
Example C46_case : Valid tet /\ triangular tet /\ closed tet /\ euclidean tet len856 /\ positiveLens tet len856 /\
  (forall P, P = simplePolicy false 0 \/ P = integerPolicy (fun _ => false) 0 \/ P = signpostPolicy (fun _ => false) (1 / 100000) ->
    exists m' len', flipLoop P 10 tet len856 = Ok (Some (m', len', 1%Z)) /\ ve m' 0 = 2%Z /\ ve m' 1 = 3%Z /\ len' 0%Z = layoutLen 5 5 5 5 8) /\
  (exists m' len', flipLoop (simplePolicy true 0) 10 tet len856 = Ok (Some (m', len', 1%Z)) /\ ve m' 0 = 2%Z /\ ve m' 1 = 3%Z /\ len' 0%Z = (5 * 5 + 5 * 5) / 8).
Proof.
  split; [exact tet_valid|]. split; [exact tet_triangular|]. split; [exact tet_closed|]. split; [exact tet_euclidean|]. split; [exact tet_positive|].
  split; [exact tet_euclid_run|exact tet_hyper_run].
Qed.
(** a mesh with boundary on which the simple function raises its error *)
Example C46_boundary_case : Valid quad /\ (liveH quad 1 /\ ext quad 1) /\ flipLoop (simplePolicy false 0) 10 quad (fun _ => 1) = Throw.
Proof.
  split; [exact quad_valid|]. split; [conc|]. unfold flipLoop. change (liveEdges quad) with [0;1;2;3;4]%Z. reflexivity.
Qed.
