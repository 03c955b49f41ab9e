(** Building a manifold mesh from polygons.  Vocabulary in BuildSpec.v (arc, corner, uses, OrientedManifold) and MeshSpec.v
    (Valid, live elements).  [Throw] is a raised error, [UB] undefined behaviour. *)
From Verif Require Import Base MeshModel MeshSpec MeshBuildModel BuildSpec BuildLink MeshExamples.
Open Scope Z_scope.

Lemma indices_dec polys : forallb (forallb (fun v => 0 <=? v)) polys = true -> indices polys.
Proof.
  intros H v (p & Hp & Hv). rewrite forallb_forall in H. specialize (H p Hp). rewrite forallb_forall in H. specialize (H v Hv). lia.
Qed.

(** C22: an accepted list is what the mesh contains: same polygons in the same order from the same start, exactly its
    vertices, one halfedge pair per edge; the twin is on a boundary loop exactly where no polygon uses the edge the other way *)
Theorem C22_polygons_preserved : forall polys m, indices polys -> buildMesh polys = Ok m ->
  Valid m /\ getFaceVertexList m = Ok polys /\ nFaces m = Z.of_nat (length polys) /\ (forall v, liveV m v <-> uses polys v) /\
  (forall h, liveH m h -> ~ ext m h -> arc polys (ve m h) (ve m (tw h))) /\
  (forall a b, arc polys a b -> exists h, liveH m h /\ ~ ext m h /\ ve m h = a /\ ve m (tw h) = b /\ (ext m (tw h) <-> ~ arc polys b a)) /\
  (forall h h', liveH m h -> liveH m h' -> ve m h = ve m h' -> ve m (tw h) = ve m (tw h') -> h = h').
Proof. exact build_contents. Qed.
Print Assumptions C22_polygons_preserved.
(** two triangles and a square in a strip *)
Definition strip := [[0; 1; 2]; [2; 1; 3]; [3; 1; 4; 5]].
Example C22_nonvacuous : indices strip /\ exists m, buildMesh strip = Ok m /\ getFaceVertexList m = Ok strip /\ nFaces m = 3 /\ nVertices m = 6 /\ nLoops m = 1.
Proof. split; [apply indices_dec; reflexivity|]. eexists. split; [vm_compute; reflexivity|]. repeat split; vm_compute; reflexivity. Qed.

(** C23: none of these lists gets past the constructor *)
Theorem C23_bad_lists_rejected : forall polys, indices polys ->
  (exists p, In p polys /\ (length p < 3)%nat) \/
  (exists a, arc polys a a) \/
  (exists j i j' i' a b, arcAt polys j i a b /\ arcAt polys j' i' a b /\ (j, i) <> (j', i')) \/
  (exists v w, uses polys w /\ 0 <= v < w /\ ~ uses polys v) \/
  polys = [] ->
  buildMesh polys = Throw.
Proof. exact build_rejects. Qed.
Print Assumptions C23_bad_lists_rejected.
Example C23_nonvacuous_degree : indices [[0; 1; 2]; [1; 0]] /\ exists p, In p [[0; 1; 2]; [1; 0]] /\ (length p < 3)%nat.
Proof. split; [apply indices_dec; reflexivity|]. exists [1; 0]. split; [right; left; auto|cbn; auto]. Qed.
Example C23_nonvacuous_twice : indices [[0; 1; 2]; [0; 1; 3]] /\ arcAt [[0; 1; 2]; [0; 1; 3]] 0 0 0 1 /\ arcAt [[0; 1; 2]; [0; 1; 3]] 1 0 0 1.
Proof. split; [apply indices_dec; reflexivity|]. split; [exists [0; 1; 2]|exists [0; 1; 3]]; cbn; auto. Qed.

(** C71: accepted exactly when the polygons form an oriented manifold with boundary, and otherwise always a raised error *)
Theorem C71_accepts_exactly_manifolds : forall polys, indices polys ->
  ((exists m, buildMesh polys = Ok m) <-> OrientedManifold polys) /\ (~ OrientedManifold polys -> buildMesh polys = Throw).
Proof. exact build_accepts. Qed.
Print Assumptions C71_accepts_exactly_manifolds.
Definition tetPolys := [[0; 1; 2]; [0; 2; 3]; [0; 3; 1]; [1; 3; 2]].
Example C71_nonvacuous : indices tetPolys /\ OrientedManifold tetPolys.
Proof.
  assert (N : indices tetPolys) by (apply indices_dec; reflexivity). split; auto. apply (C71_accepts_exactly_manifolds _ N). eexists. vm_compute. reflexivity.
Qed.
(** two tetrahedra that share one vertex, an open hourglass, and two fans meeting at a point *)
Definition hourglass := tetPolys ++ [[0; 4; 5]; [0; 5; 6]; [0; 6; 4]; [4; 6; 5]].
Example C71_hourglass : indices hourglass /\ buildMesh hourglass = Throw /\ ~ OrientedManifold hourglass.
Proof.
  assert (N : indices hourglass) by (apply indices_dec; reflexivity). assert (E : buildMesh hourglass = Throw) by (vm_compute; reflexivity). split; auto. split; auto.
  intros O. apply (C71_accepts_exactly_manifolds _ N) in O as (m & C). rewrite E in C. discriminate.
Qed.
Example C71_bowtie : buildMesh [[0; 1; 2]; [0; 3; 4]] = Throw.
Proof. vm_compute. reflexivity. Qed.
