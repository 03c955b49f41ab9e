(** C56, C57: removing a face along the boundary, cutting an edge. *)
From Verif Require Import Base MeshModel MeshSpec MeshOpSpec CountSpec MeshBuildModel MeshCheck MeshExamples MeshCutModel MeshCut1 MeshCut3.
Open Scope Z_scope.

(** three triangles around an interior vertex *)
Definition fan3 := built [[0;1;3];[1;2;3];[2;0;3]].
(** a quad and three triangles around two interior vertices *)
Definition quad4 := built [[1;2;4];[2;3;4];[2;0;3];[0;1;4;3]].
Definition quad4' := built [[0;1;4;3];[1;2;4];[2;3;4];[2;0;3]].
Lemma fan3_valid : Valid fan3. Proof. apply validb_Valid. vm_compute. reflexivity. Qed.
Lemma quad4_valid : Valid quad4. Proof. apply validb_Valid. vm_compute. reflexivity. Qed.
Lemma quad4'_valid : Valid quad4'. Proof. apply validb_Valid. vm_compute. reflexivity. Qed.
Definition cutFace (m : mesh) (f : Z) : mesh := match removeFaceAlongBoundary m f with Ok (x, true) => x | _ => emptyMesh end.
Definition cutEdge (m : mesh) (e : Z) : mesh := match separateEdge m e with Ok (x, _) => x | _ => emptyMesh end.
Ltac conc := vm_compute; repeat split; discriminate.

(** C56. A face is refused if it has no side on the boundary (an exception), if it has two or more, or if it has one and
    the corner before that side is on the boundary too (the call returns false). A refused mesh is the same mesh, field
    by field, and in no other case does the call return false. Missing: that the mesh is valid when the face is removed. *)
Theorem C56_refused_partial m f : Valid m -> liveF m f ->
  ((forall h, liveH m h -> fa m h = f -> ~ ext m (tw h)) -> removeFaceAlongBoundary m f = Throw) /\
  (forall h h', liveH m h -> fa m h = f -> ext m (tw h) -> liveH m h' -> fa m h' = f -> ext m (tw h') -> h <> h' -> removeFaceAlongBoundary m f = Ok (m, false)) /\
  (forall h g, liveH m h -> fa m h = f -> ext m (tw h) -> (forall k, liveH m k -> fa m k = f -> ext m (tw k) -> k = h) -> liveH m g -> nx m g = h ->
     (onBoundary m (ve m g) -> removeFaceAlongBoundary m f = Ok (m, false)) /\
     (~ onBoundary m (ve m g) -> forall m', removeFaceAlongBoundary m f <> Ok (m', false))) /\
  (forall m', removeFaceAlongBoundary m f = Ok (m', false) -> m' = m).
Proof. exact (fun V L => cut_refused m V f L). Qed.
Print Assumptions C56_refused_partial.
Example C56_refused_witness : Valid fan3 /\ liveF fan3 0 /\ Valid tet /\ liveF tet 0 /\ removeFaceAlongBoundary tet 0 = Throw /\
  Valid quad /\ liveF quad 0 /\ removeFaceAlongBoundary quad 0 = Ok (quad, false) /\ exists m', removeFaceAlongBoundary fan3 0 = Ok (m', true).
Proof.
  split; [exact fan3_valid|]. split; [conc|]. split; [exact tet_valid|]. split; [conc|]. split; [vm_compute; reflexivity|]. split; [exact quad_valid|]. split; [conc|].
  split; [vm_compute; reflexivity|]. eexists. vm_compute. reflexivity.
Qed.
(** When it does remove a triangle of a triangle mesh, nInteriorHalfedges() is wrong afterwards: two sides have moved to
    the boundary loop and one is deleted, but the count is not lowered. *)
Theorem C56_count_refuted : ~ (forall m f m', Valid m -> triangular m -> liveF m f -> removeFaceAlongBoundary m f = Ok (m', true) -> Counted m').
Proof.
  intros K. assert (T : triangular fan3).
  { intros h L X. destruct L as [L _]. change (0 <= h < 12) in L. 
    assert (D : h = 0 \/ h = 1 \/ h = 2 \/ h = 3 \/ h = 4 \/ h = 5 \/ h = 6 \/ h = 7 \/ h = 8 \/ h = 9 \/ h = 10 \/ h = 11) by lia.
    decompose [or] D; subst h; first [exfalso; apply X; vm_compute; discriminate | split; [exact X|split; [vm_compute; reflexivity|vm_compute; discriminate]]]. }
  specialize (K fan3 0 (cutFace fan3 0) fan3_valid T ltac:(conc) ltac:(vm_compute; reflexivity)). destruct K as [_ K _ _ _ _]. vm_compute in K. discriminate K.
Qed.
Print Assumptions C56_count_refuted.
(** When it removes a polygon, only one of the vertices that come to the boundary is told: isBoundary() is false for
    vertex 4, although it lies on the boundary loop. *)
Theorem C56_polygon_refuted : ~ (forall m f m' v, Valid m -> liveF m f -> removeFaceAlongBoundary m f = Ok (m', true) -> liveV m' v -> onBoundary m' v -> vIsBoundary m' v = Ok true).
Proof.
  intros K. specialize (K quad4 3 (cutFace quad4 3) 4 quad4_valid ltac:(conc) ltac:(vm_compute; reflexivity) ltac:(conc)).
  assert (O : onBoundary (cutFace quad4 3) 4) by (exists 9; conc). specialize (K O). vm_compute in K. discriminate K.
Qed.
Print Assumptions C56_polygon_refuted.
Example C56_refuted_witness : removeFaceAlongBoundary fan3 0 = Ok (cutFace fan3 0, true) /\ nInterior (cutFace fan3 0) = 9 /\ countb (intHb (cutFace fan3 0)) (heFill (cutFace fan3 0)) = 6 /\
  Valid (setInterior (cutFace fan3 0) 6) /\ removeFaceAlongBoundary quad4 3 = Ok (cutFace quad4 3, true).
Proof. split; [vm_compute; reflexivity|]. split; [vm_compute; reflexivity|]. split; [vm_compute; reflexivity|]. split; [apply validb_Valid; vm_compute; reflexivity|]. vm_compute; reflexivity. Qed.

(** C57. An edge on the boundary, or with both ends on the boundary, is rejected by an exception. *)
Theorem C57_rejected m e : Valid m -> liveH m (eHe e) ->
  (ext m (tw (eHe e)) -> separateEdge m e = Throw) /\ (onBoundary m (ve m (eHe e)) -> onBoundary m (ve m (tw (eHe e))) -> separateEdge m e = Throw).
Proof. exact (fun V L => conj (sep_boundary m V e L) (sep_both m V e L)). Qed.
Print Assumptions C57_rejected.
Example C57_rejected_witness : Valid quad /\ liveH quad (eHe 0) /\ exists e, liveH quad (eHe e) /\ ~ ext quad (tw (eHe e)) /\ separateEdge quad e = Throw.
Proof. split; [exact quad_valid|]. split; [conc|]. exists 2. split; [conc|]. split; [vm_compute; intros K; apply K; reflexivity|]. vm_compute. reflexivity. Qed.

(** An edge between two distinct vertices off the boundary. [he] and [t] are its halfedges, [n] and [u] the new ones. The
    face of t keeps its other sides and gets n in the place of t; t and u are the two sides of a new boundary loop; nothing
    else changes. The result is valid except that nInteriorHalfedges() is one too large ([setInterior] corrects it).
    Missing: an edge with one end on the boundary. *)
Theorem C57_interior_partial m e : Valid m -> NoDeadLoops m ->
  let he := eHe e in let t := tw he in let n := heFill m in let u := heFill m + 1 in
  liveH m he -> ~ onBoundary m (ve m he) -> ~ onBoundary m (ve m t) -> ve m he <> ve m t ->
  exists m', separateEdge m e = Ok (m', (he, n)) /\ Valid (setInterior m' (nInterior m)) /\ nInterior m' = nInterior m + 1 /\
    nVertices m' = nVertices m /\ nEdges m' = nEdges m + 1 /\ nHalfedges m' = nHalfedges m + 2 /\ nFaces m' = nFaces m /\ nLoops m' = nLoops m + 1 /\
    ~ liveH m n /\ ~ liveH m u /\ tw n = u /\ (forall h, liveH m' h <-> liveH m h \/ h = n \/ h = u) /\
    ve m' n = ve m t /\ ve m' u = ve m he /\ (forall h, liveH m h -> ve m' h = ve m h) /\
    side m' n = side m t /\ side m' t = LoopSide (bFill m) /\ side m' u = LoopSide (bFill m) /\ (forall h, liveH m h -> h <> t -> side m' h = side m h) /\
    nx m' n = nx m t /\ nx m' t = u /\ nx m' u = t /\ (forall h, liveH m h -> nx m h = t -> nx m' h = n) /\ (forall h, liveH m h -> h <> t -> nx m h <> t -> nx m' h = nx m h).
Proof. exact (fun V N => sep_spec m V N e). Qed.
Print Assumptions C57_interior_partial.
Example C57_interior_witness : Valid tet /\ NoDeadLoops tet /\ liveH tet (eHe 0) /\ ~ onBoundary tet (ve tet (eHe 0)) /\ ~ onBoundary tet (ve tet (tw (eHe 0))) /\ ve tet (eHe 0) <> ve tet (tw (eHe 0)).
Proof.
  split; [exact tet_valid|]. split; [conc|]. split; [conc|].
  assert (C : forall v, ~ onBoundary tet v).
  { intros v (h & L & _ & X). destruct L as [L _]. change (0 <= h < 12) in L. assert (D : h = 0 \/ h = 1 \/ h = 2 \/ h = 3 \/ h = 4 \/ h = 5 \/ h = 6 \/ h = 7 \/ h = 8 \/ h = 9 \/ h = 10 \/ h = 11) by lia.
    decompose [or] D; subst h; vm_compute in X; apply X; reflexivity. }
  split; [apply C|]. split; [apply C|]. conc.
Qed.
(** The count of interior halfedges is wrong after every cut, already on the tetrahedron. *)
Theorem C57_count_refuted : ~ (forall m e m' r, Valid m -> NoDeadLoops m -> triangular m -> liveH m (eHe e) -> separateEdge m e = Ok (m', r) -> Counted m').
Proof.
  intros K. assert (T : triangular tet).
  { intros h L X. destruct L as [L _]. change (0 <= h < 12) in L. 
    assert (D : h = 0 \/ h = 1 \/ h = 2 \/ h = 3 \/ h = 4 \/ h = 5 \/ h = 6 \/ h = 7 \/ h = 8 \/ h = 9 \/ h = 10 \/ h = 11) by lia.
    decompose [or] D; subst h; (split; [exact X|split; [vm_compute; reflexivity|vm_compute; discriminate]]). }
  specialize (K tet 0 (cutEdge tet 0) (0, 12) tet_valid ltac:(conc) T ltac:(conc) ltac:(vm_compute; reflexivity)). destruct K as [_ K _ _ _ _]. vm_compute in K. discriminate K.
Qed.
Print Assumptions C57_count_refuted.
(** With one end on the boundary, the loop over the fan takes every face for a triangle: next to a quad, sides of faces no
    longer meet tip to tail. *)
Theorem C57_polygon_refuted : ~ (forall m e m' r, Valid m -> NoDeadLoops m -> liveH m (eHe e) -> separateEdge m e = Ok (m', r) -> forall h, liveH m' h -> ve m' (nx m' h) = ve m' (tw h)).
Proof.
  intros K. specialize (K quad4' 1 (cutEdge quad4' 1)). destruct (separateEdge quad4' 1) as [[x r]| |] eqn:E; [|vm_compute in E; discriminate|vm_compute in E; discriminate].
  specialize (K r quad4'_valid ltac:(conc) ltac:(conc)). assert (Q : cutEdge quad4' 1 = x) by (unfold cutEdge; rewrite E; reflexivity). rewrite Q in K. specialize (K eq_refl). rewrite <- Q in K.
  specialize (K 1 ltac:(conc)). vm_compute in K. discriminate K.
Qed.
Print Assumptions C57_polygon_refuted.
Example C57_refuted_witness : nInterior (cutEdge tet 0) = 13 /\ countb (intHb (cutEdge tet 0)) (heFill (cutEdge tet 0)) = 12 /\ Valid (setInterior (cutEdge fan3 1) (nInterior (cutEdge fan3 1) - 1)) /\ nLoops (cutEdge fan3 1) = 1.
Proof. split; [vm_compute; reflexivity|]. split; [vm_compute; reflexivity|]. split; [apply validb_Valid; vm_compute; reflexivity|]. vm_compute; reflexivity. Qed.
