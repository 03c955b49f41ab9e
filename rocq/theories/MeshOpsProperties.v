(** C12, C13, C14, C15, C16, C18, C51: connecting vertices of a face, inserting a vertex in a face, splitting an edge of a triangle mesh, removing an edge or a vertex,
    triangulating a face, exchanging the sides of an edge. *)
From Verif Require Import Base MeshModel MeshSpec MeshOpSpec MeshBuildModel MeshThms MeshSwitch MeshConnect MeshModel2 MeshRemoveEdge MeshRemoveVertex MeshOrbit MeshSplit MeshInsertVertex MeshCheck MeshExamples.
Open Scope Z_scope.

(** C12. [n], [t] are the two sides of the new edge, [f] the new face. The side n lies in the old face with the halfedges
    from b round to a; the side t lies in the new face with the halfedges from a round to b. The documentation demands
    the two tails to be distinct and not adjacent along the face; NoDeadLoops says no boundary loop was deleted since
    the last compress(). *)
Theorem C12_connect_vertices m a b : Valid m -> NoDeadLoops m -> liveH m a -> liveH m b -> fa m a = fa m b -> ~ ext m a -> a <> b -> nx m a <> b -> nx m b <> a ->
  let n := heFill m in let t := heFill m + 1 in let f := fFill m in
  exists m', connectVertices m a b = Ok (m', n) /\ Valid m' /\ NoDeadLoops m' /\
    nVertices m' = nVertices m /\ nEdges m' = nEdges m + 1 /\ nHalfedges m' = nHalfedges m + 2 /\ nInterior m' = nInterior m + 2 /\ nFaces m' = nFaces m + 1 /\ nLoops m' = nLoops m /\
    ~ liveH m n /\ ~ liveH m t /\ ~ liveF m f /\ tw n = t /\
    (forall h, liveH m' h <-> liveH m h \/ h = n \/ h = t) /\ (forall v, liveV m' v <-> liveV m v) /\ (forall g, liveF m' g <-> liveF m g \/ g = f) /\
    (forall i, liveBL m' i <-> liveBL m i) /\
    ve m' n = ve m a /\ ve m' t = ve m b /\ (forall h, liveH m h -> ve m' h = ve m h) /\
    nx m' n = b /\ nx m' t = a /\ (forall h, liveH m h -> nx m h = a -> nx m' h = n) /\ (forall h, liveH m h -> nx m h = b -> nx m' h = t) /\
    (forall h, liveH m h -> nx m h <> a -> nx m h <> b -> nx m' h = nx m h) /\
    side m' n = side m a /\ side m' t = FaceSide f /\
    (forall h, liveH m h -> before m a b h -> side m' h = FaceSide f) /\ (forall h, liveH m h -> ~ before m a b h -> side m' h = side m h) /\
    (forall v, liveV m v -> vh m' v = vh m v) /\
    heFill m' = heFill m + 2 /\ vFill m' = vFill m /\ fFill m' = fFill m + 1 /\ bFill m' = bFill m.
Proof. exact (connect_spec m a b). Qed.
Print Assumptions C12_connect_vertices.
Example C12_witness : Valid pent /\ NoDeadLoops pent /\ liveH pent 0 /\ liveH pent 4 /\ fa pent 0 = fa pent 4 /\ ~ ext pent 0 /\ nx pent 0 <> 4 /\ nx pent 4 <> 0 /\
  before pent 0 4 2 /\ ~ before pent 0 4 6 /\ exists m', connectVertices pent 0 4 = Ok (m', 10) /\ side m' 2 = FaceSide 1 /\ side m' 6 = FaceSide 0 /\ side m' 1 = LoopSide 0.
Proof.
  split; [exact pent_valid|]. split; [conc|]. split; [conc|]. split; [conc|]. split; [conc|]. split; [vm_compute; intros K; apply K; reflexivity|]. split; [conc|]. split; [conc|].
  split; [exists 1%nat; split; [reflexivity|]; intros [|[|j]] Hj; [conc|conc|lia]|].
  split; [intros ([|[|i]] & E & H); [vm_compute in E; discriminate|vm_compute in E; discriminate|apply (H 2%nat); [lia|vm_compute; reflexivity]]|].
  eexists. split; [vm_compute; reflexivity|]. conc.
Qed.

(** C51. Renaming: every next/vertex/face entry is the old one with the two halfedges of the edge exchanged. *)
Theorem C51_switch_partial m e : Valid m -> liveH m (eHe e) -> plainEdge m (eHe e) ->
  let a := eHe e in let b := tw a in let s := exch a b in
  exists m', switchHalfedgeSides m e = Ok m' /\ same_elements m m' /\ counts m' = counts m /\
    (forall h, liveH m h -> nx m' (s h) = s (nx m h) /\ ve m' (s h) = ve m h /\ fa m' (s h) = fa m h) /\
    (ve m a <> ve m b -> forall v, liveV m v -> vh m' v = s (vh m v)) /\
    (forall f, f <> fa m a -> f <> fa m b -> fh m' f = fh m f) /\
    (forall h, liveH m h -> (ext m' (s h) <-> ext m h)) /\ (~ ext m b -> Valid m').
Proof. exact (switch_spec m e). Qed.
Print Assumptions C51_switch_partial.
Theorem C51_switch_twice_partial m e : Valid m -> liveH m (eHe e) -> plainEdge m (eHe e) -> ~ ext m (tw (eHe e)) ->
  exists m1 m2, switchHalfedgeSides m e = Ok m1 /\ switchHalfedgeSides m1 e = Ok m2 /\ Valid m2 /\ same_elements m m2 /\ counts m2 = counts m /\
    (forall h, liveH m h -> nx m2 h = nx m h /\ ve m2 h = ve m h /\ fa m2 h = fa m h) /\
    (ve m (eHe e) <> ve m (tw (eHe e)) -> forall v, liveV m v -> vh m2 v = vh m v).
Proof. exact (switch_twice m e). Qed.
Print Assumptions C51_switch_twice_partial.
Example C51_witness : Valid quad /\ liveH quad (eHe 2) /\ plainEdge quad (eHe 2) /\ ~ ext quad (tw (eHe 2)) /\ ve quad (eHe 2) <> ve quad (tw (eHe 2)).
Proof. split; [exact quad_valid|]. split; [conc|]. split; [conc|]. split; [vm_compute; intros K; apply K; reflexivity|conc]. Qed.
(** at a vertex of degree one the result is not a mesh: two halfedges get the same next() *)
Theorem C51_degree_one_refuted : exists polys m e m', buildMesh polys = Ok m /\ Valid m /\ liveH m (eHe e) /\ switchHalfedgeSides m e = Ok m' /\
  exists x y, liveH m' x /\ liveH m' y /\ x <> y /\ nx m' x = nx m' y.
Proof.
  exists [[0;1;2;1]], folded, 0. eexists. split; [vm_compute; reflexivity|]. split; [exact folded_valid|]. split; [conc|].
  split; [vm_compute; reflexivity|]. exists 0, 3. conc.
Qed.
Print Assumptions C51_degree_one_refuted.
(** on a boundary edge the edge's own halfedge ends up on the boundary loop, which validateConnectivity() forbids *)
Theorem C51_boundary_refuted : exists polys m e m', buildMesh polys = Ok m /\ Valid m /\ liveH m (eHe e) /\ plainEdge m (eHe e) /\ switchHalfedgeSides m e = Ok m' /\
  ext m' (eHe e) /\ ~ Valid m'.
Proof.
  exists [[0;1;2];[0;2;3]], quad, 0. eexists. split; [vm_compute; reflexivity|]. split; [exact quad_valid|]. split; [conc|]. split; [conc|].
  split; [vm_compute; reflexivity|]. split; [conc|]. intros V. pose proof (cn_ebd _ (va_cn _ V) (eHe 0)) as K. apply K; [conc|conc|conc].
Qed.
Print Assumptions C51_boundary_refuted.

(** C15. [a], [b] are the two sides of the edge. A boundary edge raises an error; with the same face on both sides nothing
    changes; otherwise exactly the edge and the face beside [b] disappear, and the halfedges of both faces form the face
    that was beside [a]: whoever led into [a] now leads to what followed [b], and vice versa (if one side was a monogon,
    the other side closes up on itself). Excluded: both sides monogons, where the code indexes an empty vector. *)
Theorem C15_remove_edge m e : Valid m -> liveH m (eHe e) ->
  let a := eHe e in let b := tw a in ~ (nx m a = a /\ nx m b = b) ->
  (ext m b -> removeEdge m e = Throw) /\
  (~ ext m b -> fa m a = fa m b -> removeEdge m e = Ok (m, None)) /\
  (~ ext m b -> fa m a <> fa m b -> exists m', removeEdge m e = Ok (m', Some (fa m a)) /\ Valid m' /\
    nVertices m' = nVertices m /\ nEdges m' = nEdges m - 1 /\ nHalfedges m' = nHalfedges m - 2 /\ nInterior m' = nInterior m - 2 /\ nFaces m' = nFaces m - 1 /\ nLoops m' = nLoops m /\
    (NoDeadLoops m -> NoDeadLoops m') /\
    (forall h, liveH m' h <-> liveH m h /\ h <> a /\ h <> b) /\ (forall v, liveV m' v <-> liveV m v) /\ (forall f, liveFL m' f <-> liveFL m f /\ f <> fa m b) /\
    (forall h, liveH m' h -> ve m' h = ve m h) /\
    (forall h, liveH m' h -> fa m' h = fa m a <-> fa m h = fa m a \/ fa m h = fa m b) /\
    (forall h, liveH m' h -> fa m h <> fa m b -> fa m' h = fa m h) /\
    (forall h, liveH m' h -> nx m h <> a -> nx m h <> b -> nx m' h = nx m h) /\
    (forall h, liveH m' h -> nx m h = a -> nx m' h = if nx m b =? b then nx m a else nx m b) /\
    (forall h, liveH m' h -> nx m h = b -> nx m' h = if nx m a =? a then nx m b else nx m a)).
Proof. exact (remove_edge_spec m e). Qed.
Print Assumptions C15_remove_edge.
Example C15_witness : Valid quad /\ liveH quad (eHe 2) /\ ~ (nx quad (eHe 2) = eHe 2 /\ nx quad (tw (eHe 2)) = tw (eHe 2)) /\ ~ ext quad (tw (eHe 2)) /\
  fa quad (eHe 2) <> fa quad (tw (eHe 2)) /\ ext quad (tw (eHe 0)) /\
  Valid folded /\ liveH folded (eHe 0) /\ ~ ext folded (tw (eHe 0)) /\ fa folded (eHe 0) = fa folded (tw (eHe 0)) /\
  exists m', removeEdge quad 2 = Ok (m', Some 0) /\ faceHalfedges m' 0 = Ok [0; 2; 6; 8].
Proof.
  split; [exact quad_valid|]. split; [conc|]. split; [intros [K _]; vm_compute in K; discriminate|]. split; [vm_compute; intros K; apply K; reflexivity|]. split; [conc|]. split; [conc|].
  split; [exact folded_valid|]. split; [conc|]. split; [vm_compute; intros K; apply K; reflexivity|]. split; [conc|]. eexists. split; [vm_compute; reflexivity|]. conc.
Qed.

(** C16. [rim m v x]: x lies in a face at v but does not touch v. [simpleStar m v]: the faces around v are distinct, none is a
    monogon or bigon, no edge at v is a loop, and the rim meets no edge or vertex twice. A boundary vertex raises an error,
    any other vertex without a simple star is refused without change; with a simple star exactly v, its d edges and all its
    faces but one disappear. The remaining face consists of the rim: each rim halfedge leads to its old successor, or, where
    that successor ran into v, to what followed the opposite spoke. *)
Theorem C16_remove_vertex m v : Valid m -> liveV m v ->
  ((exists h, liveH m h /\ ve m h = v /\ ext m h) -> removeVertex m v = Throw) /\
  ((forall h, liveH m h -> ve m h = v -> ~ ext m h) -> ~ simpleStar m v -> removeVertex m v = Ok (m, None)) /\
  ((forall h, liveH m h -> ve m h = v -> ~ ext m h) -> simpleStar m v -> forall spokes, NoDup spokes -> (forall h, In h spokes <-> liveH m h /\ ve m h = v) ->
    let d := Z.of_nat (length spokes) in let f0 := fa m (vh m v) in
    exists m', removeVertex m v = Ok (m', Some f0) /\ Valid m' /\
    nVertices m' = nVertices m - 1 /\ nEdges m' = nEdges m - d /\ nHalfedges m' = nHalfedges m - 2 * d /\ nInterior m' = nInterior m - 2 * d /\ nFaces m' = nFaces m - (d - 1) /\ nLoops m' = nLoops m /\
    (NoDeadLoops m -> NoDeadLoops m') /\
    (forall h, liveH m' h <-> liveH m h /\ ve m h <> v /\ ve m (tw h) <> v) /\ (forall w, liveV m' w <-> liveV m w /\ w <> v) /\
    (forall f, liveFL m' f <-> liveFL m f /\ (f = f0 \/ forall h, liveH m h -> ve m h = v -> fa m h <> f)) /\
    (forall h, liveH m' h -> ve m' h = ve m h) /\
    (forall h, liveH m' h -> rim m v h -> fa m' h = f0) /\ (forall h, liveH m' h -> ~ rim m v h -> fa m' h = fa m h /\ fa m' h <> f0) /\
    (forall h, liveH m' h -> ve m (tw (nx m h)) <> v -> nx m' h = nx m h) /\ (forall h, liveH m' h -> ve m (tw (nx m h)) = v -> nx m' h = nx m (tw (nx m h)))).
Proof. exact (remove_vertex_spec m v). Qed.
Print Assumptions C16_remove_vertex.
Example C16_witness : Valid tet /\ liveV tet 0 /\ (forall h, liveH tet h -> ve tet h = 0 -> ~ ext tet h) /\ simpleStar tet 0 /\
  (forall h, In h [0; 5; 9] <-> liveH tet h /\ ve tet h = 0) /\ (exists m', removeVertex tet 0 = Ok (m', Some 2) /\ faceHalfedges m' 2 = Ok [10; 2; 6] /\ nFaces m' = 2) /\
  removeVertex folded 0 = Ok (folded, None) /\ removeVertex quad 0 = Throw.
Proof.
  assert (I : forall h, liveH tet h -> In h [0;1;2;3;4;5;6;7;8;9;10;11]) by (intros h [H _]; change (heFill tet) with 12 in H; cbn; lia).
  split; [exact tet_valid|]. split; [conc|]. split.
  { intros h H. apply I in H. cbn [In] in H. repeat destruct H as [<-|H]; try contradiction; vm_compute; intros K; try discriminate K; intros Q; apply Q; reflexivity. }
  split; [apply simpleStarb_ok; vm_compute; reflexivity|]. split.
  { intros h. split; [intros H; cbn [In] in H; repeat destruct H as [<-|H]; try contradiction; conc|]. intros [H E]. apply I in H. cbn [In] in H. revert E. repeat destruct H as [<-|H]; try contradiction; vm_compute; intros E; try discriminate E; tauto. }
  split; [eexists; split; [vm_compute; reflexivity|conc]|]. conc.
Qed.

(** C14. [v] is the new vertex; the edge e now leads from v to its old head, a'/b' is its other half; n1/t1 joins v to the corner
    opposite e on the first side, n2/t2 (for an interior edge) on the second. Every face is again a triangle; the four (two)
    triangles at v are listed by their next() cycles. Missing: an edge with an end of degree one (see the refutation below). *)
Theorem C14_split_edge_partial m e : Valid m -> NoDeadLoops m -> triangular m -> liveH m (eHe e) ->
  let a := eHe e in let b := tw a in nx m a <> b -> nx m b <> a ->
  let v := vFill m in let a' := heFill m in let b' := heFill m + 1 in
  let n1 := heFill m + 2 in let t1 := heFill m + 3 in let n2 := heFill m + 4 in let t2 := heFill m + 5 in
  let a1 := nx m a in let a2 := nx m a1 in let b1 := nx m b in let b2 := nx m b1 in
  exists m', splitEdgeTriangular m e = Ok (m', a) /\ Valid m' /\ NoDeadLoops m' /\ triangular m' /\
    nVertices m' = nVertices m + 1 /\ nLoops m' = nLoops m /\
    (forall w, liveV m' w <-> liveV m w \/ w = v) /\ ~ liveV m v /\
    (forall h, liveH m h -> h <> a -> ve m' h = ve m h) /\ ve m' a = v /\ ve m' a' = ve m a /\ ve m' b' = v /\ ve m' n1 = v /\ ve m' t1 = ve m a2 /\ tw a' = b' /\ tw n1 = t1 /\ tw n2 = t2 /\
    (forall h, liveH m h -> fa m h <> fa m a -> fa m h <> fa m b -> nx m' h = nx m h /\ side m' h = side m h) /\
    (nx m' a = a1 /\ nx m' a1 = t1 /\ nx m' t1 = a /\ nx m' n1 = a2 /\ nx m' a2 = a' /\ nx m' a' = n1) /\
    (ext m b -> nEdges m' = nEdges m + 2 /\ nHalfedges m' = nHalfedges m + 4 /\ nInterior m' = nInterior m + 3 /\ nFaces m' = nFaces m + 1 /\
      (forall h, liveH m' h <-> liveH m h \/ a' <= h <= t1) /\ (forall g, liveF m' g <-> liveF m g \/ g = fFill m) /\
      nx m' b = b' /\ nx m' b' = b1 /\ (forall h, liveH m h -> fa m h = fa m b -> h <> b -> nx m' h = nx m h) /\ (forall h, liveH m h -> fa m h = fa m b -> side m' h = side m h) /\ side m' b' = side m b) /\
    (~ ext m b -> nEdges m' = nEdges m + 3 /\ nHalfedges m' = nHalfedges m + 6 /\ nInterior m' = nInterior m + 6 /\ nFaces m' = nFaces m + 2 /\
      (forall h, liveH m' h <-> liveH m h \/ a' <= h <= t2) /\ (forall g, liveF m' g <-> liveF m g \/ g = fFill m \/ g = fFill m + 1) /\
      nx m' b = n2 /\ nx m' n2 = b2 /\ nx m' b2 = b /\ nx m' b' = b1 /\ nx m' b1 = t2 /\ nx m' t2 = b' /\ ve m' n2 = v /\ ve m' t2 = ve m b2) /\
    side m' n1 = side m a /\ side m' t1 = FaceSide (fFill m) /\ (~ ext m b -> side m' n2 = side m b /\ side m' t2 = FaceSide (fFill m + 1)).
Proof. exact (split_spec m e). Qed.
Print Assumptions C14_split_edge_partial.
Example C14_witness : Valid quad /\ NoDeadLoops quad /\ triangular quad /\ liveH quad (eHe 2) /\ nx quad (eHe 2) <> tw (eHe 2) /\ nx quad (tw (eHe 2)) <> eHe 2 /\ ~ ext quad (tw (eHe 2)) /\
  liveH quad (eHe 0) /\ nx quad (eHe 0) <> tw (eHe 0) /\ nx quad (tw (eHe 0)) <> eHe 0 /\ ext quad (tw (eHe 0)) /\
  exists m', splitEdgeTriangular quad 2 = Ok (m', eHe 2) /\ nFaces m' = 4.
Proof.
  split; [exact quad_valid|]. split; [conc|]. split; [apply triangularb_ok; vm_compute; reflexivity|]. do 3 (split; [conc|]). split; [vm_compute; intros K; apply K; reflexivity|]. do 4 (split; [conc|]).
  eexists. split; [vm_compute; reflexivity|]. conc.
Qed.
(** on a valid triangle mesh made by two flips from a tetrahedron, splitting the edge to a vertex of degree one raises an error *)
Theorem C14_degree_one_refuted : exists polys m0 m1 m2 e1 e2 e, buildMesh polys = Ok m0 /\ flip m0 e1 false = Ok (m1, true) /\ flip m1 e2 false = Ok (m2, true) /\
  Valid m2 /\ NoDeadLoops m2 /\ triangular m2 /\ liveH m2 (eHe e) /\ splitEdgeTriangular m2 e = Throw.
Proof.
  exists [[0;1;2];[0;2;3];[0;3;1];[1;3;2]]. do 3 eexists. exists 0, 2, 4. split; [vm_compute; reflexivity|]. split; [vm_compute; reflexivity|]. split; [vm_compute; reflexivity|].
  split; [apply validb_Valid; vm_compute; reflexivity|]. split; [conc|]. split; [apply triangularb_ok; vm_compute; reflexivity|]. split; conc.
Qed.
Print Assumptions C14_degree_one_refuted.

(** C18. [hs] lists the halfedges of the face in the order of next(), starting with f.halfedge(). The face becomes a fan of
    d-2 triangles around the tail of f.halfedge(): the i-th consists of that corner and the corners i+1, i+2 of the old face,
    the old halfedge number i+1 being its middle side. *)
Theorem C18_triangulate m f hs : Valid m -> NoDeadLoops m -> liveF m f -> chain (nx m) (fh m f) hs (fh m f) -> NoDup hs -> (3 <= length hs)%nat ->
  let d := Z.of_nat (length hs) in
  exists m', triangulate m f = Ok (m', f :: map (fun i => fFill m + Z.of_nat i) (seq 0 (length hs - 3))) /\ Valid m' /\ NoDeadLoops m' /\
    nVertices m' = nVertices m /\ nEdges m' = nEdges m + (d - 3) /\ nHalfedges m' = nHalfedges m + 2 * (d - 3) /\ nInterior m' = nInterior m + 2 * (d - 3) /\ nFaces m' = nFaces m + (d - 3) /\ nLoops m' = nLoops m /\
    (forall h, liveH m' h <-> liveH m h \/ heFill m <= h < heFill m + 2 * (d - 3)) /\ (forall v, liveV m' v <-> liveV m v) /\
    (forall g, liveF m' g <-> liveF m g \/ fFill m <= g < fFill m + (d - 3)) /\ (forall i, liveBL m' i <-> liveBL m i) /\
    (forall h, liveH m h -> ve m' h = ve m h) /\ (forall v, liveV m v -> vh m' v = vh m v) /\
    (forall h, liveH m h -> fa m h <> f -> nx m' h = nx m h /\ side m' h = side m h) /\
    (forall i, (i < length hs - 2)%nat -> exists h, liveH m' h /\ inTriangle m' h /\ ve m' h = ve m (nth 0 hs INVALID) /\ nx m' h = nth (i + 1) hs INVALID /\
       ve m' (nx m' (nx m' h)) = ve m (nth (i + 2) hs INVALID) /\ side m' h = FaceSide (if (i =? length hs - 3)%nat then f else fFill m + Z.of_nat i)).
Proof. exact (triangulate_spec m f hs). Qed.
Print Assumptions C18_triangulate.
(** every live face has such a list *)
Theorem C18_list_exists m f : Valid m -> liveF m f -> exists hs, hs <> [] /\ chain (nx m) (fh m f) hs (fh m f) /\ NoDup hs /\ (forall h, In h hs <-> liveH m h /\ fa m h = f).
Proof. intros V L. destruct (faceHalfedges_ok m V f (or_introl L)) as (l & _ & A & B & C & D). exists l. auto. Qed.
Print Assumptions C18_list_exists.
Example C18_witness : Valid pent /\ NoDeadLoops pent /\ liveF pent 0 /\ chain (nx pent) (fh pent 0) [0;2;4;6;8] (fh pent 0) /\ NoDup [0;2;4;6;8] /\ (3 <= length [0;2;4;6;8])%nat /\
  exists m', triangulate pent 0 = Ok (m', [0; 1; 2]).
Proof.
  split; [exact pent_valid|]. split; [conc|]. split; [conc|]. split; [vm_compute; auto 10|]. split; [repeat (apply NoDup_cons; [cbn; lia|]); constructor|]. split; [cbn; lia|].
  eexists. vm_compute. reflexivity.
Qed.

(** C13. [hs] lists the halfedges of the face in the order of next() (C18_list_exists: every face has such a list). *)
Theorem C13_insert_vertex m f hs : Valid m -> NoDeadLoops m -> liveF m f -> hs <> [] -> chain (nx m) (fh m f) hs (fh m f) -> NoDup hs ->
  let c := vFill m in let d := Z.of_nat (length hs) in
  exists m', insertVertex m f = Ok (m', c) /\ Valid m' /\ NoDeadLoops m' /\
    nVertices m' = nVertices m + 1 /\ nEdges m' = nEdges m + d /\ nHalfedges m' = nHalfedges m + 2 * d /\ nInterior m' = nInterior m + 2 * d /\
    nFaces m' = nFaces m + (d - 1) /\ nLoops m' = nLoops m /\
    ~ liveV m c /\ (forall v, liveV m' v <-> liveV m v \/ v = c) /\
    (forall h, liveH m' h <-> liveH m h \/ heFill m <= h < heFill m + 2 * d) /\
    (forall g, liveF m' g <-> liveF m g \/ fFill m <= g < fFill m + (d - 1)) /\ (forall i, liveBL m' i <-> liveBL m i) /\
    (forall h, liveH m h -> ve m' h = ve m h) /\
    (forall h, liveH m h -> ~ In h hs -> nx m' h = nx m h /\ side m' h = side m h) /\
    (* each old halfedge of the face bounds a triangle whose other two halfedges are new and meet at the new vertex; neighbouring triangles share a spoke *)
    (forall h, In h hs -> exists x y, nx m' h = x /\ nx m' x = y /\ nx m' y = h /\ ~ liveH m x /\ ~ liveH m y /\ x <> y /\
       ve m' x = ve m (tw h) /\ ve m' y = c /\ ~ ext m' h /\ nx m' (tw x) = nx m h) /\
    side m' (fh m f) = FaceSide f /\
    (* the halfedges leaving the new vertex: one per old halfedge *)
    (exists l, NoDup l /\ length l = length hs /\ (forall h, In h l <-> liveH m' h /\ ve m' h = c) /\ map (nx m') l = hs) /\
    (forall v, liveV m v -> vh m' v = vh m v) /\
    heFill m' = heFill m + 2 * d /\ vFill m' = vFill m + 1 /\ fFill m' = fFill m + (d - 1) /\ bFill m' = bFill m.
Proof. exact (insert_vertex_spec m f hs). Qed.
Print Assumptions C13_insert_vertex.
Example C13_witness : Valid pent /\ NoDeadLoops pent /\ liveF pent 0 /\ chain (nx pent) (fh pent 0) [0;2;4;6;8] (fh pent 0) /\ NoDup [0;2;4;6;8] /\
  exists m', insertVertex pent 0 = Ok (m', 5) /\ nFaces m' = 5 /\ nEdges m' = 10 /\ nx m' (nx m' (nx m' 4)) = 4.
Proof.
  split; [exact pent_valid|]. split; [conc|]. split; [conc|]. split; [vm_compute; auto 10|]. split; [repeat (apply NoDup_cons; [cbn; lia|]); constructor|].
  eexists. split; [vm_compute; reflexivity|]. conc.
Qed.
