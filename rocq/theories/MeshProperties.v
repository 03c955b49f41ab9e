(** C09, C10, C11, C26, C27, C59: flips, vertex insertion on an edge, circulators, boundary tests. *)
From Verif Require Import Base MeshModel MeshSpec MeshOpSpec MeshBuildModel MeshThms MeshCheck MeshExamples.
Open Scope Z_scope.

(** C09. flip either refuses and changes nothing or rotates the edge inside the union of its two triangles; it succeeds
    exactly when the edge is flippable and, if asked to, when the opposite vertices are not already joined. The two
    sides must not be monogons (the triangle test nx (nx (nx h)) = h would accept them). *)
Theorem C09_flip m e p : Valid m -> liveH m (eHe e) -> nx m (eHe e) <> eHe e -> nx m (tw (eHe e)) <> tw (eHe e) ->
  let a := eHe e in let b := tw a in
  exists m' ok, flip m e p = Ok (m', ok) /\ Valid m' /\
    (ok = true <-> flippable m a /\ (p = true -> ~ joined m (ve m (nx m (nx m a))) (ve m (nx m (nx m b))))) /\
    (ok = false -> m' = m) /\
    (ok = true -> counts m' = counts m /\ same_elements m m' /\
      ve m' a = ve m (nx m (nx m a)) /\ ve m' b = ve m (nx m (nx m b)) /\
      (forall h, h <> a -> h <> b -> ve m' h = ve m h) /\
      (forall h, liveH m h -> fa m h <> fa m a -> fa m h <> fa m b -> nx m' h = nx m h /\ fa m' h = fa m h) /\
      nx m' a = nx m (nx m b) /\ nx m' (nx m' a) = nx m a /\ fa m' a = fa m a /\
      nx m' b = nx m (nx m a) /\ nx m' (nx m' b) = nx m b /\ fa m' b = fa m b /\ flippable m' a).
Proof. exact (flip_spec m e p). Qed.
Print Assumptions C09_flip.
Example C09_witness : Valid quad /\ liveH quad (eHe 2) /\ nx quad (eHe 2) <> eHe 2 /\ nx quad (tw (eHe 2)) <> tw (eHe 2) /\
  exists m', flip quad 2 true = Ok (m', true) /\ ve m' 4 = 1 /\ ve m' 5 = 3.
Proof. split; [exact quad_valid|]. split; [conc|]. split; [conc|]. split; [conc|]. eexists. split; [vm_compute; reflexivity|]. conc. Qed.

(** C10. Two flips exchange the two sides of the edge (and the names of its two faces); four flips are the identity. *)
Theorem C10_two_flips m e : Valid m -> flippable m (eHe e) ->
  let a := eHe e in let b := tw a in
  exists m1 m2, flip m e false = Ok (m1, true) /\ flip m1 e false = Ok (m2, true) /\ Valid m2 /\ counts m2 = counts m /\ same_elements m m2 /\
    (forall h, liveH m h -> nx m2 (exch a b h) = exch a b (nx m h)) /\
    (forall h, liveH m h -> ve m2 (exch a b h) = ve m h) /\
    (forall h, liveH m h -> fa m2 (exch a b h) = exch (fa m a) (fa m b) (fa m h)).
Proof. exact (flip_flip m e). Qed.
Print Assumptions C10_two_flips.
Theorem C10_four_flips m e : Valid m -> flippable m (eHe e) ->
  exists m1 m2 m3 m4, flip m e false = Ok (m1, true) /\ flip m1 e false = Ok (m2, true) /\
    flip m2 e false = Ok (m3, true) /\ flip m3 e false = Ok (m4, true) /\
    Valid m4 /\ counts m4 = counts m /\ same_elements m m4 /\
    (forall h, liveH m h -> nx m4 h = nx m h /\ ve m4 h = ve m h /\ fa m4 h = fa m h).
Proof. exact (flip_four m e). Qed.
Print Assumptions C10_four_flips.
Example C10_witness : Valid tet /\ flippable tet (eHe 2).
Proof. split; [exact tet_valid|]. unfold flippable, inTriangle. repeat split; conc. Qed.

(** C59. With preventSelfEdges the flipped edge never joins two vertices that an edge already joins ... *)
Theorem C59_no_duplicate_edge_partial m e m' : Valid m -> liveH m (eHe e) -> nx m (eHe e) <> eHe e -> nx m (tw (eHe e)) <> tw (eHe e) ->
  flip m e true = Ok (m', true) -> ~ joined m (ve m' (eHe e)) (ve m' (tw (eHe e))).
Proof.
  intros V L M1 M2 F. destruct (flip_spec m e true V L M1 M2) as (m1 & ok & F1 & _ & K & _ & E). rewrite F1 in F. injection F as -> ->.
  destruct (proj1 K eq_refl) as (_ & NJ). destruct (E eq_refl) as (_ & _ & -> & -> & _). apply NJ. reflexivity.
Qed.
Print Assumptions C59_no_duplicate_edge_partial.
(** ... but it does create self-edges, contrary to the documentation of flip *)
Theorem C59_no_self_edge_refuted : exists polys m e m',
  buildMesh polys = Ok m /\ Valid m /\ liveH m (eHe e) /\ flip m e true = Ok (m', true) /\ Valid m' /\
  ve m (eHe e) <> ve m (tw (eHe e)) /\ ve m' (eHe e) = ve m' (tw (eHe e)).
Proof.
  exists [[0;1;2];[0;2;1]], pillow, 0. eexists. split; [vm_compute; reflexivity|]. split; [exact pillow_valid|].
  split; [conc|]. split; [vm_compute; reflexivity|]. split; [apply validb_Valid; vm_compute; reflexivity|]. conc.
Qed.
Print Assumptions C59_no_self_edge_refuted.

(** C11. [v], [a'], [b'] are the new vertex and the two sides of the new edge. The tail of e.halfedge() must not be a
    vertex of degree one. *)
Theorem C11_insert_vertex_along_edge_partial m e : Valid m -> liveH m (eHe e) -> nx m (tw (eHe e)) <> eHe e ->
  let a := eHe e in let b := tw a in let v := vFill m in let a' := heFill m in let b' := heFill m + 1 in
  exists m', insertVertexAlongEdge m e = Ok (m', a) /\ Valid m' /\
    nVertices m' = nVertices m + 1 /\ nEdges m' = nEdges m + 1 /\ nHalfedges m' = nHalfedges m + 2 /\ nFaces m' = nFaces m /\ nLoops m' = nLoops m /\
    ~ liveV m v /\ ~ liveH m a' /\ ~ liveH m b' /\ tw a' = b' /\
    (forall h, liveH m' h <-> liveH m h \/ h = a' \/ h = b') /\ (forall w, liveV m' w <-> liveV m w \/ w = v) /\ (forall f, liveFL m' f <-> liveFL m f) /\
    ve m' a = v /\ ve m' a' = ve m a /\ ve m' b' = v /\ (forall h, liveH m h -> h <> a -> ve m' h = ve m h) /\
    nx m' a' = a /\ nx m' b = b' /\ nx m' b' = nx m b /\
    (forall h, liveH m h -> nx m h = a -> nx m' h = a') /\
    (forall h, liveH m h -> h <> b -> nx m h <> a -> nx m' h = nx m h) /\
    fa m' a' = fa m a /\ fa m' b' = fa m b /\ (forall h, liveH m h -> fa m' h = fa m h) /\
    (ext m b -> nInterior m' = nInterior m + 1) /\ (~ ext m b -> nInterior m' = nInterior m + 2) /\ (NoDeadLoops m -> NoDeadLoops m') /\
    heFill m' = heFill m + 2 /\ vFill m' = vFill m + 1 /\ fFill m' = fFill m /\ bFill m' = bFill m /\ fCap m' = fCap m /\
    vh m' v = a /\ (forall w, liveV m w -> vh m' w = if vh m w =? a then a' else vh m w).
Proof. exact (insert_spec m e). Qed.
Print Assumptions C11_insert_vertex_along_edge_partial.
Example C11_witness : Valid quad /\ liveH quad (eHe 0) /\ nx quad (tw (eHe 0)) <> eHe 0 /\ liveH quad (eHe 2) /\ nx quad (tw (eHe 2)) <> eHe 2.
Proof. split; [exact quad_valid|]. repeat split; conc. Qed.
(** with a tail of degree one the result is not a valid mesh: two halfedges get the same next() *)
Theorem C11_degree_one_refuted : exists polys m e m' h,
  buildMesh polys = Ok m /\ Valid m /\ liveH m (eHe e) /\ insertVertexAlongEdge m e = Ok (m', h) /\ ~ Valid m'.
Proof.
  exists [[0;1;2;1]], folded, 0. eexists. exists 0. split; [vm_compute; reflexivity|]. split; [exact folded_valid|]. split; [conc|].
  split; [vm_compute; reflexivity|]. intros V. assert (K : 4 = 5); [|discriminate].
  apply (cn_inj _ (va_cn _ V)); [conc|conc|vm_compute; reflexivity].
Qed.
Print Assumptions C11_degree_one_refuted.

(** C26. Circulators terminate and enumerate exactly the incident halfedges, once each, in the order of next() (faces and
    boundary loops) or of twin().next() (vertices), starting at the stored halfedge; prevOrbitFace and prevOrbitVertex
    both return the unique halfedge whose next is h. *)
Theorem C26_face_circulator m f : Valid m -> liveFL m f ->
  exists l, faceHalfedges m f = Ok l /\ NoDup l /\ (forall h, In h l <-> liveH m h /\ fa m h = f) /\ hd_error l = Some (fh m f) /\
    (forall i x y, nth_error l i = Some x -> nth_error l (S i) = Some y -> y = nx m x) /\ nx m (last l 0) = fh m f.
Proof. exact (face_circulator m f). Qed.
Print Assumptions C26_face_circulator.
Theorem C26_vertex_circulator m v : Valid m -> liveV m v ->
  exists l, vertHalfedges m v = Ok l /\ NoDup l /\ (forall h, In h l <-> liveH m h /\ ve m h = v) /\ hd_error l = Some (vh m v) /\
    (forall i x y, nth_error l i = Some x -> nth_error l (S i) = Some y -> y = nx m (tw x)) /\ nx m (tw (last l 0)) = vh m v.
Proof. exact (vertex_circulator m v). Qed.
Print Assumptions C26_vertex_circulator.
Theorem C26_prev m h : Valid m -> liveH m h ->
  exists p, prevOrbitFace m h = Ok p /\ prevOrbitVertex m h = Ok p /\ liveH m p /\ nx m p = h /\ fa m p = fa m h /\
    forall q, liveH m q -> nx m q = h -> q = p.
Proof. exact (prev_circulator m h). Qed.
Print Assumptions C26_prev.
Example C26_witness : Valid quad /\ liveFL quad 2 /\ liveV quad 0 /\ liveH quad 1 /\
  faceHalfedges quad 2 = Ok [1; 9; 7; 3] /\ vertHalfedges quad 0 = Ok [0; 9; 5] /\ prevOrbitFace quad 1 = Ok 3.
Proof. split; [exact quad_valid|]. split; [right; conc|]. repeat split; conc. Qed.

(** C27. The boundary tests, which look at one stored halfedge, are right. *)
Theorem C27_edge m e : Valid m -> liveH m (eHe e) ->
  exists b, eIsBoundary m e = Ok b /\ (b = true <-> ext m (eHe e) \/ ext m (tw (eHe e))).
Proof. exact (edge_boundary m e). Qed.
Print Assumptions C27_edge.
Theorem C27_vertex m v : Valid m -> liveV m v ->
  exists b, vIsBoundary m v = Ok b /\ (b = true <-> exists h, liveH m h /\ ve m h = v /\ ext m h) /\
    (b = true <-> exists h, liveH m h /\ ve m (tw h) = v /\ ext m h).
Proof. exact (vertex_boundary m v). Qed.
Print Assumptions C27_vertex.
Example C27_witness : Valid quad /\ eIsBoundary quad 0 = Ok true /\ eIsBoundary quad 2 = Ok false /\ vIsBoundary quad 1 = Ok true /\ vIsBoundary tet 1 = Ok false.
Proof. split; [exact quad_valid|]. repeat split; conc. Qed.
