(** C17: edge collapse on triangle meshes. The vocabulary is in CollapseSpec: [Collapsed m m' a], what merging the ends of an edge
    means; [linkBad], [boundaryTriangle], the configurations refused; [target], which halfedge is collapsed. *)
From Verif Require Import Base MeshModel MeshModel2 MeshSpec MeshBase MeshOpSpec MeshThms MeshCheck MeshExamples CollapseModel CollapseSpec CollapseTop CollapseKeep.
Open Scope Z_scope.

(** Every call on a valid triangle mesh without edges from a vertex to itself:
    - nothing outside the arrays is touched and every loop ends ([UB] does not occur);
    - the null vertex means that nothing changed, and that the edge is a chord between two boundary vertices, or that a vertex
      other than the tips of its triangles is joined to both ends, or that the boundary loop along it is a triangle;
    - a vertex means that none of this holds, that the ends of the edge of [a] were merged into it, exactly the triangles at the
      edge and one of the two edges each leaves behind being removed, and that the result is a valid triangle mesh, without
      double edges if there were none;
    - the exception is thrown only at an interior vertex of two edges.
    Missing: meshes with an edge from a vertex to itself, for which the result need not be valid ([C17_self_edges_refuted]). *)
Theorem C17_outcome_partial : forall m e, Valid m -> triangular m -> noSelfEdges m -> liveH m (eHe e) ->
  match collapseEdgeTriangular m e with
  | Ok (m', None) => m' = m /\
      ((~ ext m (tw (eHe e)) /\ onBoundary m (ve m (eHe e)) /\ onBoundary m (ve m (tw (eHe e)))) \/
       exists a, target m e a /\ (linkBad m a \/ boundaryTriangle m a))
  | Ok (m', Some v) => exists a, target m e a /\ v = ve m (tw a) /\ ~ linkBad m a /\ ~ boundaryTriangle m a /\
      Valid m' /\ Collapsed m m' a /\ triangular m' /\ (simple m -> simple m')
  | Throw => exists a, target m e a /\ ~ ext m (tw a) /\ thin m a
  | UB => False
  end.
Proof. exact collapse_final. Qed.
Print Assumptions C17_outcome_partial.
(** an octahedron: the collapse goes through. One with a hole: a boundary edge and a chord *)
Definition octahedron := built [[0;2;4];[2;1;4];[1;3;4];[3;0;4];[2;0;5];[1;2;5];[3;1;5];[0;3;5]].
Definition strip := built [[0;1;2];[1;3;2];[2;3;4];[3;5;4]].
Definition noSelfEdgesb m := allb (fun h => negb (inH m h) || negb (ve m h =? ve m (tw h))) (heFill m).
Lemma noSelfEdgesb_ok m : noSelfEdgesb m = true -> noSelfEdges m.
Proof. unfold noSelfEdgesb. rewrite allb_ok. intros H h L E. specialize (H h (proj1 L)). rewrite (proj2 (inH_live m h) L), E, Z.eqb_refl in H. discriminate. Qed.
Definition simpleb m := noSelfEdgesb m && allb (fun h => allb (fun k => negb (inH m h && inH m k && (ve m h =? ve m k) && (ve m (tw h) =? ve m (tw k))) || (h =? k)) (heFill m)) (heFill m).
Lemma simpleb_ok m : simpleb m = true -> simple m.
Proof.
  unfold simpleb. intros H. apply andb_prop in H as [H1 H2]. split; [apply noSelfEdgesb_ok; auto|]. intros h k Lh Lk E F. rewrite allb_ok in H2. specialize (H2 h (proj1 Lh)). rewrite allb_ok in H2. specialize (H2 k (proj1 Lk)).
  rewrite (proj2 (inH_live m h) Lh), (proj2 (inH_live m k) Lk), E, F, !Z.eqb_refl in H2. apply Z.eqb_eq. exact H2.
Qed.
Example C17_outcome_case : Valid octahedron /\ triangular octahedron /\ simple octahedron /\ liveH octahedron (eHe 1) /\
  match collapseEdgeTriangular octahedron 1 with Ok (m', Some v) => v = ve octahedron (tw (eHe 1)) /\ nVertices m' = 5 /\ nEdges m' = 9 /\ nFaces m' = 6 | _ => False end.
Proof. split; [apply validb_Valid; vm_compute; reflexivity|]. split; [apply triangularb_ok; vm_compute; reflexivity|]. split; [apply simpleb_ok; vm_compute; reflexivity|]. split; [conc|]. vm_compute. auto. Qed.
Example C17_boundary_case : Valid strip /\ triangular strip /\ simple strip /\
  match collapseEdgeTriangular strip 0 with Ok (m', Some v) => nVertices m' = 5 /\ nEdges m' = 7 /\ nFaces m' = 3 /\ nLoops m' = 1 | _ => False end /\
  match collapseEdgeTriangular strip 1 with Ok (m', None) => m' = strip | _ => False end.
Proof. split; [apply validb_Valid; vm_compute; reflexivity|]. split; [apply triangularb_ok; vm_compute; reflexivity|]. split; [apply simpleb_ok; vm_compute; reflexivity|]. split; vm_compute; auto. Qed.

(** The edge collapsed is the one given, unless it is an edge of an ear, a triangle with two sides on the boundary, at its tip. *)
Theorem C17_edge : forall m e m' v, Valid m -> triangular m -> noSelfEdges m -> liveH m (eHe e) ->
  ~ (ext m (tw (eHe e)) /\ thin m (eHe e)) -> collapseEdgeTriangular m e = Ok (m', Some v) ->
  exists a, edge a = e /\ v = ve m (tw a) /\ ~ liveV m' (ve m a) /\ liveV m' v /\ Collapsed m m' a /\ Valid m'.
Proof.
  intros m e m' v V TR NS Le N R. pose proof (collapse_final m e V TR NS Le) as K. rewrite R in K. destruct K as (a & TG & -> & _ & _ & V' & C & _).
  exists a. split; [apply (target_edge m); auto|]. split; auto. pose proof (co_v _ _ _ C) as CV. split; [rewrite CV; tauto|]. split; auto.
  assert (La : liveH m a). { pose proof (va_cn _ V) as CN. destruct TG as [[_ [[_ ->]|[_ ->]]]|[(_ & _ & ->)|(_ & _ & ->)]]; auto; repeat apply CN; auto. }
  apply CV. split; [apply V; apply V; auto|]. intros E. apply (NS a La). auto.
Qed.
Print Assumptions C17_edge.
Example C17_edge_case : ~ (ext octahedron (tw (eHe 1)) /\ thin octahedron (eHe 1)).
Proof. intros [K _]. vm_compute in K. congruence. Qed.

(** Refuted: the vertices of the given edge need not be the ones merged. In an ear, the other edge at its tip is collapsed:
    here the edge 0-1 of the triangle 0,1,2, glued to 0,2,3 along 0-2, is kept, with both its ends. *)
Definition ear := built [[1;0;2];[0;3;2]].
Theorem C17_merges_refuted : exists m e m' v, Valid m /\ triangular m /\ simple m /\ liveH m (eHe e) /\ collapseEdgeTriangular m e = Ok (m', Some v) /\
  nVertices m' = nVertices m - 1 /\ liveH m' (eHe e) /\ liveV m' (ve m (eHe e)) /\ liveV m' (ve m (tw (eHe e))) /\ ve m (eHe e) <> ve m (tw (eHe e)).
Proof.
  destruct (collapseEdgeTriangular ear 0) as [[m' [v|]]| |] eqn:E; try (vm_compute in E; discriminate).
  exists ear, 0, m', v. split; [apply validb_Valid; vm_compute; reflexivity|]. split; [apply triangularb_ok; vm_compute; reflexivity|].
  split; [apply simpleb_ok; vm_compute; reflexivity|]. split; [conc|]. split; [exact E|]. vm_compute in E. injection E as <- <-. split; [vm_compute; reflexivity|].
  split; [conc|]. split; [conc|]. split; [conc|]. vm_compute. discriminate.
Qed.
Print Assumptions C17_merges_refuted.

(** Refuted: a vertex of degree two makes the call throw: two triangles glued along all their sides. *)
Theorem C17_returns_refuted : exists m e, Valid m /\ triangular m /\ simple m /\ liveH m (eHe e) /\ collapseEdgeTriangular m e = Throw.
Proof. exists pillow, 0. split; [exact pillow_valid|]. split; [apply triangularb_ok; vm_compute; reflexivity|]. split; [apply simpleb_ok; vm_compute; reflexivity|]. split; [conc|vm_compute; reflexivity]. Qed.
Print Assumptions C17_returns_refuted.

(** Refuted: with edges from a vertex to itself, which two flips of a tetrahedron produce, the result may be corrupt: a vertex is
    returned, and the next halfedge of a live halfedge is a deleted one. *)
Theorem C17_self_edges_refuted : exists m1 m2 m3 v h, flip tet 0 false = Ok (m1, true) /\ flip m1 1 false = Ok (m2, true) /\ Valid m2 /\ triangular m2 /\
  liveH m2 (eHe 5) /\ collapseEdgeTriangular m2 5 = Ok (m3, Some v) /\ liveH m3 h /\ ~ liveH m3 (nx m3 h) /\ ~ Valid m3.
Proof.
  destruct (flip tet 0 false) as [[m1 b1]| |] eqn:E1; try (vm_compute in E1; discriminate). assert (B1 : b1 = true) by (vm_compute in E1; congruence). subst b1.
  destruct (flip m1 1 false) as [[m2 b2]| |] eqn:E2; try (vm_compute in E1; injection E1 as <-; vm_compute in E2; discriminate).
  assert (B2 : b2 = true) by (vm_compute in E1; injection E1 as <-; vm_compute in E2; congruence). subst b2.
  destruct (collapseEdgeTriangular m2 5) as [[m3 [v|]]| |] eqn:E3; try (vm_compute in E1; injection E1 as <-; vm_compute in E2; injection E2 as <-; vm_compute in E3; discriminate).
  vm_compute in E1; injection E1 as <-. vm_compute in E2; injection E2 as <-. vm_compute in E3. injection E3 as <- <-.
  eexists. eexists. eexists. eexists. exists 0. split; [reflexivity|]. split; [vm_compute; reflexivity|]. split; [apply validb_Valid; vm_compute; reflexivity|]. split; [apply triangularb_ok; vm_compute; reflexivity|].
  split; [conc|]. split; [vm_compute; reflexivity|]. split; [conc|].
  match goal with |- ~ liveH ?x ?y /\ _ => assert (N : ~ liveH x y) by (intros [_ K]; vm_compute in K; congruence) end. split; [exact N|]. intros VV. apply N. apply (va_cn _ VV). conc.
Qed.
Print Assumptions C17_self_edges_refuted.

(** Any number of collapses, whatever is passed and whatever is refused: a valid simple triangle mesh stays one, with the Euler
    characteristic it had. *)
Inductive collapses : mesh -> mesh -> Prop :=
| cs_refl m : collapses m m
| cs_step m e m1 r m2 : liveH m (eHe e) -> collapseEdgeTriangular m e = Ok (m1, r) -> collapses m1 m2 -> collapses m m2.
Theorem C17_collapses : forall m m', collapses m m' -> Valid m -> triangular m -> simple m ->
  Valid m' /\ triangular m' /\ simple m' /\ euler m' = euler m /\ nLoops m' = nLoops m /\ (forall h, liveH m' h -> liveH m h) /\ (forall v, liveV m' v -> liveV m v).
Proof.
  induction 1 as [m|m e m1 r m2 Le R _ IH]; intros V TR SI; [auto 8|].
  pose proof (collapse_final m e V TR (proj1 SI) Le) as K. rewrite R in K. destruct r as [v|].
  - destruct K as (a & TG & E & _ & _ & V1 & C & T1 & S1). destruct (IH V1 T1 (S1 SI)) as (P1 & P2 & P3 & P4 & P5 & P6 & P7). do 3 (split; [solve [auto]|]).
    pose proof (co_counts _ _ _ C) as Q. cbv zeta in Q. split; [rewrite P4; unfold euler; destruct (fFill m <=? fa m (tw a)); clear -Q; lia|]. split; [destruct Q as (_ & _ & _ & Q); congruence|].
    split; [intros h H; apply P6 in H; apply (co_h _ _ _ C) in H; tauto|]. intros w H. apply P7 in H. apply (co_v _ _ _ C) in H. tauto.
  - destruct K as [-> _]. apply IH; auto.
Qed.
Print Assumptions C17_collapses.
Example C17_collapses_case : match collapseEdgeTriangular octahedron 1 with Ok (m1, Some _) => match collapseEdgeTriangular m1 2 with Ok (m2, Some _) => collapses octahedron m2 /\ nVertices m2 = 4 /\ nFaces m2 = 4 /\ nEdges m2 = 6 | _ => False end | _ => False end.
Proof.
  destruct (collapseEdgeTriangular octahedron 1) as [[m1 [v|]]| |] eqn:E1; try (vm_compute in E1; discriminate).
  destruct (collapseEdgeTriangular m1 2) as [[m2 [w|]]| |] eqn:E2; try (vm_compute in E1; injection E1 as <- <-; vm_compute in E2; discriminate).
  split; [|vm_compute in E1; injection E1 as <- <-; vm_compute in E2; injection E2 as <- <-; vm_compute; auto].
  eapply cs_step; [|exact E1|]; [conc|]. eapply cs_step; [|exact E2|apply cs_refl]. vm_compute in E1; injection E1 as <- <-. conc.
Qed.
