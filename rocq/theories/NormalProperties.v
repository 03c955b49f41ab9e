(** C35-C38, C61: normal coordinates *)
From Verif Require Import Base MeshModel MeshSpec MeshCheck MeshBuildModel MeshExamples NormalModel NormalSpec NormalProofs NormalCheck NormalTrace NormalExamples.
Open Scope Z_scope.

(** C35. Two triangles ijk and ijl carrying arcs, with the same number of crossings on their common edge ij and [a] arcs
    following it. The flip rule returns the coordinate of the other diagonal, for whichever abs the call resolves to. *)
Theorem C35_flip absInt top bot a nij njk nki nil nlj : Planar top -> Planar bot -> xIJ top = xIJ bot -> edgeCoord nij (xIJ top) a ->
  (exists b, edgeCoord njk (xJK top) b) -> (exists b, edgeCoord nki (xKI top) b) -> (exists b, edgeCoord nil (xKI bot) b) -> (exists b, edgeCoord nlj (xJK bot) b) ->
  small nij -> small njk -> small nki -> small nil -> small nlj ->
  exists nkl, flipNormalCoordinates absInt nij njk nki nil nlj = Ok nkl /\ edgeCoord nkl (diagonalCrossings top bot a) (diagonalAlong top bot).
Proof.
  intros P Q E Ea (b1 & E1) (b2 & E2) (b3 & E3) (b4 & E4) S0 S1 S2 S3 S4. exists (diagonalValue top bot a). split.
  - exact (flip_value absInt top bot nij njk nki nil nlj a P Q E Ea (edgeCoord_pos _ _ _ E1) (edgeCoord_pos _ _ _ E2) (edgeCoord_pos _ _ _ E3) (edgeCoord_pos _ _ _ E4) S0 S1 S2 S3 S4).
  - exact (diagonalValue_coord top bot a nij P Q E Ea).
Qed.
Print Assumptions C35_flip.
(** 3 arcs cut off i above and 5 below, 2 end at k, ...: 4 arcs cross the other diagonal *)
Definition ex_top := mkArcs 3 4 0 0 0 2. Definition ex_bot := mkArcs 5 4 1 0 0 0.
Example C35_witness : Planar ex_top /\ Planar ex_bot /\ xIJ ex_top = xIJ ex_bot /\ edgeCoord 9 (xIJ ex_top) 0 /\
  flipNormalCoordinates false 9 4 3 6 5 = Ok 1 /\ diagonalCrossings ex_top ex_bot 0 = 1.
Proof. split; [split; cbn; lia|]. split; [split; cbn; lia|]. split; [reflexivity|]. split; [unfold edgeCoord, xIJ; cbn; lia|]. split; reflexivity. Qed.

(** C36. Flipping back (the diamond is now k l j i) gives the old coordinate back. *)
Theorem C36_back absInt top bot a nij njk nki nil nlj : Planar top -> Planar bot -> xIJ top = xIJ bot -> edgeCoord nij (xIJ top) a ->
  (exists b, edgeCoord njk (xJK top) b) -> (exists b, edgeCoord nki (xKI top) b) -> (exists b, edgeCoord nil (xKI bot) b) -> (exists b, edgeCoord nlj (xJK bot) b) ->
  tiny nij -> tiny njk -> tiny nki -> tiny nil -> tiny nlj ->
  exists nkl, flipNormalCoordinates absInt nij njk nki nil nlj = Ok nkl /\ flipNormalCoordinates absInt nkl nlj njk nki nil = Ok nij.
Proof. exact (flip_flip absInt top bot a nij njk nki nil nlj). Qed.
Print Assumptions C36_back.
Example C36_witness : flipNormalCoordinates true 9 4 3 6 5 = Ok 1 /\ flipNormalCoordinates true 1 5 4 3 6 = Ok 9 /\ tiny 9.
Proof. split; [reflexivity|]. split; [reflexivity|unfold tiny; lia]. Qed.

(** C37. In a triangle that carries arcs, with at most one arc following each edge, the functions count the arcs cutting
    off a corner and leaving it, and these account for the crossings on an edge. *)
Theorem C37_corners_partial t nij njk nki : Planar t -> coordOf nij (xIJ t) -> coordOf njk (xJK t) -> coordOf nki (xKI t) -> small nij -> small njk -> small nki ->
  exists ci cj ck ei ej ek,
    strictCornerCoord nij njk nki = Ok ck /\ strictCornerCoord njk nki nij = Ok ci /\ strictCornerCoord nki nij njk = Ok cj /\
    strictDegree nij njk nki = Ok ek /\ strictDegree njk nki nij = Ok ei /\ strictDegree nki nij njk = Ok ej /\
    t = mkArcs ci cj ck ei ej ek /\
    Z.max nij 0 = ci + cj + ek /\ Z.max njk 0 = cj + ck + ei /\ Z.max nki 0 = ck + ci + ej.
Proof.
  intros P A B D S1 S2 S3. destruct (corners t nij njk nki P A B D S1 S2 S3) as (X1 & X2 & X3 & X4 & X5 & X6).
  exists (cI t), (cJ t), (cK t), (eI t), (eJ t), (eK t). repeat (split; [assumption|]). split; [destruct t; reflexivity|].
  destruct A as (a & _ & A), B as (b & _ & B), D as (d & _ & D). split; [exact (edgeCoord_pos _ _ _ A)|]. split; [exact (edgeCoord_pos _ _ _ B)|exact (edgeCoord_pos _ _ _ D)].
Qed.
Print Assumptions C37_corners_partial.
(** the counts of crossings that come from arcs *)
Theorem C37_valid x y z : 0 <= x -> 0 <= y -> 0 <= z ->
  ((y + z < x \/ z + x < y \/ x + y < z \/ (x + y + z) mod 2 = 0) <-> exists t, Planar t /\ xIJ t = x /\ xJK t = y /\ xKI t = z).
Proof. exact (arcs_exist x y z). Qed.
Print Assumptions C37_valid.
(** the wrap-around in cornerCoord amounts to exact subtraction followed by a division rounding down *)
Theorem C37_wrap nij njk nki : small nij -> small njk -> small nki -> exists d1 d2, strictDegree njk nki nij = Ok d1 /\ strictDegree nki nij njk = Ok d2 /\
  cornerCoord nij njk nki = Ok ((njk + nki - nij - d1 - d2) / 2).
Proof. intros A B C. do 2 eexists. split; [exact (strictDegree_ok _ _ _ B C A)|]. split; [exact (strictDegree_ok _ _ _ C A B)|]. exact (cornerCoord_ok _ _ _ A B C). Qed.
Print Assumptions C37_wrap.
(** which is not what the division of ints gives: one arc from k to ij *)
Theorem C37_rounding_refuted : exists t nij njk nki d1 d2, Planar t /\ coordOf nij (xIJ t) /\ coordOf njk (xJK t) /\ coordOf nki (xKI t) /\
  strictDegree njk nki nij = Ok d1 /\ strictDegree nki nij njk = Ok d2 /\ cornerCoord nij njk nki = Ok (-1) /\ Z.quot (njk + nki - nij - d1 - d2) 2 = 0.
Proof.
  exists (mkArcs 0 0 0 0 0 1), 1, 0, 0, 0, 0. split; [split; cbn; lia|].
  split; [exists 0; unfold edgeCoord, xIJ; cbn; lia|]. split; [exists 0; unfold edgeCoord, xJK; cbn; lia|]. split; [exists 0; unfold edgeCoord, xKI; cbn; lia|].
  repeat (split; [reflexivity|]). reflexivity.
Qed.
Print Assumptions C37_rounding_refuted.
(** with two arcs following ij, an arc is reported to cut off k although no arc crosses the triangle *)
Theorem C37_parallel_refuted : exists t nij njk nki, carries t nij njk nki /\ cK t = 0 /\ strictCornerCoord nij njk nki = Ok 1.
Proof.
  exists (mkArcs 0 0 0 0 0 0), (-2), 0, 0. split; [|split; reflexivity]. split; [split; cbn; lia|].
  split; [exists 2; unfold edgeCoord, xIJ; cbn; lia|]. split; [exists 0; unfold edgeCoord, xJK; cbn; lia|]. exists 0; unfold edgeCoord, xKI; cbn; lia.
Qed.
Print Assumptions C37_parallel_refuted.
Example C37_witness : Planar ex_top /\ coordOf 9 (xIJ ex_top) /\ coordOf 4 (xJK ex_top) /\ coordOf 3 (xKI ex_top) /\ strictCornerCoord 4 3 9 = Ok 3.
Proof.
  split; [split; cbn; lia|]. split; [exists 0; unfold edgeCoord, xIJ; cbn; lia|]. split; [exists 0; unfold edgeCoord, xJK; cbn; lia|].
  split; [exists 0; unfold edgeCoord, xKI; cbn; lia|reflexivity].
Qed.

(** C38. One step of tracing from a crossing follows the arc of the triangle entered: it ends at the opposite vertex, or it
    leads to a crossing in range on another edge of that triangle; stepping from there in the other direction leads back. *)
Theorem C38_step m coords he index : Valid m -> Curves m coords -> crossing m coords (he, index) ->
  (ends m coords (he, index) /\ exists h i, stepTopologicalCurve m coords he index = Ok (h, i, true)) \/
  exists h i, continues m coords (he, index) (h, i) /\ stepTopologicalCurve m coords he index = Ok (h, i, false) /\
    liveH m h /\ fa m h = fa m (tw he) /\ 0 <= i < co coords h /\
    stepTopologicalCurve m coords (tw h) (co coords h - 1 - i) = Ok (tw he, co coords he - 1 - index, false).
Proof. exact (step_main m coords he index). Qed.
Print Assumptions C38_step.
Example C38_witness : Valid tet /\ Curves tet tet_coords /\ crossing tet tet_coords (0, 3) /\ stepTopologicalCurve tet tet_coords 0 3 = Ok (10, 0, false) /\ stepTopologicalCurve tet tet_coords 11 1 = Ok (1, 1, false).
Proof. split; [exact tet_valid|]. split; [exact tet_curves|]. split; [conc|]. split; vm_compute; reflexivity. Qed.

(** C61. Tracing ends. It passes through each crossing at most once, every crossing being followed by the one the curve
    continues with, and stops when the curve ends at a vertex, closes up, or reaches the boundary (the crossing it stops at
    is appended); [slip] is the exception: see C61_slip_refuted. *)
Theorem C61_trace_partial m coords he index : Valid m -> Curves m coords -> crossing m coords (he, index) -> ~ ext m he ->
  exists N l e tl, (forall fuel, (N <= fuel)%nat -> topologicalTrace fuel m coords he index = Ok ((he, index) :: l ++ tl)) /\
    chained m coords ((he, index) :: l) /\ NoDup ((he, index) :: l) /\ (forall c, In c ((he, index) :: l) -> crossing m coords c) /\ e = last l (he, index) /\
    (tracedEnd m coords (he, index) e tl \/ (ends m coords e /\ e = (tw he, index) /\ tl = [(he, index)])).
Proof. exact (trace_main m coords he index). Qed.
Print Assumptions C61_trace_partial.
(** a curve with 20 crossings that closes up; one that ends at a vertex *)
Example C61_witness : Valid tet /\ Curves tet tet_coords /\ crossing tet tet_coords (0, 3) /\ ~ ext tet 0 /\
  topologicalTrace 20 tet tet_coords 0 3 = Ok [(0,3);(10,0);(7,0);(8,0);(1,2);(2,2);(7,4);(5,1);(0,1);(9,1);(6,3);(11,0);(1,0);(2,0);(7,2);(8,2);(1,4);(4,1);(6,1);(3,1);(0,3)] /\
  Curves hook hook_coords /\ topologicalTrace 20 hook hook_coords 0 1 = Ok [(0,1);(8,0);(13,0);(7,0);(1,1);(4,0)].
Proof. split; [exact tet_valid|]. split; [exact tet_curves|]. split; [conc|]. split; [conc|]. split; [vm_compute; reflexivity|]. split; [exact hook_curves|vm_compute; reflexivity]. Qed.
(** A curve that ends at a vertex is reported as closed when its last crossing is on the edge it started on, at the index it
    started with but counted from the other end. Vertex 3 has faces 1,0,3 - 0,5,3 - 5,1,3 around it; the curve starts at
    edge 01, goes around vertex 3, crosses 01 again and ends at vertex 2. *)
Theorem C61_slip_refuted : exists m coords he index l e, Valid m /\ Curves m coords /\ crossing m coords (he, index) /\ ~ ext m he /\
  chained m coords ((he, index) :: l) /\ e = last l (he, index) /\ ends m coords e /\
  forall fuel, (10 <= fuel)%nat -> topologicalTrace fuel m coords he index = Ok ((he, index) :: l ++ [(he, index)]).
Proof. exact slip_example. Qed.
Print Assumptions C61_slip_refuted.
(** Starting at the exterior side of a boundary edge, with an arc that runs from it to the opposite vertex, the trace
    should be the one crossing; a second one, on the same edge and of no curve through that side, is appended. *)
Theorem C61_boundary_refuted : exists m coords he index d, Valid m /\ Curves m coords /\ crossing m coords (he, index) /\ ext m he /\ ends m coords (he, index) /\
  forall fuel, (1 <= fuel)%nat -> topologicalTrace fuel m coords he index = Ok [(he, index); d].
Proof. exact boundary_example. Qed.
Print Assumptions C61_boundary_refuted.
