(** What collapsing an edge of a triangle mesh is. *)
From Verif Require Import Base MeshModel MeshSpec MeshOpSpec.
Open Scope Z_scope.

(** no edge joins a vertex to itself *)
Definition noSelfEdges (m : mesh) : Prop := forall h, liveH m h -> ve m h <> ve m (tw h).
(** ... and no two edges join the same vertices *)
Definition simple (m : mesh) : Prop :=
  noSelfEdges m /\ forall h k, liveH m h -> liveH m k -> ve m h = ve m k -> ve m (tw h) = ve m (tw k) -> h = k.

(** the collapse of the edge of [a], a halfedge of a triangle: the vertex [a] leaves is merged into the one it points to.
    In the triangle on the left of [a], and in the one on the right unless the right side is the boundary, the other two
    edges become one, and the triangle disappears. *)
Definition gone (m : mesh) (a h : Z) : Prop :=
  edge h = edge a \/ edge h = edge (nx m (nx m a)) \/ (~ ext m (tw a) /\ edge h = edge (nx m (tw a))).
(** the halfedge that takes the place of [h] in a face that survives *)
Definition moved (m : mesh) (a h : Z) : Z :=
  if h =? tw (nx m (nx m a)) then nx m a
  else if fFill m <=? fa m (tw a) then h
  else if h =? tw (nx m (tw a)) then nx m (nx m (tw a)) else h.
Record Collapsed (m m' : mesh) (a : Z) : Prop := {
  co_h : forall h, liveH m' h <-> liveH m h /\ ~ gone m a h;
  co_v : forall v, liveV m' v <-> liveV m v /\ v <> ve m a;
  co_f : forall f, liveF m' f <-> liveF m f /\ f <> fa m a /\ f <> fa m (tw a);
  co_l : forall f, liveL m' f <-> liveL m f;
  co_ve : forall h, liveH m' h -> ve m' h = if ve m h =? ve m a then ve m (tw a) else ve m h;
  (* every other face, and every boundary loop, keeps its sides in their order, but for the collapsed edge itself *)
  co_side : forall h, liveH m h -> fa m h <> fa m a -> (fa m h = fa m (tw a) -> ext m (tw a)) -> h <> tw a ->
    liveH m' (moved m a h) /\ fa m' (moved m a h) = fa m h /\
    nx m' (moved m a h) = moved m a (if nx m h =? tw a then nx m (tw a) else nx m h);
  co_counts : let k := if fFill m <=? fa m (tw a) then 1 else 2 in
    nVertices m' = nVertices m - 1 /\ nEdges m' = nEdges m - 1 - k /\ nFaces m' = nFaces m - k /\ nLoops m' = nLoops m }.

(** when it is refused: some vertex is joined to both ends of the edge, and one of the triangles of edges so formed is the
    side of the edge neither on its left nor on its right *)
Definition linkBad (m : mesh) (a : Z) : Prop := exists h k, liveH m h /\ liveH m k /\ ve m h = ve m a /\ ve m k = ve m (tw a) /\ ve m (tw h) = ve m (tw k) /\
  ~ (nx m a = k /\ nx m k = tw h) /\ ~ (nx m h = tw k /\ nx m (tw k) = tw a).
(** the right of the edge is a boundary loop of three edges *)
Definition boundaryTriangle (m : mesh) (a : Z) : Prop := ext m (tw a) /\ nx m (nx m (nx m (tw a))) = tw a.
(** the vertex the edge leaves has two edges *)
Definition thin (m : mesh) (a : Z) : Prop := nx m (tw a) = tw (nx m (nx m a)).
Definition onBoundary (m : mesh) (v : Z) : Prop := exists h, liveH m h /\ ve m h = v /\ ext m h.
(** the halfedge that is collapsed: of the given edge, the one that does not leave from the boundary, or from the inside if the
    edge is on the boundary; but in an ear, the other edge of the tip *)
Definition target (m : mesh) (e a : Z) : Prop :=
  (~ ext m (tw (eHe e)) /\ ((~ onBoundary m (ve m (eHe e)) /\ a = eHe e) \/ (onBoundary m (ve m (eHe e)) /\ a = tw (eHe e)))) \/
  (ext m (tw (eHe e)) /\ ~ thin m (eHe e) /\ a = eHe e) \/
  (ext m (tw (eHe e)) /\ thin m (eHe e) /\ a = nx m (nx m (eHe e))).
