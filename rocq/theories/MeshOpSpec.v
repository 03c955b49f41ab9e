(** Vocabulary for what the mutations do. Independent of the models of the operations. *)
From Verif Require Import Base MeshModel MeshSpec.
Open Scope Z_scope.

(** nHalfedges(), nInteriorHalfedges(), nEdges(), nVertices(), nFaces(), nBoundaryLoops() *)
Definition counts (m : mesh) := (nHalfedges m, nInterior m, nEdges m, nVertices m, nFaces m, nLoops m).
(** V - E + F of the surface, boundary loops not counted as faces *)
Definition euler (m : mesh) : Z := nVertices m - nEdges m + nFaces m.

(** the same elements are alive *)
Definition same_elements (m m' : mesh) : Prop :=
  (forall h, liveH m' h <-> liveH m h) /\ (forall v, liveV m' v <-> liveV m v) /\ (forall f, liveFL m' f <-> liveFL m f).

(** h lies in a triangular face, whose halfedges are h, nx h, nx (nx h) *)
Definition inTriangle (m : mesh) (h : Z) : Prop := ~ ext m h /\ nx m (nx m (nx m h)) = h /\ nx m h <> h.
(** every face is a triangle *)
Definition triangular (m : mesh) : Prop := forall h, liveH m h -> ~ ext m h -> inTriangle m h.
(** the side of an edge can be flipped: triangles on both sides, and no end of the edge has degree one *)
Definition flippable (m : mesh) (h : Z) : Prop :=
  liveH m h /\ inTriangle m h /\ inTriangle m (tw h) /\ nx m h <> tw h /\ nx m (tw h) <> h.
(** some edge joins v and w *)
Definition joined (m : mesh) (v w : Z) : Prop := exists h, liveH m h /\ ve m h = v /\ ve m (tw h) = w.

(** the two halfedges a and b exchanged *)
Definition exch (a b x : Z) : Z := if x =? a then b else if x =? b then a else x.

(** neither end of edge {a, tw a} has it as its only edge, and neither side is a monogon *)
Definition plainEdge (m : mesh) (a : Z) : Prop := nx m a <> a /\ nx m a <> tw a /\ nx m (tw a) <> a /\ nx m (tw a) <> tw a.

(** what lies beside halfedge h: the face with the given index, or the boundary loop with the given index
    (BoundaryLoop::getIndex: loops are stored at the far end of the face array, halfedge_element_types.ipp) *)
Inductive side_of := FaceSide (f : Z) | LoopSide (l : Z).
Definition side (m : mesh) (h : Z) : side_of := if fFill m <=? fa m h then LoopSide (fCap m - 1 - fa m h) else FaceSide (fa m h).
(** boundary loop number i is alive *)
Definition liveBL (m : mesh) (i : Z) : Prop := 0 <= i < bFill m /\ fh m (fCap m - 1 - i) <> -1.
(** walking around the face from a, one meets h before (or without) meeting b *)
Definition before (m : mesh) (a b h : Z) : Prop := exists i, Nat.iter i (nx m) a = h /\ forall j, (j <= i)%nat -> Nat.iter j (nx m) a <> b.

(** the halfedges on the rim of the star of v: sides of faces around v that do not touch v *)
Definition rim (m : mesh) (v x : Z) : Prop :=
  liveH m x /\ ve m x <> v /\ ve m (tw x) <> v /\ exists h, liveH m h /\ ve m h = v /\ fa m x = fa m h.
(** the star of v is a disk with an embedded rim: no loop edge at v, no face met twice, no bigon, and the rim passes every
    edge and every vertex at most once *)
Record simpleStar (m : mesh) (v : Z) : Prop := {
  ss_loop : forall h, liveH m h -> ve m h = v -> ve m (tw h) <> v;
  ss_face : forall h g, liveH m h -> liveH m g -> ve m h = v -> ve m g = v -> fa m h = fa m g -> h = g;
  ss_bigon : forall h, liveH m h -> ve m h = v -> nx m (nx m h) <> h;
  ss_edge : forall x, rim m v x -> ~ rim m v (tw x);
  ss_vert : forall x y, rim m v x -> rim m v y -> ve m x = ve m y -> x = y }.

(** renumbering on compression: elements keep their order, so the new index of an element is the number of live elements
    of its kind with a smaller index *)
Definition newH m h := countb (liveHb m) h.
Definition newE m e := countb (fun e => liveHb m (2 * e)) e.
Definition newV m v := countb (liveVb m) v.
Definition newF m f := countb (liveFb m) f.
Definition newL m i := countb (fun i => liveFb m (fCap m - 1 - i)) i.
Definition newSide m s := match s with FaceSide f => FaceSide (newF m f) | LoopSide i => LoopSide (newL m i) end.
(** no slot is dead and no capacity is in reserve *)
Record Compact (m : mesh) : Prop := {
  cp_he : nHalfedges m = heFill m /\ heCap m = heFill m /\ zlen (heNext m) = heFill m /\ zlen (heVertex m) = heFill m /\ zlen (heFace m) = heFill m;
  cp_e : nEdges m = eFill m /\ eCap m = eFill m;
  cp_v : nVertices m = vFill m /\ vCap m = vFill m;
  cp_f : nFaces m = fFill m /\ nLoops m = bFill m /\ fCap m = fFill m + bFill m;
  cp_lh : forall h, 0 <= h < heFill m -> liveH m h;
  cp_lv : forall v, 0 <= v < vFill m -> liveV m v;
  cp_lf : forall f, 0 <= f < fFill m -> liveF m f;
  cp_ll : forall i, 0 <= i < bFill m -> liveBL m i }.
(** m' is m with its elements renumbered: halfedge h became newH m h, and so on, all incidences kept *)
Record Renumbered (m m' : mesh) : Prop := {
  rn_h : forall h, liveH m h -> liveH m' (newH m h);
  rn_v : forall v, liveV m v -> liveV m' (newV m v);
  rn_f : forall f, liveF m f -> liveF m' (newF m f);
  rn_l : forall i, liveBL m i -> liveBL m' (newL m i);
  (* every element of m' comes from one of m *)
  rn_hs : forall k, liveH m' k -> exists h, liveH m h /\ newH m h = k;
  rn_vs : forall k, liveV m' k -> exists v, liveV m v /\ newV m v = k;
  rn_fs : forall k, liveF m' k -> exists f, liveF m f /\ newF m f = k;
  rn_ls : forall k, liveBL m' k -> exists i, liveBL m i /\ newL m i = k;
  (* incidences *)
  rn_tw : forall h, liveH m h -> tw (newH m h) = newH m (tw h);
  rn_edge : forall h, liveH m h -> edge (newH m h) = newE m (edge h);
  rn_nx : forall h, liveH m h -> nx m' (newH m h) = newH m (nx m h);
  rn_ve : forall h, liveH m h -> ve m' (newH m h) = newV m (ve m h);
  rn_side : forall h, liveH m h -> side m' (newH m h) = newSide m (side m h);
  rn_vh : forall v, liveV m v -> vh m' (newV m v) = newH m (vh m v);
  rn_fh : forall f, liveF m f -> fh m' (newF m f) = newH m (fh m f);
  rn_lh : forall i, liveBL m i -> fh m' (fCap m' - 1 - newL m i) = newH m (fh m (fCap m - 1 - i)) }.
