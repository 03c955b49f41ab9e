(** What it means for the stored arrays to be a valid oriented manifold halfedge mesh, and the vocabulary in which the
    mesh properties are stated. Nothing here depends on the operations of MeshModel.v; only its state record is used. *)
From Verif Require Import Base MeshModel.
Open Scope Z_scope.

(** incidence functions read off the arrays *)
Definition nx (m : mesh) (h : Z) : Z := getZ (heNext m) h.
Definition ve (m : mesh) (h : Z) : Z := getZ (heVertex m) h.
Definition fa (m : mesh) (h : Z) : Z := getZ (heFace m) h.
Definition vh (m : mesh) (v : Z) : Z := getZ (vHalfedge m) v.
Definition fh (m : mesh) (f : Z) : Z := getZ (fHalfedge m) f.
(** next outgoing halfedge around the tail vertex *)
Definition ro (m : mesh) (h : Z) : Z := nx m (tw h).

(** live elements. Faces are numbered from the front of the face array, boundary loops from its back. *)
Definition liveH m h := 0 <= h < heFill m /\ nx m h <> -1.
Definition liveV m v := 0 <= v < vFill m /\ vh m v <> -1.
Definition liveF m f := 0 <= f < fFill m /\ fh m f <> -1.
Definition liveL m f := fCap m - bFill m <= f < fCap m /\ fh m f <> -1.
Definition liveFL m f := liveF m f \/ liveL m f.
(** a halfedge of a boundary loop *)
Definition ext m h := fFill m <= fa m h.

(** b is reached from a by following f *)
Definition reach (f : Z -> Z) (a b : Z) : Prop := exists n, Nat.iter n f a = b.

(** number of i in 0..n-1 with p i *)
Definition countb (p : Z -> bool) (n : Z) : Z := Z.of_nat (length (filter p (zseq n))).
Definition liveHb m h := negb (nx m h =? -1).
Definition liveVb m v := negb (vh m v =? -1).
Definition liveFb m f := negb (fh m f =? -1).
Definition intHb m h := liveHb m h && negb (fFill m <=? fa m h).

(** storage: array sizes and fill counts. The halfedge arrays may be longer than the capacity: the constructors set the
    capacity to the element count without shrinking the arrays. *)
Record Stored (m : mesh) : Prop := {
  st_next : heCap m <= zlen (heNext m);
  st_vert : heCap m <= zlen (heVertex m);
  st_face : heCap m <= zlen (heFace m);
  st_vhe : zlen (vHalfedge m) = vCap m;
  st_fhe : zlen (fHalfedge m) = fCap m;
  st_he : 0 <= heFill m <= heCap m;
  st_edge : heFill m = 2 * eFill m /\ heCap m = 2 * eCap m;
  st_v : 0 <= vFill m <= vCap m;
  st_f : 0 <= fFill m /\ 0 <= bFill m /\ fFill m + bFill m <= fCap m }.

(** the reported counts are the numbers of live elements *)
Record Counted (m : mesh) : Prop := {
  ct_he : nHalfedges m = countb (liveHb m) (heFill m);
  ct_int : nInterior m = countb (intHb m) (heFill m);
  ct_e : nEdges m = countb (fun e => liveHb m (2 * e)) (eFill m);
  ct_v : nVertices m = countb (liveVb m) (vFill m);
  ct_f : nFaces m = countb (liveFb m) (fFill m);
  ct_l : nLoops m = countb (fun i => liveFb m (fCap m - 1 - i)) (bFill m) }.

(** connectivity of an oriented 2-manifold with boundary *)
Record Connected (m : mesh) : Prop := {
  cn_tw : forall h, liveH m h -> liveH m (tw h);
  cn_nx : forall h, liveH m h -> liveH m (nx m h);
  cn_inj : forall a b, liveH m a -> liveH m b -> nx m a = nx m b -> a = b;
  cn_ve : forall h, liveH m h -> liveV m (ve m h);
  cn_fa : forall h, liveH m h -> liveFL m (fa m h);
  (* the halfedges of a face chain tip to tail, and stay in the face *)
  cn_vnx : forall h, liveH m h -> ve m (nx m h) = ve m (tw h);
  cn_fnx : forall h, liveH m h -> fa m (nx m h) = fa m h;
  (* stored representatives *)
  cn_vh : forall v, liveV m v -> liveH m (vh m v) /\ ve m (vh m v) = v;
  cn_fh : forall f, liveFL m f -> liveH m (fh m f) /\ fa m (fh m f) = f;
  (* a face is one cycle of next; the halfedges leaving a vertex are one cycle of rotation (its neighbourhood is a disk
     or, cut open along the boundary, a half disk) *)
  cn_forb : forall a b, liveH m a -> liveH m b -> fa m a = fa m b -> reach (nx m) a b;
  cn_vorb : forall a b, liveH m a -> liveH m b -> ve m a = ve m b -> reach (ro m) a b;
  (* boundary conventions: e.halfedge() is interior; v.halfedge() is the one (at most one) halfedge leaving v whose twin
     is on the boundary *)
  cn_ebd : forall h, liveH m h -> h mod 2 = 0 -> ~ ext m h;
  cn_vbd : forall h, liveH m h -> ext m (tw h) -> vh m (ve m h) = h }.

(** slots not in use hold INVALID, 0 (fresh storage is zero-initialised) or the index of a halfedge slot in use *)
Record Slots (m : mesh) : Prop := {
  sg_v : forall v, vFill m <= v < vCap m -> -1 <= vh m v < Z.max 1 (heFill m);
  sg_f : forall f, fFill m <= f < fCap m - bFill m -> -1 <= fh m f < Z.max 1 (heFill m) }.

Record Valid (m : mesh) : Prop := { va_st : Stored m; va_ct : Counted m; va_cn : Connected m; va_sl : Slots m }.

(** every boundary-loop slot in use is alive *)
Definition NoDeadLoops m := nLoops m = bFill m.
