(** What a barycentric vector means: weights, with sum zero, on the vertices of the element it lies in. *)
From Verif Require Import Base MeshModel MeshSpec MeshOpSpec PointModel PointSpec GeoModel GeoSpec BaryModel.
From Coq Require Import Reals.
Open Scope Z_scope.

(** the vector lies in an element of the mesh, and its coordinates sum to zero *)
Definition onMeshV (m : mesh) (b : bvec) : Prop :=
  match b with BVertex v => liveV m v | BEdge e _ _ => liveH m (2 * e) | BFace f _ _ _ => liveF m f end.
Definition zeroSum (b : bvec) : Prop :=
  match b with BVertex _ => True | BEdge _ x y => (x + y = 0)%R | BFace _ x y z => (x + y + z = 0)%R end.
(** the change, along the vector, of the function that is linear on the element and has the given values at the vertices.
    Edge coordinates belong to the tail and the tip of e.halfedge(), face coordinates to the vertices from
    f.halfedge().vertex() on. *)
Definition change (m : mesh) (data : Z -> R) (b : bvec) : R :=
  match b with
  | BVertex _ => 0
  | BEdge e x y => x * data (ve m (2 * e)) + y * data (ve m (tw (2 * e)))
  | BFace f x y z => x * data (ve m (fh m f)) + y * data (ve m (nx m (fh m f))) + z * data (ve m (nx m (nx m (fh m f))))
  end%R.
Definition sameVector (m : mesh) (a b : bvec) : Prop := forall data, change m data a = change m data b.
(** the vector in space when the vertices have positions P *)
Definition embed3 (m : mesh) (P : Z -> V3) (b : bvec) : V3 :=
  mk3 (change m (fun v => qx (P v)) b) (change m (fun v => qy (P v)) b) (change m (fun v => qz (P v)) b).
Definition embed2 (m : mesh) (P : Z -> V2) (b : bvec) : V2 := mk2 (change m (fun v => px (P v)) b) (change m (fun v => py (P v)) b).
(** the edges of face f have the lengths of the segments between the positions of their end points *)
Definition lengths3 (m : mesh) (len : Z -> R) (P : Z -> V3) (f : Z) : Prop :=
  forall h, liveH m h -> fa m h = f -> len (edge h) = dist3 (P (ve m h)) (P (ve m (tw h))).
Definition lengths2 (m : mesh) (len : Z -> R) (P : Z -> V2) (f : Z) : Prop :=
  forall h, liveH m h -> fa m h = f -> len (edge h) = dist2 (P (ve m h)) (P (ve m (tw h))).
(** the triangle f is laid out counter-clockwise *)
Definition ccw (m : mesh) (P : Z -> V2) (f : Z) : Prop :=
  (0 < area2 (P (ve m (fh m f))) (P (ve m (nx m (fh m f)))) (P (ve m (nx m (nx m (fh m f))))))%R.
(** rotation by an angle, counter-clockwise *)
Definition turn (a : R) (v : V2) : V2 := mk2 (cos a * px v - sin a * py v) (sin a * px v + cos a * py v).
