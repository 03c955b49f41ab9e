(** Vocabulary for the statements about flipping to Delaunay. *)
From Verif Require Import MeshModel MeshSpec GeoModel GeoSpec.
From Coq Require Import Reals ZArith.
Open Scope R_scope.

(** every face of the mesh is a non-degenerate Euclidean triangle for these edge lengths *)
Definition euclidean (m : mesh) (len : Z -> R) : Prop := forall h, liveH m h -> ~ ext m h ->
  let a := len (edge h) in let b := len (edge (nx m h)) in let c := len (edge (nx m (nx m h))) in
  0 < a /\ a < b + c.
(** every edge length is positive *)
Definition positiveLens (m : mesh) (len : Z -> R) : Prop := forall h, liveH m h -> ~ ext m h -> 0 < len (edge h).

(** the two triangles at an edge laid out in the plane: h runs from p2 to p0, with p1 on its left and p3 on its right *)
Definition laidOut (m : mesh) (len : Z -> R) (h : Z) (p0 p1 p2 p3 : V2) : Prop :=
  let t := tw h in
  dist2 p2 p0 = len (edge h) /\
  dist2 p0 p1 = len (edge (nx m h)) /\ dist2 p1 p2 = len (edge (nx m (nx m h))) /\
  dist2 p2 p3 = len (edge (nx m t)) /\ dist2 p3 p0 = len (edge (nx m (nx m t))) /\
  0 < area2 p2 p0 p1 /\ 0 < area2 p0 p2 p3.
(** cotangent of the angle at p between a and b, which lie counter-clockwise around p *)
Definition cotAt (p a b : V2) : R :=
  ((px a - px p) * (px b - px p) + (py a - py p) * (py b - py p)) / area2 p a b.
(** the mean of the two cotangents facing the edge is at least [- eps], however the triangles are laid out; there is a layout *)
Definition delaunayEdge (m : mesh) (len : Z -> R) (eps : R) (h : Z) : Prop :=
  (exists p0 p1 p2 p3, laidOut m len h p0 p1 p2 p3) /\
  forall p0 p1 p2 p3, laidOut m len h p0 p1 p2 p3 -> - eps <= (cotAt p1 p2 p0 + cotAt p3 p0 p2) / 2.
(** no corner of the one triangle lies inside the circle through the corners of the other *)
Definition emptyCircle (m : mesh) (len : Z -> R) (h : Z) : Prop :=
  forall p0 p1 p2 p3 o r, laidOut m len h p0 p1 p2 p3 -> dist2 p0 o = r -> dist2 p1 o = r -> dist2 p2 o = r -> r <= dist2 p3 o.

(** the corresponding sum for ideal hyperbolic triangles with these Penner coordinates *)
Definition idealDelaunayEdge (m : mesh) (len : Z -> R) (eps : R) (h : Z) : Prop :=
  let t := tw h in let l := len (edge h) in
  let a := len (edge (nx m h)) in let b := len (edge (nx m (nx m h))) in
  let c := len (edge (nx m t)) in let d := len (edge (nx m (nx m t))) in
  - eps <= (a * a + b * b - l * l) / (a * b * l) + (c * c + d * d - l * l) / (c * d * l).
