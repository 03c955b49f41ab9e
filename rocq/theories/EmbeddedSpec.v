(** What the geometry of positioned triangles means. *)
From Coq Require Import Reals.
From Verif Require Import Base DataModel MeshModel MeshSpec MeshOpSpec MeshDataModel GeoModel IntrinsicSpec.
Open Scope R_scope.
(** the position of vertex v *)
Definition pt (pos : mdata V3) (v : Z) : V3 := at_ (mk3 0 0 0) pos v.
(** the vector from the tail of h to its head *)
Definition along (m : mesh) (pos : mdata V3) (h : Z) : V3 := sub3 (pt pos (ve m (tw h))) (pt pos (ve m h)).
(** the positions of the vertices of a mesh, such that no edge and no triangle is degenerate *)
Record Embedded (m : mesh) (pos : mdata V3) : Prop := {
  eb_size : length (dat pos) = Z.to_nat (vCap m);
  eb_area : forall h, liveH m h -> ~ ext m h -> cross3 (along m pos h) (along m pos (nx m h)) <> mk3 0 0 0 }.
Definition Vsum {A} (f : A -> V3) (l : list A) : V3 := mk3 (Rsum (fun a => qx (f a)) l) (Rsum (fun a => qy (f a)) l) (Rsum (fun a => qz (f a)) l).
(** turning u by the angle t about the unit axis d, counterclockwise seen from the tip of d; u orthogonal to d *)
Definition turned (d : V3) (t : R) (u : V3) : V3 := add3 (mul3 u (cos t)) (mul3 (cross3 d u) (sin t)).
