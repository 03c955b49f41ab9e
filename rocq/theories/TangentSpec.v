(** What tangent vector fields on a mesh mean. Complex numbers are pairs of reals; cmul, conj2 and so on are the usual operations. *)
From Coq Require Import Reals.
From Verif Require Import Base DataModel MeshModel MeshSpec MeshDataModel GeoModel IntrinsicSpec.
Open Scope R_scope.
(** the vector stored for element number i *)
Definition vecAt (d : mdata V2) (i : Z) : V2 := at_ (mk2 0 0) d i.
(** sums of complex numbers *)
Definition Csum {A} (f : A -> V2) (l : list A) : V2 := mk2 (Rsum (fun a => px (f a)) l) (Rsum (fun a => py (f a)) l).
Definition ctotal (f : Z -> V2) (l : list nat) : V2 := Csum (fun i => f (Z.of_nat i)) l.
(** the counterclockwise next halfedge around the tail of h *)
Definition ccwNext (m : mesh) (h : Z) : Z := tw (nx m (nx m h)).
(** r h rotates the coordinates used on the side of h into those used on the side of its twin: the vector of h, seen from there, is opposite to that of its twin *)
Definition rotates (vec r : Z -> V2) (h : Z) : Prop :=
  norm2_2 (r h) = 1 /\ cmul (r h) (vec h) = mk2 (- px (vec (tw h))) (- py (vec (tw h))) /\ r (tw h) = conj2 (r h).
(** l lists the halfedges of face f that have another face on their other side, each once *)
Definition facing (m : mesh) (f : Z) (l : list Z) : Prop := NoDup l /\ forall h, In h l <-> liveH m h /\ ~ ext m h /\ ~ ext m (tw h) /\ fa m h = f.
