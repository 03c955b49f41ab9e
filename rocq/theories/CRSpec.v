(** What fields with values on edges mean. *)
From Coq Require Import Reals.
From Verif Require Import Base DataModel MeshModel MeshSpec MeshDataModel GeoModel IntrinsicSpec TangentSpec.
Open Scope R_scope.
(** l lists the sides of edge e that belong to a face, each once *)
Definition sidesIn (m : mesh) (e : Z) (l : list Z) : Prop := NoDup l /\ forall h, In h l <-> liveH m h /\ ~ ext m h /\ edge h = e.
(** the value at the middle of an edge of the function that is linear along it and has the values u at its ends *)
Definition middle (m : mesh) (u : Z -> R) (e : Z) : R := (u (ve m (eHe e)) + u (ve m (tw (eHe e)))) / 2.
(** The tangent vector that x assigns to the edge of h, as seen in the face of h, in which h has the direction vec h: x (edge h) is a complex number relative to the unit
    vector along the edge's own halfedge, which is h or the opposite of h. *)
Definition seenFrom (len : mdata R) (vec x : Z -> V2) (h : Z) : V2 :=
  cmul (x (edge h)) (mul2 (vec h) ((if (h =? eHe (edge h))%Z then 1 else -1) / lh len h)).
