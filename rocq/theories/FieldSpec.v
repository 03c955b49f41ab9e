(** What the index of a direction field means. *)
From Coq Require Import Reals.
From Verif Require Import Base DataModel MeshModel MeshSpec MeshDataModel GeoModel IntrinsicSpec TangentSpec.
Open Scope R_scope.
(** the integer stored for element number i *)
Definition intAt (d : mdata Z) (i : Z) : Z := at_ 0%Z d i.
(** the n-th power of a complex number *)
Fixpoint cpown (z : V2) (n : nat) : V2 := match n with O => mk2 1 0 | S k => cmul z (cpown z k) end.
(** turning u counterclockwise by d, at most half a turn either way (the half turn counts as clockwise), gives the direction of v *)
Definition turnsBy (u v : V2) (d : R) : Prop := - PI <= d < PI /\ exists s, 0 < s /\ v = mul2 (cmul (fromAngle d) u) s.
(** l lists the halfedges of face f, each once; the halfedges arriving at vertex v *)
Definition aroundFace (m : mesh) (f : Z) (l : list Z) : Prop := NoDup l /\ forall h, In h l <-> liveH m h /\ ~ ext m h /\ fa m h = f.
Definition arriving (m : mesh) (v : Z) (l : list Z) : Prop := NoDup l /\ forall h, In h l <-> liveH m h /\ ve m (tw h) = v.
(** a surface without boundary *)
Definition closedMesh (m : mesh) : Prop := forall h, liveH m h -> ~ ext m h.
(** z is an integer nearest to x *)
Definition nearest (x : R) (z : Z) : Prop := Rabs (x - IZR z) <= 1 / 2.
