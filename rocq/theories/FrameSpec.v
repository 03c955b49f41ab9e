(** What tangent frames mean. *)
From Coq Require Import Reals.
From Verif Require Import Base DataModel MeshModel MeshSpec MeshDataModel GeoModel IntrinsicSpec EmbeddedSpec TangentSpec.
Open Scope R_scope.
(** the frame stored for element number i *)
Definition frameAt (d : mdata (V3 * V3)) (i : Z) : V3 * V3 := at_ (mk3 0 0 0, mk3 0 0 0) d i.
(** two unit vectors, orthogonal to each other and to the unit vector n, the second a quarter turn counterclockwise from the first seen from the tip of n *)
Definition rightHanded (f : V3 * V3) (n : V3) : Prop :=
  norm3d (fst f) = 1 /\ norm3d (snd f) = 1 /\ dot3 (fst f) (snd f) = 0 /\ dot3 (fst f) n = 0 /\ dot3 (snd f) n = 0 /\ cross3 (fst f) (snd f) = n.
(** the vector in space that has the coordinates c in the frame *)
Definition lift (f : V3 * V3) (c : V2) : V3 := add3 (mul3 (fst f) (px c)) (mul3 (snd f) (py c)).
(** the component of u orthogonal to the unit vector n *)
Definition flat (u n : V3) : V3 := sub3 u (mul3 n (dot3 u n)).
(** the square of a complex number *)
Definition csq (u : V2) : V2 := cmul u u.
