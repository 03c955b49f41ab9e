(** Euclidean vocabulary for the statements about GeoModel.v; only its point records are used *)
From Verif Require Import GeoModel.
From Coq Require Import Reals.
Open Scope R_scope.

(** distances, and the point a + t (b - a) *)
Definition dist2 (a b : V2) : R := sqrt ((px a - px b)² + (py a - py b)²).
Definition dist3 (a b : V3) : R := sqrt ((qx a - qx b)² + (qy a - qy b)² + (qz a - qz b)²).
Definition along2 (a b : V2) (t : R) : V2 := mk2 ((1 - t) * px a + t * px b) ((1 - t) * py a + t * py b).
Definition along3 (a b : V3) (t : R) : V3 := mk3 ((1 - t) * qx a + t * qx b) ((1 - t) * qy a + t * qy b) ((1 - t) * qz a + t * qz b).
(** a + t d *)
Definition ray2 (a d : V2) (t : R) : V2 := mk2 (px a + t * px d) (py a + t * py d).
(** twice the signed area of a triangle, positive for counter-clockwise; six times the signed volume of a tetrahedron *)
Definition area2 (a b c : V2) : R := (px b - px a) * (py c - py a) - (py b - py a) * (px c - px a).
Definition vol6 (a b c d : V3) : R :=
  (qx b - qx a) * ((qy c - qy a) * (qz d - qz a) - (qz c - qz a) * (qy d - qy a)) -
  (qy b - qy a) * ((qx c - qx a) * (qz d - qz a) - (qz c - qz a) * (qx d - qx a)) +
  (qz b - qz a) * ((qx c - qx a) * (qy d - qy a) - (qy c - qy a) * (qx d - qx a)).
(** not on one line *)
Definition spread3 (a b c : V3) : Prop :=
  ~ (exists s t, (s <> 0 \/ t <> 0) /\
       s * (qx b - qx a) + t * (qx c - qx a) = 0 /\ s * (qy b - qy a) + t * (qy c - qy a) = 0 /\ s * (qz b - qz a) + t * (qz c - qz a) = 0).
(** weighted combination of three points *)
Definition bary2 (p0 p1 p2 : V2) (b : V3) : V2 := mk2 (qx b * px p0 + qy b * px p1 + qz b * px p2) (qx b * py p0 + qy b * py p1 + qz b * py p2).
Definition bary3 (p0 p1 p2 : V3) (b : V3) : V3 :=
  mk3 (qx b * qx p0 + qy b * qx p1 + qz b * qx p2) (qx b * qy p0 + qy b * qy p1 + qz b * qy p2) (qx b * qz p0 + qy b * qz p1 + qz b * qz p2).
(** scalar product and length *)
Definition inner3 (u v : V3) : R := qx u * qx v + qy u * qy v + qz u * qz v.
Definition len3 (u : V3) : R := sqrt (inner3 u u).
Definition len2 (u : V2) : R := sqrt (px u * px u + py u * py u).
