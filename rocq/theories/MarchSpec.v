(** What the curves of marchingTriangles are expected to be *)
From Verif Require Import Base MeshModel MeshSpec PointModel PointSpec GeoModel GeoSpec.
From Coq Require Import Reals.

(** every two consecutive elements are related *)
Fixpoint linked {A} (r : A -> A -> Prop) (l : list A) : Prop :=
  match l with a :: ((b :: _) as t) => r a b /\ linked r t | _ => True end.
(** a and b are consecutive, in this order *)
Definition consecutive {A} (a b : A) (l : list A) : Prop := exists l1 l2, l = l1 ++ a :: b :: l2.
(** the first and the last element *)
Definition first {A} (l : list A) : option A := hd_error l.
Definition final {A} (l : list A) : option A := hd_error (rev l).

(** ** isolines *)
Open Scope Z_scope.
(** no face has an edge twice, and two faces with two common edges are the same *)
Definition edgeSimple (m : mesh) : Prop :=
  (forall h, liveH m h -> liveF m (fa m h) -> fa m (tw h) <> fa m h) /\
  (forall e e' f g, e <> e' -> liveF m f -> liveF m g -> touches m (EE e) f -> touches m (EE e') f -> touches m (EE e) g -> touches m (EE e') g -> f = g).
(** the value passes the level along a halfedge, upwards or downwards *)
Definition rises (m : mesh) (u : Z -> R) (iso : R) (h : Z) : Prop := (u (ve m h) < iso < u (ve m (tw h)))%R.
Definition falls (m : mesh) (u : Z -> R) (iso : R) (h : Z) : Prop := (u (ve m (tw h)) < iso < u (ve m h))%R.
(** p is a point inside the edge of h at which the linearly interpolated value is the level *)
Definition crossAt (m : mesh) (u : Z -> R) (iso : R) (h : Z) (p : point) : Prop :=
  exists t, p = PEdge (edge h) t /\ (0 < t < 1)%R /\ valueAt m u p = iso.
(** the part of the isoline in face f: it enters over the side along which the value rises, and leaves over the one along
    which it falls *)
Definition isoSegment (m : mesh) (u : Z -> R) (iso : R) (f : Z) (p q : point) : Prop :=
  exists h k, liveH m h /\ fa m h = f /\ rises m u iso h /\ crossAt m u iso h p /\
              liveH m k /\ fa m k = f /\ falls m u iso k /\ crossAt m u iso k q.
(** f has corners on both sides of the level *)
Definition crossed (m : mesh) (u : Z -> R) (iso : R) (f : Z) : Prop :=
  (exists h, liveH m h /\ fa m h = f /\ u (ve m h) < iso)%R /\ (exists h, liveH m h /\ fa m h = f /\ iso < u (ve m h))%R.
(** the consecutive pairs of a curve *)
Fixpoint pairs {A} (l : list A) : list (A * A) := match l with a :: ((b :: _) as t) => (a, b) :: pairs t | _ => [] end.
(** position of a surface point when the vertices are laid out in the plane *)
Definition place (m : mesh) (P : Z -> V2) (p : point) : V2 := mk2 (valueAt m (fun v => px (P v)) p) (valueAt m (fun v => py (P v)) p).
(** a point inside a boundary edge *)
Definition onBoundaryEdge (m : mesh) (p : point) : Prop := exists h t, p = PEdge (edge h) t /\ liveH m h /\ ext m h.
