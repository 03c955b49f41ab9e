(** What the distances of fast marching satisfy. *)
From Coq Require Import Reals.
From Verif Require Import Base DataModel MeshModel MeshSpec GeoModel IntrinsicSpec PointModel FastModel.
Open Scope R_scope.
(** the heap yields one of the entries with the least distance *)
Definition leastPick (pick : list entry -> nat) : Prop := forall q, q <> [] -> exists e, nth_error q (pick q) = Some e /\ forall e', In e' q -> fst e <= fst e'.
(** a point of the mesh *)
Definition onMesh (m : mesh) (p : point) : Prop := match p with PVertex v => liveV m v | PEdge e _ => liveH m (eHe e) | PFace f _ _ _ => liveF m f end.
Definition inFace (p : point) : Prop := match p with PFace _ _ _ _ => True | _ => False end.
(** r is the distance the input gives to vertex v from its point p, which has distance x: the distance of the point plus the straight distance to the
    vertex. For a point with barycentric coordinates in a triangle the straight distance is that of any layout of the triangle in the plane. *)
Definition startsFrom (m : mesh) (len : mdata R) (p : point) (x : R) (v : Z) (r : R) : Prop :=
  match p with
  | PVertex w => v = w /\ r = x
  | PEdge e t => (v = ve m (eHe e) /\ r = x + t * valAt len e) \/ (v = ve m (tw (eHe e)) /\ r = x + (1 - t) * valAt len e)
  | PFace f a b c => exists A B C w, norm2_2 (sub2 B A) = lh len (fh m f) ^ 2 /\ norm2_2 (sub2 C B) = lh len (nx m (fh m f)) ^ 2 /\ norm2_2 (sub2 A C) = lh len (nx m (nx m (fh m f))) ^ 2 /\
      ((v = ve m (fh m f) /\ w = A) \/ (v = ve m (nx m (fh m f)) /\ w = B) \/ (v = ve m (nx m (nx m (fh m f))) /\ w = C)) /\
      r = x + sqrt (norm2_2 (sub2 (add2 (add2 (mul2 A a) (mul2 B b)) (mul2 C c)) w))
  end.
Definition starts (m : mesh) (len : mdata R) (pts : list (point * R)) (v : Z) (r : R) : Prop := exists p x, In (p, x) pts /\ startsFrom m len p x v r.
(** a front passes a corner with sides of lengths a and b at angle theta, whose ends it reaches at x and y, and reaches the corner at r: the distance is
    linear on the triangle with slope one, and it grows from inside the triangle towards the corner *)
Definition planeFront (a b theta x y r : R) : Prop := exists P Q g : V2, norm2_2 P = a * a /\ norm2_2 Q = b * b /\ dot2 P Q = a * b * cos theta /\ norm2_2 g = 1 /\
  x = r + dot2 g P /\ y = r + dot2 g Q /\ exists s t, 0 < s /\ 0 < t /\ add2 (mul2 P s) (mul2 Q t) = mul2 g (-1).
(** at an obtuse corner: the height over the opposite side c is added to the greater distance *)
Definition overHeight (a b c theta x y r : R) : Prop := PI / 2 < theta /\ exists h, h * c = a * b * sin theta /\ r = Rmax x y + h.
(** the distance r of vertex v comes from a neighbour along an edge, or from the two other vertices of a triangle, which are nearer *)
Definition explained (m : mesh) (len : mdata R) (d : Z -> option R) (v : Z) (r : R) : Prop := exists k, liveH m k /\ ve m k = v /\
  ((exists a, d (ve m (tw k)) = Some a /\ a < r /\ r = a + lh len k) \/
   (~ ext m k /\ exists x y theta, d (ve m (nx m k)) = Some x /\ d (ve m (nx m (nx m k))) = Some y /\ x < r /\ y < r /\ isAngle (lh len k) (lh len (nx m (nx m k))) (lh len (nx m k)) theta /\
      (planeFront (lh len k) (lh len (nx m (nx m k))) theta x y r \/ overHeight (lh len k) (lh len (nx m (nx m k))) (lh len (nx m k)) theta x y r))).
(** v can be reached from u along edges *)
Inductive walk (m : mesh) (u : Z) : Z -> Prop := walk_here : walk m u u | walk_on h : walk m u (ve m h) -> liveH m h -> walk m u (ve m (tw h)).
