(** What operators on polygon meshes mean. *)
From Coq Require Import Reals.
From Verif Require Import Base DataModel MeshModel MeshSpec MeshOpSpec MeshDataModel MatrixModel MatrixSpec GeoModel IntrinsicSpec EmbeddedSpec.
Open Scope R_scope.
(** the elements of one kind, as numbers *)
Definition every (m : mesh) (k : ekind) : list Z := map Z.of_nat (match elements m k with Ok l => l | _ => [] end).
(** the sum of g over the corners of face f *)
Definition faceSum (m : mesh) (g : Z -> R) (f : Z) : R := Rsum g (filter (fun h => (fa m h =? f)%Z) (every m ECorner)).
(** the quadratic form of a matrix with one row and one column per vertex *)
Definition form (m : mesh) (M : smat R) (x y : Z -> R) : R := Rsum (fun a => x a * Rsum (fun b => entryAt 0 m EVertex EVertex M a b * y b) (every m EVertex)) (every m EVertex).
(** what the lists of weights say: wt h is the weight of the corner h in its face *)
Definition cornerWeights (m : mesh) (wts : mdata (list R)) (wt : Z -> R) : Prop :=
  length (dat wts) = Z.to_nat (fCap m - bFill m) /\ forall f, liveF m f -> exists l, faceHalfedges m f = Ok l /\ at_ [] wts f = map wt l.
(** the value of u, and the position, at the virtual vertex of face f *)
Definition midValue (m : mesh) (wt u : Z -> R) (f : Z) : R := faceSum m (fun h => wt h * u (ve m h)) f.
Definition midPoint (m : mesh) (pos : mdata V3) (wt : Z -> R) (f : Z) : V3 :=
  mk3 (midValue m wt (fun v => qx (pt pos v)) f) (midValue m wt (fun v => qy (pt pos v)) f) (midValue m wt (fun v => qz (pt pos v)) f).
(** the two sides, at the virtual vertex, of the triangle between h and the virtual vertex of its face; the area of that triangle *)
Definition legA (m : mesh) (pos : mdata V3) (wt : Z -> R) (h : Z) : V3 := sub3 (pt pos (ve m h)) (midPoint m pos wt (fa m h)).
Definition legB (m : mesh) (pos : mdata V3) (wt : Z -> R) (h : Z) : V3 := sub3 (pt pos (ve m (nx m h))) (midPoint m pos wt (fa m h)).
Definition fanArea (m : mesh) (pos : mdata V3) (wt : Z -> R) (h : Z) : R := norm3d (cross3 (legA m pos wt h) (legB m pos wt h)) / 2.
(** g is the gradient, in the plane of that triangle, of the linear function with the values of u at the ends of h and at the virtual vertex *)
Definition fanGradient (m : mesh) (pos : mdata V3) (wt u : Z -> R) (h : Z) (g : V3) : Prop :=
  dot3 g (legA m pos wt h) = u (ve m h) - midValue m wt u (fa m h) /\ dot3 g (legB m pos wt h) = u (ve m (nx m h)) - midValue m wt u (fa m h) /\
  dot3 g (cross3 (legA m pos wt h) (legB m pos wt h)) = 0.
(** The integral over a triangle of area A of the product of two linear functions with the values a, b, c and a', b', c' at its corners: the midpoint rule is exact for
    quadratic functions. *)
Definition integral (A a b c a' b' c' : R) : R := A / 3 * ((a + b) / 2 * ((a' + b') / 2) + (b + c) / 2 * ((b' + c') / 2) + (c + a) / 2 * ((c' + a') / 2)).
(** ** the virtual element method *)
Definition faceVsum (m : mesh) (g : Z -> V3) (f : Z) : V3 := mk3 (faceSum m (fun h => qx (g h)) f) (faceSum m (fun h => qy (g h)) f) (faceSum m (fun h => qz (g h)) f).
(** The vector area of face f: for a polygon in a plane, its area times the normal around which it runs counterclockwise. *)
Definition areaVector (m : mesh) (pos : mdata V3) (f : Z) : V3 := faceVsum m (fun h => mul3 (cross3 (pt pos (ve m h)) (pt pos (ve m (nx m h)))) (1 / 2)) f.
(** The mean over face f of the gradient of a function with the values u at the vertices and linear on every side, by the divergence theorem: each side contributes its
    outward normal, scaled by its length, times the mean value of the function on it. *)
Definition meanGradient (m : mesh) (pos normals : mdata V3) (areas : mdata R) (u : Z -> R) (f : Z) : V3 :=
  mul3 (faceVsum m (fun h => mul3 (cross3 (along m pos h) (pt normals f)) ((u (ve m h) + u (ve m (nx m h))) / 2)) f) (1 / valAt areas f).
(** what the mean gradient misses of the difference of u along h *)
Definition residual (m : mesh) (pos normals : mdata V3) (areas : mdata R) (u : Z -> R) (h : Z) : R :=
  u (ve m (nx m h)) - u (ve m h) - dot3 (along m pos h) (meanGradient m pos normals areas u (fa m h)).
(** what a matrix with three rows per face says about face f when applied to u *)
Definition vectorAt (m : mesh) (G : smat R) (u : Z -> R) (f : Z) : V3 :=
  let row i := Rsum (fun v => coeff 0 G (3 * indexOf m EFace f + i) (indexOf m EVertex v) * u v) (every m EVertex) in mk3 (row 0%nat) (row 1%nat) (row 2%nat).
(** the sizes of the containers, and that no side starts and ends at the same corner *)
Definition polygonData (m : mesh) (pos normals : mdata V3) (areas : mdata R) : Prop :=
  length (dat pos) = Z.to_nat (vCap m) /\ length (dat normals) = Z.to_nat (fCap m - bFill m) /\ length (dat areas) = Z.to_nat (fCap m - bFill m) /\ forall h, liveH m h -> ~ ext m h -> nx m h <> h.
(** the area times the normal of every face is its vector area *)
Definition aligned (m : mesh) (pos normals : mdata V3) (areas : mdata R) : Prop :=
  forall f, liveF m f -> 0 < valAt areas f /\ norm2_3 (pt normals f) = 1 /\ mul3 (pt normals f) (valAt areas f) = areaVector m pos f.
(** face f has three or four sides (or fewer) *)
Definition fewSided (m : mesh) (f : Z) : Prop := forall h, liveH m h -> fa m h = f -> nx m (nx m (nx m h)) = h \/ nx m (nx m (nx m (nx m h))) = h.
