(** What intrinsic geometry means. Nothing here depends on how it is computed. *)
From Coq Require Import Reals.
From Verif Require Import Base DataModel MeshModel MeshSpec MeshOpSpec MeshDataModel MatrixModel MatrixSpec.
Open Scope R_scope.

(** the value stored for element number i *)
Definition at_ {T} (d0 : T) (d : mdata T) (i : Z) : T := nth (Z.to_nat i) (dat d) d0.
Definition valAt (d : mdata R) (i : Z) : R := at_ 0 d i.
(** the sum of f over a list *)
Definition Rsum {A} (f : A -> R) (l : list A) : R := fold_right (fun a s => f a + s) 0 l.
(** the elements listed by mesh.vertices() and so on, as numbers *)
Definition total (f : Z -> R) (l : list nat) : R := Rsum (fun i => f (Z.of_nat i)) l.

(** the length of the edge of a halfedge *)
Definition lh (len : mdata R) (h : Z) : R := valAt len (edge h).
(** edge lengths under which every triangle of the mesh is a Euclidean triangle *)
Record Metric (m : mesh) (len : mdata R) : Prop := {
  mt_size : length (dat len) = Z.to_nat (eCap m);
  mt_pos : forall h, liveH m h -> 0 < lh len h;
  mt_tri : forall h, liveH m h -> ~ ext m h -> lh len h < lh len (nx m h) + lh len (nx m (nx m h)) }.

(** t is the angle between the sides a and b of a triangle whose third side is c *)
Definition isAngle (a b c t : R) : Prop := 0 < t < PI /\ c * c = a * a + b * b - 2 * a * b * cos t.
(** A is the area of the triangle with sides a, b, c: half the product of two sides and the sine of the angle between *)
Definition isArea (a b c A : R) : Prop := exists t, isAngle a b c t /\ A = a * b * sin t / 2.
(** the angle of the face of h at the tail of h is t *)
Definition angleAt (m : mesh) (len : mdata R) (h : Z) (t : R) : Prop := isAngle (lh len h) (lh len (nx m (nx m h))) (lh len (nx m h)) t.
(** A is the area of the triangle of h *)
Definition areaAt (m : mesh) (len : mdata R) (h : Z) (A : R) : Prop := isArea (lh len h) (lh len (nx m (nx m h))) (lh len (nx m h)) A.
(** l lists the corners at vertex v, each once *)
Definition cornersOf (m : mesh) (v : Z) (l : list Z) : Prop := NoDup l /\ forall h, In h l <-> liveH m h /\ ~ ext m h /\ ve m h = v.

(** the place of an element in the iteration order: its row or column *)
Fixpoint place (e : nat) (l : list nat) : nat := match l with [] => 0%nat | a :: t => if (a =? e)%nat then 0%nat else S (place e t) end.
Definition indexOf (m : mesh) (k : ekind) (e : Z) : nat := match elements m k with Ok l => place (Z.to_nat e) l | _ => 0%nat end.
(** the entry of a matrix in the row of element a and the column of element b *)
Definition entryAt {T} (zero : T) (m : mesh) (rk ck : ekind) (M : smat T) (a b : Z) : T := coeff zero M (indexOf m rk a) (indexOf m ck b).
(** the cotangent of the angle opposite to h in its triangle is c *)
Definition cotOpposite (m : mesh) (len : mdata R) (h : Z) (c : R) : Prop := exists t, angleAt m len (nx m (nx m h)) t /\ c = cos t / sin t.
(** l lists the halfedges leaving v, each once *)
Definition leaving (m : mesh) (v : Z) (l : list Z) : Prop := NoDup l /\ forall h, In h l <-> liveH m h /\ ve m h = v.
