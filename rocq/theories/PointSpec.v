(** What a surface point means: weights on the vertices of the element it lies in. *)
From Verif Require Import Base MeshModel MeshSpec MeshOpSpec PointModel.
From Coq Require Import Reals.
Open Scope Z_scope.

(** the point lies in an element of the mesh *)
Definition onMesh (m : mesh) (p : point) : Prop :=
  match p with PVertex v => liveV m v | PEdge e _ => liveH m (2 * e) | PFace f _ _ _ => liveF m f end.
(** a vertex point has weight 1 at its vertex; a point at parameter t along e.halfedge() has weight 1-t at its tail and t
    at its tip; face coordinates are weights of the vertices, starting at f.halfedge().vertex() *)
Definition weights (m : mesh) (p : point) : list (Z * R) :=
  match p with
  | PVertex v => [(v, 1%R)]
  | PEdge e t => [(ve m (2 * e), (1 - t)%R); (ve m (tw (2 * e)), t)]
  | PFace f x y z => [(ve m (fh m f), x); (ve m (nx m (fh m f)), y); (ve m (nx m (nx m (fh m f))), z)]
  end.
(** the value at the point of the function that is linear on every element; taking vertex positions (component by
    component) it is the position of the point *)
Definition valueAt (m : mesh) (data : Z -> R) (p : point) : R :=
  fold_right (fun '(v, w) s => (w * data v + s)%R) 0%R (weights m p).
(** same position whatever the positions of the vertices *)
Definition samePoint (m : mesh) (p q : point) : Prop := forall data, valueAt m data p = valueAt m data q.

(** the element is the face f or one of its edges or vertices *)
Definition touches (m : mesh) (a : elem) (f : Z) : Prop :=
  match a with
  | EV v => exists h, liveH m h /\ fa m h = f /\ ve m h = v
  | EE e => exists h, liveH m h /\ fa m h = f /\ edge h = e
  | EF g => g = f
  end.
Definition liveE (m : mesh) (a : elem) : Prop := match a with EV v => liveV m v | EE e => liveH m (2 * e) | EF f => liveF m f end.
(** the element is the edge e or one of its end points *)
Definition onEdge (m : mesh) (a : elem) (e : Z) : Prop :=
  match a with EV v => exists h, liveH m h /\ edge h = e /\ ve m h = v | EE e' => e' = e | EF _ => False end.
