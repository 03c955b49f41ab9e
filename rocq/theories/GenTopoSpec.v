(** Corners of a general mesh that meet along edges, and what separateNonmanifoldVertices does *)
From Coq Require Export Relations.
From Verif Require Import Base MeshModel MeshSpec GenModel GenSpec.
Open Scope Z_scope.

(** A corner has the index of the halfedge that leaves it. The corners [a] and [b] lie at the same end of an edge, in two faces
    (or two sides of one face): [x] and [y] are two halfedges of that edge; [a] is the corner at the tail or the tip of [x] *)
Definition acrossEdge (m : gmesh) (a b : Z) : Prop :=
  exists x y, inH m x /\ inH m y /\ x <> y /\ ev m AEdge x = ev m AEdge y /\
    if ev m AOri x =? ev m AOri y then (a = x /\ b = y) \/ (a = ev m ANext x /\ b = ev m ANext y)
    else (a = x /\ b = ev m ANext y) \/ (a = ev m ANext x /\ b = y).
(** linked by a chain of such pairs *)
Definition edgeLinked (m : gmesh) : Z -> Z -> Prop := clos_refl_trans Z (acrossEdge m).

(** [m'] is [m] with vertices split; [parent] gives the vertex a vertex comes from *)
Record VerticesSplit (m m' : gmesh) (parent : Z -> Z) : Prop := {
  vs_fill : forall t, t <> TVe -> gFill m' t = gFill m t;
  vs_arr : forall p h, In p [ANext; AFace; AFHe; ASib; AEdge; AOri; AEHe] -> ev m' p h = ev m p h;
  vs_more : gVFill m <= gVFill m';
  vs_old : forall v, 0 <= v < gVFill m -> parent v = v;
  vs_parent : forall h, inH m h -> parent (gTailOf m' h) = gTailOf m h;
  (* two corners have the same vertex exactly if they are linked across edges *)
  vs_linked : forall a b, inH m a -> inH m b -> (gTailOf m' a = gTailOf m' b <-> edgeLinked m a b) }.

(** ** connected components *)
Definition gJoined (m : gmesh) (u v : Z) : Prop := exists h, inH m h /\ gTailOf m h = u /\ gTipOf m h = v.
Definition gLinked (m : gmesh) : Z -> Z -> Prop := clos_refl_sym_trans Z (gJoined m).
(** n vertices, one in each component *)
Definition gComponents (m : gmesh) (n : nat) : Prop :=
  exists reps, length reps = n /\ NoDup reps /\ (forall r, In r reps -> 0 <= r < gVFill m) /\
    (forall v, 0 <= v < gVFill m -> exists r, In r reps /\ gLinked m v r) /\
    (forall r r', In r reps -> In r' reps -> gLinked m r r' -> r = r').
(** every edge has two or more halfedges, and the first two run in opposite directions *)
Definition ClosedOriented (m : gmesh) : Prop := forall e, 0 <= e < gEFill m -> ev m AOri (ev m ASib (ev m AEHe e)) <> ev m AOri (ev m AEHe e).
