(** What greedilyOrientFaces does *)
From Verif Require Import Base MeshModel MeshSpec GenModel GenSpec.
Open Scope Z_scope.

(** [m'] is [m] with the faces of [T] running the other way *)
Record Turned (m m' : gmesh) (T : Z -> bool) : Prop := {
  tn_size : forall t, gFill m' t = gFill m t;
  tn_arr : forall a h, In a [AFace; AEdge; ASib; AFHe; AEHe] -> ev m' a h = ev m a h;
  tn_in : forall h, inH m h -> T (ev m AFace h) = true -> gTailOf m' h = gTipOf m h /\ gTipOf m' h = gTailOf m h /\
    ev m' AOri h = 1 - ev m AOri h /\ ev m' ANext (ev m ANext h) = h;
  tn_out : forall h, inH m h -> T (ev m AFace h) = false -> gTailOf m' h = gTailOf m h /\ gTipOf m' h = gTipOf m h /\
    ev m' AOri h = ev m AOri h /\ ev m' ANext h = ev m ANext h }.

(** the two halfedges of an edge that has exactly two *)
Definition Twins (m : gmesh) (a b : Z) : Prop := inH m a /\ inH m b /\ a <> b /\ ev m ASib a = b /\ ev m ASib b = a.
(** a set of faces closed under crossing such edges *)
Definition ClosedSet (m : gmesh) (C : Z -> Prop) : Prop := forall a b, Twins m a b -> C (ev m AFace a) -> C (ev m AFace b).
(** turning round the faces of [s] makes the two halfedges of every such edge in [C] run in opposite directions *)
Definition orientedBy (m : gmesh) (C : Z -> Prop) (s : Z -> bool) : Prop :=
  forall a b, Twins m a b -> C (ev m AFace a) -> xorb (ev m AOri a =? 1) (s (ev m AFace a)) <> xorb (ev m AOri b =? 1) (s (ev m AFace b)).
