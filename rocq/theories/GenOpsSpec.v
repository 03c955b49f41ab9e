(** What the operations on a general mesh do *)
From Verif Require Import Base MeshModel MeshSpec GenModel GenSpec.
Open Scope Z_scope.

(** ** operations *)
(** [m'] is [m] with face [f] running the other way *)
Record Inverted (m m' : gmesh) (f : Z) : Prop := {
  iv_size : forall t, gFill m' t = gFill m t;
  iv_arr : forall a h, In a [AFace; AEdge; ASib; AFHe; AEHe] -> ev m' a h = ev m a h;
  iv_in : forall h, inH m h -> ev m AFace h = f -> gTailOf m' h = gTipOf m h /\ gTipOf m' h = gTailOf m h /\
    ev m' AOri h = 1 - ev m AOri h /\ ev m' ANext (ev m ANext h) = h;
  iv_out : forall h, inH m h -> ev m AFace h <> f -> gTailOf m' h = gTailOf m h /\ gTipOf m' h = gTipOf m h /\
    ev m' AOri h = ev m AOri h /\ ev m' ANext h = ev m ANext h }.

Definition endsOf (m : gmesh) (h x y : Z) : Prop := sameEnds (gTailOf m h) (gTipOf m h) x y.
(** an edge joins [c] and [d] *)
Definition Joined (m : gmesh) (c d : Z) : Prop := exists h, inH m h /\ endsOf m h c d.
(** no face has a single side *)
Definition NoMonogon (m : gmesh) : Prop := forall h, inH m h -> ev m ANext h <> h.
(** the arrays other than vertex.halfedge() and the lists around vertices *)
Definition sameConnectivity (m m' : gmesh) : Prop :=
  (forall t, gFill m' t = gFill m t) /\
  (forall a h, In a [AFace; AEdge; ASib; AFHe; AEHe] -> ev m' a h = ev m a h) /\
  (forall h, inH m h -> ev m' ANext h = ev m ANext h /\ ev m' AVert h = ev m AVert h /\ ev m' AOri h = ev m AOri h).
(** the two halfedges of [e], [a] and [b], lie in two triangles *)
Definition TwoTriangles (m : gmesh) (e a b : Z) : Prop :=
  ev m AEHe e = a /\ b = ev m ASib a /\ a <> b /\ ev m ASib b = a /\ ev m AFace a <> ev m AFace b /\
  (forall h, h = a \/ h = b -> ev m ANext (ev m ANext (ev m ANext h)) = h).
(** [m'] is [m] with edge [e] flipped: it joins the two opposite corners [c] and [d]; every other halfedge keeps its edge and
    its two ends; of the two triangles, one takes a side [x] of the first and a side [y] of the second that meet at an old end
    of [e], the other takes the other two; the other faces are untouched *)
Definition Flipped (m m' : gmesh) (e a b : Z) : Prop :=
  let c := gTipOf m (ev m ANext a) in let d := gTipOf m (ev m ANext b) in
  (forall t, gFill m' t = gFill m t) /\
  (forall p h, In p [AEdge; ASib; AEHe] -> ev m' p h = ev m p h) /\
  endsOf m' a c d /\ endsOf m' b c d /\
  (forall h, inH m h -> h <> a -> h <> b -> endsOf m' h (gTailOf m h) (gTipOf m h)) /\
  (exists x x' y y', (x = ev m ANext a /\ x' = ev m ANext x \/ x' = ev m ANext a /\ x = ev m ANext x') /\
     (y = ev m ANext b /\ y' = ev m ANext y \/ y' = ev m ANext b /\ y = ev m ANext y') /\
     (exists v, (v = gTailOf m a \/ v = gTipOf m a) /\ endsOf m x v c /\ endsOf m y v d) /\
     (exists v, (v = gTailOf m a \/ v = gTipOf m a) /\ endsOf m x' v c /\ endsOf m y' v d) /\
     forall h, inH m h -> ev m' AFace h = (if (h =? x') then ev m AFace b else if h =? y then ev m AFace a else ev m AFace h)) /\
  (forall h, inH m h -> ev m AFace h <> ev m AFace a -> ev m AFace h <> ev m AFace b ->
     ev m' ANext h = ev m ANext h /\ gTailOf m' h = gTailOf m h /\ gTipOf m' h = gTipOf m h /\ ev m' AOri h = ev m AOri h).
