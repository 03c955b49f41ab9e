(** What separating edges of a general mesh does *)
From Verif Require Import Base MeshModel MeshSpec GenModel GenSpec.
Open Scope Z_scope.

(** ** the result of separateToNewEdge *)
Record Separated (m m' : gmesh) (a b : Z) : Prop := {
  sp_valid : GValid m';
  sp_e : gEFill m' = gEFill m + 1;
  sp_fill : forall t, t <> TEd -> gFill m' t = gFill m t;
  sp_arr : forall p h, ~ In p [AEdge; ASib; AEHe] -> ev m' p h = ev m p h;
  sp_new : forall h, inH m h -> ev m' AEdge h = if (h =? a) || (h =? b) then gEFill m else ev m AEdge h;
  sp_pair : ev m' ASib a = b /\ ev m' ASib b = a;
  sp_off : forall h, inH m h -> ev m AEdge h <> ev m AEdge a -> ev m' ASib h = ev m ASib h;
  sp_ehe : forall e, 0 <= e < gEFill m -> e <> ev m AEdge a -> ev m' AEHe e = ev m AEHe e }.

(** ** the result of separateNonmanifoldEdges *)
Record EdgesSplit (m m' : gmesh) : Prop := {
  es_fill : forall t, t <> TEd -> gFill m' t = gFill m t;
  es_more : gEFill m <= gEFill m';
  (* only the edges of halfedges and the cycles along edges change *)
  es_arr : forall p h, ~ In p [AEdge; ASib; AEHe] -> ev m' p h = ev m p h;
  (* a halfedge keeps its edge or gets a new one; a new edge has exactly two halfedges, which had the same edge before *)
  es_edge : forall h, inH m h -> ev m' AEdge h = ev m AEdge h \/ gEFill m <= ev m' AEdge h;
  es_new : forall h, inH m h -> gEFill m <= ev m' AEdge h -> ev m' ASib h <> h /\ ev m' ASib (ev m' ASib h) = h;
  es_join : forall a b, inH m a -> inH m b -> ev m' AEdge a = ev m' AEdge b -> ev m AEdge a = ev m AEdge b;
  (* an edge with one or two halfedges is left alone *)
  es_kept : forall h, inH m h -> ev m ASib (ev m ASib h) = h -> ev m' AEdge h = ev m AEdge h /\ ev m' ASib h = ev m ASib h }.
Definition TwoPerEdge (m : gmesh) : Prop := forall h, inH m h -> ev m ASib (ev m ASib h) = h.

