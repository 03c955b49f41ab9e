(** What a general mesh is *)
From Verif Require Import Base MeshModel MeshSpec GenModel.
Open Scope Z_scope.

Definition ev (m : gmesh) (a : arr) (i : Z) : Z := getZ (ga m a) i.
Definition gTailOf (m : gmesh) (h : Z) : Z := ev m AVert h.
Definition gTipOf (m : gmesh) (h : Z) : Z := ev m AVert (ev m ANext h).
Definition inH (m : gmesh) (h : Z) : Prop := 0 <= h < gHeFill m.
Definition gCap (m : gmesh) (t : eltype) : Z := match t with THe => gHeCap m | TVe => gVCap m | TFc => gFCap m | TEd => gECap m end.
Definition gFill (m : gmesh) (t : eltype) : Z := match t with THe => gHeFill m | TVe => gVFill m | TFc => gFFill m | TEd => gEFill m end.

(** following [f] from any of 0 .. n-1 goes through exactly the elements with the same key *)
Definition Ring (n : Z) (f key : Z -> Z) : Prop :=
  (forall h, 0 <= h < n -> 0 <= f h < n /\ key (f h) = key h) /\
  (forall a b, 0 <= a < n -> 0 <= b < n -> key a = key b -> reach f a b).

(** nothing is ever deleted from a general mesh: the elements are 0 .. fill-1 *)
Record GValid (m : gmesh) : Prop := {
  gv_len : forall a, zlen (ga m a) = gCap m (typeOf a);
  gv_fill : forall t, 0 <= gFill m t <= gCap m t;
  gv_count : gHe m = gHeFill m /\ gInt m = gHeFill m /\ gEd m = gEFill m /\ gVe m = gVFill m /\ gFc m = gFFill m;
  gv_tail : forall h, inH m h -> 0 <= ev m AVert h < gVFill m;
  gv_face : forall h, inH m h -> 0 <= ev m AFace h < gFFill m;
  gv_edge : forall h, inH m h -> 0 <= ev m AEdge h < gEFill m;
  gv_vhe : forall v, 0 <= v < gVFill m -> inH m (ev m AVHe v) /\ ev m AVert (ev m AVHe v) = v;
  gv_fhe : forall f, 0 <= f < gFFill m -> inH m (ev m AFHe f) /\ ev m AFace (ev m AFHe f) = f;
  gv_ehe : forall e, 0 <= e < gEFill m -> inH m (ev m AEHe e) /\ ev m AEdge (ev m AEHe e) = e;
  (* around a face, along an edge, out of a vertex, into a vertex *)
  gv_next : Ring (gHeFill m) (ev m ANext) (ev m AFace);
  gv_sib : Ring (gHeFill m) (ev m ASib) (ev m AEdge);
  gv_out : Ring (gHeFill m) (ev m AOutN) (gTailOf m);
  gv_in : Ring (gHeFill m) (ev m AInN) (gTipOf m);
  gv_outP : forall h, inH m h -> ev m AOutP (ev m AOutN h) = h;
  gv_inP : forall h, inH m h -> ev m AInP (ev m AInN h) = h;
  gv_outS : forall v, 0 <= v < gVFill m -> inH m (ev m AOutS v) /\ gTailOf m (ev m AOutS v) = v;
  gv_inS : forall v, 0 <= v < gVFill m -> inH m (ev m AInS v) /\ gTipOf m (ev m AInS v) = v;
  (* the orientation flags of two halfedges of one edge tell whether they run the same way *)
  gv_bit : forall h, inH m h -> ev m AOri h = 0 \/ ev m AOri h = 1;
  gv_ori : forall a b, inH m a -> inH m b -> ev m AEdge a = ev m AEdge b ->
    if ev m AOri a =? ev m AOri b then gTailOf m a = gTailOf m b /\ gTipOf m a = gTipOf m b
    else gTailOf m a = gTipOf m b /\ gTipOf m a = gTailOf m b }.

(** ** the input of the constructor *)
(** halfedges are numbered corner by corner: [h] is the one from corner [j] of polygon [f] to the next corner *)
Definition offset (polys : list (list Z)) (f : nat) : Z := zlen (concat (firstn f polys)).
Definition Corner (polys : list (list Z)) (h : Z) (f : nat) (j : Z) : Prop :=
  (f < length polys)%nat /\ 0 <= j < zlen (nth f polys []) /\ h = offset polys f + j.
(** every polygon has at least three corners, and the vertices are numbered without gaps *)
Definition accepted (polys : list (list Z)) : Prop :=
  Forall (fun p => (3 <= length p)%nat) polys /\ forall v, 0 <= v <= fold_left (fun acc p => fold_left Z.max p acc) polys 0 -> In v (concat polys).
Definition sameEnds (a b a' b' : Z) : Prop := (a = a' /\ b = b') \/ (a = b' /\ b = a').
