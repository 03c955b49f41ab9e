(** Systems of arcs in a triangle and in two triangles sharing an edge, by counting arcs. Nothing here refers to
    NormalModel.v. *)
From Verif Require Import Base MeshModel MeshSpec.
Open Scope Z_scope.

(** the arcs in a triangle ijk that cross its edges: cI, cJ, cK cut off a corner (they join its two edges), eI, eJ, eK run
    from a corner to the opposite edge *)
Record arcs := mkArcs { cI : Z; cJ : Z; cK : Z; eI : Z; eJ : Z; eK : Z }.
(** they do not cross each other: an arc leaving a corner excludes arcs cutting that corner off and arcs leaving others *)
Record Planar (t : arcs) : Prop := {
  pl_cI : 0 <= cI t; pl_cJ : 0 <= cJ t; pl_cK : 0 <= cK t; pl_eI : 0 <= eI t; pl_eJ : 0 <= eJ t; pl_eK : 0 <= eK t;
  pl_I : 0 < eI t -> cI t = 0 /\ eJ t = 0 /\ eK t = 0;
  pl_J : 0 < eJ t -> cJ t = 0 /\ eI t = 0 /\ eK t = 0;
  pl_K : 0 < eK t -> cK t = 0 /\ eI t = 0 /\ eJ t = 0 }.
(** crossings on the edges *)
Definition xIJ t := cI t + cJ t + eK t.
Definition xJK t := cJ t + cK t + eI t.
Definition xKI t := cK t + cI t + eJ t.

(** the coordinate of an edge crossed by x arcs and followed by a arcs *)
Definition edgeCoord (n x a : Z) : Prop := 0 <= x /\ ((a = 0 /\ n = x) \/ (0 < a /\ x = 0 /\ n = - a)).
(** n is some coordinate of an edge crossed by x arcs, followed by at most one *)
Definition coordOf (n x : Z) : Prop := exists a, a <= 1 /\ edgeCoord n x a.
(** the triangle with coordinates nij njk nki carries the arcs t *)
Definition carries (t : arcs) (nij njk nki : Z) : Prop :=
  Planar t /\ (exists a, edgeCoord nij (xIJ t) a) /\ (exists a, edgeCoord njk (xJK t) a) /\ (exists a, edgeCoord nki (xKI t) a).

(** two triangles ijk and ijl: where does the arc through the p-th crossing of ij, counted from i, go on the side of ijk? *)
Inductive exit := ToI | Apex | ToJ.
Definition exitAt (t : arcs) (p : Z) : exit := if p <? cI t then ToI else if p <? cI t + eK t then Apex else ToJ.
(** the arc crosses the other diagonal if it leaves on i's side above and on j's side below, or conversely; it follows the
    other diagonal if it joins the two apexes *)
Definition switches (top bot : arcs) (p : Z) : bool :=
  match exitAt top p, exitAt bot p with ToI, ToJ | ToJ, ToI => true | _, _ => false end.
Definition joins (top bot : arcs) (p : Z) : bool := match exitAt top p, exitAt bot p with Apex, Apex => true | _, _ => false end.
(** arcs crossing the other diagonal: those cutting off an apex, those from i or j to the far side, those following ij, and
    those that switch sides *)
Definition diagonalCrossings (top bot : arcs) (along : Z) : Z :=
  (cK top + eI top + eJ top) + (cK bot + eI bot + eJ bot) + along + countb (switches top bot) (xIJ top).
Definition diagonalAlong (top bot : arcs) : Z := countb (joins top bot) (xIJ top).

(** bounds on coordinates under which sums of a few of them stay in range of an int: 2^27, 2^24 *)
Definition small (n : Z) : Prop := - 134217728 <= n <= 134217728.
Definition tiny (n : Z) : Prop := - 16777216 <= n <= 16777216.

(** ** on a mesh *)
(** the coordinate of the edge of halfedge h *)
Definition co (coords : list Z) (h : Z) : Z := getZ coords (edge h).
(** the faces are triangles and every face carries arcs with the given edge coordinates (t is read along h, next, next) *)
Definition triCarries (m : mesh) (coords : list Z) (h : Z) (t : arcs) : Prop :=
  Planar t /\ coordOf (co coords h) (xIJ t) /\ coordOf (co coords (nx m h)) (xJK t) /\ coordOf (co coords (nx m (nx m h))) (xKI t).
Record Curves (m : mesh) (coords : list Z) : Prop := {
  cv_len : eFill m <= zlen coords;
  cv_small : forall h, liveH m h -> small (co coords h);
  cv_tri : forall h, liveH m h -> ~ ext m h -> nx m (nx m (nx m h)) = h;
  cv_arcs : forall h, liveH m h -> ~ ext m h -> exists t, triCarries m coords h t }.
(** a crossing (h, i): the i-th crossing of the edge of h, counted from the tail of h. The curve crosses from the face of h
    to the face of its twin. *)
Definition crossing m coords (c : Z * Z) : Prop := liveH m (fst c) /\ ~ ext m (tw (fst c)) /\ 0 <= snd c < co coords (fst c).
Definition reversed coords (c : Z * Z) : Z * Z := (tw (fst c), co coords (fst c) - 1 - snd c).
(** where the curve goes in the triangle ijk entered through the edge ij of the twin of h: to the next edge jk, to the third
    edge ki, or to the vertex k *)
Definition arcNext m (t : arcs) (c : Z * Z) : option (Z * Z) :=
  let h := tw (fst c) in
  let p := xIJ t - 1 - snd c in (* position counted from i *)
  match exitAt t p with
  | ToJ => Some (nx m h, snd c)
  | ToI => Some (nx m (nx m h), xKI t - 1 - p)
  | Apex => None
  end.
(** the curve through crossing c continues with crossing d *)
Definition continues m coords (c d : Z * Z) : Prop := exists t, triCarries m coords (tw (fst c)) t /\ arcNext m t c = Some d.
(** the curve ends at the vertex opposite to the edge it just crossed *)
Definition ends m coords (c : Z * Z) : Prop := exists t, triCarries m coords (tw (fst c)) t /\ arcNext m t c = None.

(** a list of crossings following one another along a curve *)
Definition chained m coords (l : list (Z * Z)) : Prop := forall l1 a b l2, l = l1 ++ a :: b :: l2 -> continues m coords a b.
(** how the trace from c0 through l, last crossing c, may end, and what is appended to l *)
Inductive tracedEnd m coords (c0 c : Z * Z) : list (Z * Z) -> Prop :=
| End_vertex : ends m coords c -> tracedEnd m coords c0 c []
| End_closed : continues m coords c c0 -> tracedEnd m coords c0 c [c0]
| End_boundary d : continues m coords c d -> ext m (tw (fst d)) -> tracedEnd m coords c0 c [d].
