(** Model of src/surface/mesh_graph_algorithms.cpp:14-129: shortestEdgePath and vertexDijkstraDistanceWithinRadius on an
    implicit-twin mesh.
    The double lengths are elements of an arbitrary type of weights with a comparison and an addition (GraphSpec.v says
    which laws are assumed of them; they hold for exact and for correctly rounded arithmetic without NaN).
    geom.edgeLengths is a function from edges to weights. geom.requireEdgeLengths()/unrequireEdgeLengths() add one to and
    subtract one from a counter, as RequireQuantity does in QuantityModel.v. *)
From Verif Require Import Base MeshModel.
Open Scope Z_scope.

Record weights := mkWeights { wt : Type; w0 : wt; wle : wt -> wt -> bool; wadd : wt -> wt -> wt }.

Section Model.
Context (W : weights).

(** std::tuple<double, Element>: operator< is lexicographic, elements compare by index (utilities/element.ipp:27-33) *)
Definition item : Type := (wt W * Z)%type.
Definition wlt (a b : wt W) : bool := negb (wle W b a).
Definition itemLt (x y : item) : bool := wlt (fst x) (fst y) || (negb (wlt (fst y) (fst x)) && (snd x <? snd y)).
(** std::priority_queue with std::greater: top() and pop() give the least entry. Kept as an unordered list. *)
Fixpoint popMin (q : list item) : option (item * list item) :=
  match q with
  | [] => None
  | x :: r => match popMin r with
              | None => Some (x, [])
              | Some (y, r') => if itemLt y x then Some (y, x :: r') else Some (x, y :: r')
              end
  end.

(** std::unordered_map keyed by vertices *)
Fixpoint lookup {A} (l : list (Z * A)) (v : Z) : option A :=
  match l with [] => None | (u, a) :: r => if u =? v then Some a else lookup r v end.
Definition present {A} (l : list (Z * A)) (v : Z) : bool := match lookup l v with Some _ => true | None => false end.

(** vertexDiscovered, :33-35 *)
Definition discovered (start : Z) (inc : list (Z * Z)) (v : Z) : bool := (v =? start) || present inc v.
(** enqueueVertexNeighbors, :36-44 *)
Definition enqueue (m : mesh) (len : Z -> wt W) (start : Z) (inc : list (Z * Z)) (q : list item) (v : Z) (dist : wt W) : res (list item) :=
  let* hs := vertHalfedges m v in
  foldM (fun q h => let* t := vertexOf m (tw h) in
                    if discovered start inc t then Ok q else Ok ((wadd W dist (len (edge h)), h) :: q)) hs q.
(** the walk back, :64-72; incomingHalfedge[walkV] on an absent key would insert an invalid halfedge: UB *)
Fixpoint walkBack (fuel : nat) (m : mesh) (start : Z) (inc : list (Z * Z)) (v : Z) (path : list Z) : res (list Z) :=
  match fuel with
  | O => UB
  | S k => if v =? start then Ok path else
           match lookup inc v with
           | None => UB
           | Some h => let* u := vertexOf m h in walkBack k m start inc u (h :: path)
           end
  end.
(** the main loop, :49-84 *)
Fixpoint pathLoop (fuel : nat) (m : mesh) (len : Z -> wt W) (start goal : Z) (inc : list (Z * Z)) (q : list item) : res (list Z) :=
  match fuel with
  | O => UB
  | S k => match popMin q with
           | None => Ok []
           | Some ((d, h), q) =>
             let* v := vertexOf m (tw h) in
             if discovered start inc v then pathLoop k m len start goal inc q else
             let inc := (v, h) :: inc in
             if v =? goal then walkBack (S (length inc)) m start inc v [] else
             let* q := enqueue m len start inc q v d in
             pathLoop k m len start goal inc q
           end
  end.
(** shortestEdgePath, :14-85. [c] is the number of outstanding requests for edge lengths; the new number is returned.
    Every halfedge slot is pushed at most once, so the loop is given that much fuel. *)
Definition shortestEdgePath (m : mesh) (len : Z -> wt W) (c : Z) (start goal : Z) : res (list Z * Z) :=
  if start =? goal then Ok ([], c) else
  let c := c + 1 in
  let* q := enqueue m len start [] [] start (w0 W) in
  let* p := pathLoop (S (Z.to_nat (heFill m))) m len start goal [] q in
  Ok (p, c - 1).

(** Edge::otherVertex, halfedge_element_types.ipp:300-306 *)
Definition otherVertex (m : mesh) (e v : Z) : res Z :=
  let* a := vertexOf m (eHe e) in
  if a =? v then let* n := next m (eHe e) in vertexOf m n else vertexOf m (eHe e).
(** vertexDijkstraDistanceWithinRadius, :88-129; adjacentEdges of an implicit-twin mesh walks the outgoing halfedges
    (halfedge_element_types.ipp:138-203) *)
Fixpoint ballLoop (fuel : nat) (m : mesh) (len : Z -> wt W) (rad : wt W) (dist : list (Z * wt W)) (q : list item) : res (list (Z * wt W)) :=
  match fuel with
  | O => UB
  | S k => match popMin q with
           | None => Ok dist
           | Some ((d, v), q) =>
             if present dist v then ballLoop k m len rad dist q else
             let dist := (v, d) :: dist in
             let* hs := vertHalfedges m v in
             let* q := foldM (fun q h =>
               let* t := otherVertex m (edge h) v in
               let td := wadd W d (len (edge h)) in
               if wle W td rad && negb (present dist t) then Ok ((td, t) :: q) else Ok q) hs q in
             ballLoop k m len rad dist q
           end
  end.
Definition vertexDijkstraDistanceWithinRadius (m : mesh) (len : Z -> wt W) (c : Z) (start : Z) (rad : wt W) : res (list (Z * wt W) * Z) :=
  let c := c + 1 in
  let* d := ballLoop (S (S (Z.to_nat (heFill m)))) m len rad [] [(w0 W, start)] in
  Ok (d, c).
End Model.
Arguments lookup {A} l v. Arguments present {A} l v.
