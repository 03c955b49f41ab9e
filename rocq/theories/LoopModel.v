(** Loop subdivision, src/surface/subdivide.cpp (sub below), on meshes with implicit twins. double is R: rounding is not modelled. The containers of the
    function are functions of the element (SubdivModel). *)
From Coq Require Import Reals.
From Verif Require Import Base MeshModel MeshModel2 MeshCompressModel MeshDataModel CollapseModel CountModel GeoModel IntrinsicModel FastModel SubdivModel.
Open Scope Z_scope.

(** sub:197-203. adjacentVertices() visits the heads of the outgoing halfedges (adjVertices) *)
Definition loopVertexPoint (m : mesh) (pos : Z -> V3) (v : Z) : res V3 :=
  let* hs := vertHalfedges m v in let n := IZR (zlen hs) in
  let u := (if zlen hs =? 3 then 3 / 16 else 3 / (8 * n))%R in
  let* ws := adjVertices m v in
  Ok (fold_left (fun s w => add3 s (mul3 (pos w) u)) ws (mul3 (pos v) (1 - n * u)%R)).
(** sub:206-215 *)
Definition loopEdgePoint (m : mesh) (pos : Z -> V3) (e : Z) : res V3 :=
  let* bd := eIsBoundary m e in
  let* tail := vertexOf m (eHe e) in let* n := next m (eHe e) in let* tip := vertexOf m n in
  if (bd : bool) then Ok (div3 (add3 (pos tail) (pos tip)) 2%R) else
  let* nn := next m n in let* s0 := vertexOf m nn in
  let* t := next m (tw (eHe e)) in let* tn := next m t in let* s1 := vertexOf m tn in
  Ok (add3 (mul3 (add3 (pos tail) (pos tip)) (3 / 8)%R) (mul3 (add3 (pos s0) (pos s1)) (1 / 8)%R)).

(** the mesh, isOrigVert, isOrigEdge, newPositions and toFlip *)
Record looping := mkLoop { lM : mesh; lV : Z -> bool; lE : Z -> bool; lP : Z -> V3; lFlip : list Z }.
(** sub:234-244: one edge at the new vertex *)
Definition markEdge (newV oldA oldB : Z) (r : looping) (h : Z) : res looping :=
  let e := edge h in let oe := setf (lE r) e false in
  let* other := otherVertex (lM r) e newV in
  Ok (mkLoop (lM r) (lV r) oe (lP r) (if lV r other && negb (other =? oldA) && negb (other =? oldB) then lFlip r ++ [e] else lFlip r)).
(** sub:219-245. mm.splitEdge of a manager without constraints and policies of its own (mutation_manager.cpp:153-191) is splitEdgeTriangular; it also
    writes the position into geo, which is read no more. A manager with constraints is not modelled *)
Definition splitLoop (edgePt : Z -> V3) (r : looping) (e : Z) : res looping :=
  if negb (lE r e) then Ok r else
  let* n := next (lM r) (eHe e) in let* oldA := vertexOf (lM r) n in let* oldB := vertexOf (lM r) (eHe e) in
  let* (m, he) := splitEdgeTriangular (lM r) e in
  let* newV := vertexOf m he in
  let* hs := vertHalfedges m newV in
  foldM (markEdge newV oldA oldB) hs (mkLoop m (setf (lV r) newV false) (lE r) (setf (lP r) newV (edgePt e)) (lFlip r)).
(** the range-for of sub:219 (see visitAll of SubdivModel) *)
Definition splitAll (edgePt : Z -> V3) (r : looping) : res looping :=
  foldM (fun r i => if okayAt (lM r) EEdge i then splitLoop edgePt r (Z.of_nat i) else Ok r) (seq 0 (Z.to_nat (fillOf (lM r) EEdge))) r.
(** sub:247-249; the second argument of flip is true by default, manifold_surface_mesh.h *)
Definition flipAll (m : mesh) (es : list Z) : res mesh := foldM (fun m e => let* (m, _) := flip m e true in Ok m) es m.
(** sub:218-253 *)
Definition loopSplit (m : mesh) (pos edgePt : Z -> V3) : res (mesh * (Z -> V3)) :=
  let all := fun _ : Z => true in
  let* r := splitAll edgePt (mkLoop m all all pos []) in
  let* g := flipAll (lM r) (lFlip r) in
  let* m' := compress g in Ok (m', afterCompress g m' (lP r)).
(** loopSubdivide, sub:181-254 *)
Definition loopSubdivide (m : mesh) (pos : Z -> V3) : res (mesh * (Z -> V3)) :=
  let* t := isTriangular m in let* _ := guard t in
  let* vs := elements m EVertex in let* newPos := tabulate vs (loopVertexPoint m pos) (fun _ => zero) in
  let* es := elements m EEdge in let* edgePt := tabulate es (loopEdgePoint m pos) (fun _ => zero) in
  loopSplit m newPos edgePt.
