(** src/surface/marching_triangles.cpp on a ManifoldSurfaceMesh. double is modelled by the reals (see GeoModel.v). *)
From Verif Require Import Base MeshModel PointModel GeoModel BaryModel.
From Coq Require Import Reals.

(** ** getCurveComponents, :8-60 *)
Section Curves.
Context {N : Type} (eqb : N -> N -> bool).
Definition seg : Type := (nat * nat)%type.
(** the inner loops over edgesToAdd: the first segment whose selected end is at [x] is removed and returned *)
Fixpoint takeSeg (nodes : list N) (sel : seg -> nat) (x : N) (l : list seg) : res (option (seg * list seg)) :=
  match l with
  | [] => Ok None
  | s :: r =>
    let* n := rd nodes (sel s) in
    if eqb n x then Ok (Some (s, r)) else
    let* o := takeSeg nodes sel x r in
    Ok (match o with Some (t, r') => Some (t, s :: r') | None => None end)
  end.
(** :23-38, "add segs to the front end until we can't": the segments appended, in order, and what is left *)
Fixpoint growFront (fuel : nat) (nodes : list N) (cur : seg) (l : list seg) : res (list seg * list seg) :=
  match fuel with
  | O => UB
  | S k =>
    let* x := rd nodes (snd cur) in
    let* o := takeSeg nodes fst x l in
    match o with
    | None => Ok ([], l)
    | Some (s, r) => let* (c, r) := growFront k nodes s r in Ok (s :: c, r)
    end
  end.
(** :41-57, at the back end: the segments inserted before the curve *)
Fixpoint growBack (fuel : nat) (nodes : list N) (cur : seg) (l : list seg) : res (list seg * list seg) :=
  match fuel with
  | O => UB
  | S k =>
    let* x := rd nodes (fst cur) in
    let* o := takeSeg nodes snd x l in
    match o with
    | None => Ok ([], l)
    | Some (s, r) => let* (c, r) := growBack k nodes s r in Ok (c ++ [s], r)
    end
  end.
(** :15-59; every pass removes a segment. back() and pop_back() take the last one. *)
Fixpoint components (fuel : nat) (nodes : list N) (l : list seg) : res (list (list seg)) :=
  match rev l with
  | [] => Ok []
  | s :: r =>
    match fuel with
    | O => UB
    | S k =>
      let l := rev r in
      let* (front, l) := growFront (S (length l)) nodes s l in
      let* (back, l) := growBack (S (length l)) nodes s l in
      let* cs := components k nodes l in
      Ok ((back ++ s :: front) :: cs)
    end
  end.
Definition getCurveComponents (nodes : list N) (edges : list seg) : res (list (list seg)) := components (length edges) nodes edges.
(** :115-124 *)
Definition curveNodes (nodes : list N) (c : list seg) : res (list N) :=
  let* a := mapM (fun s => rd nodes (fst s)) c in
  match rev c with [] => UB | s :: _ => let* z := rd nodes (snd s) in Ok (a ++ [z]) end.
End Curves.

Open Scope Z_scope.
(** SurfacePoint::operator==, surface_point.ipp:257-274 *)
Definition Reqb (a b : R) : bool := if Req_EM_T a b then true else false.
Definition pointEqb (p q : point) : bool :=
  match p, q with
  | PVertex v, PVertex w => v =? w
  | PEdge e t, PEdge e' t' => (e =? e') && Reqb t t'
  | PFace f x y z, PFace g x' y' z' => (f =? g) && (Reqb x x' && Reqb y y' && Reqb z z')
  | _, _ => false
  end.
(** the loop over the halfedges of one face, :71-93. Where lB = uB and the level is another one the quotient is an
    infinity, and neither comparison holds. *)
Fixpoint scanFace (m : mesh) (len u : Z -> R) (iso : R) (f : Z) (hs : list Z) (hits : list point) (gradient : bvec) : res (list point * bvec) :=
  match hs with
  | [] => Ok (hits, gradient)
  | he :: r =>
    let e := edge he in
    let* v0 := vertexOf m (eHe e) in
    let* n := next m (eHe e) in
    let* v1 := vertexOf m n in
    let u0 := u v0 in
    let u1 := u v1 in
    let lB := Rmin u0 u1 in
    let uB := Rmax u0 u1 in
    if Reqb lB uB && Reqb lB iso then Ok ([PVertex v0; PVertex v1], gradient) else
    let hits :=
      if Reqb lB uB then hits else
      let t := ((iso - lB) / (uB - lB))%R in
      let t := if Rgt_dec u0 u1 then (1 - t)%R else t in
      if Rle_dec t 1 then if Rge_dec t 0 then hits ++ [PEdge e t] else hits else hits in
    let* n := next m he in
    let* heVec := bvHalfedge m n f in
    let* ePerp := bvRotate90 m len heVec in
    let* v := vertexOf m he in
    let* gradient := bvAdd m gradient (bvScale (u v) ePerp) in
    scanFace m len u iso f r hits gradient
  end.
(** std::find, and push_back when the node is new, :98-106 *)
Fixpoint findNode (p : point) (nodes : list point) (i : nat) : option nat :=
  match nodes with [] => None | q :: r => if pointEqb q p then Some i else findNode p r (S i) end.
Definition addNode (nodes : list point) (p : point) : list point * nat :=
  match findNode p nodes 0 with Some i => (nodes, i) | None => (nodes ++ [p], length nodes) end.
(** one face, :67-114 *)
Definition marchFace (m : mesh) (len u : Z -> R) (iso : R) (s : list point * list seg) (f : Z) : res (list point * list seg) :=
  let '(nodes, edges) := s in
  let* hs := faceHalfedges m f in
  let* (hits, gradient) := scanFace m len u iso f hs [] (BFace f 0 0 0) in
  match hits with
  | [p; q] =>
    let '(nodes, i) := addNode nodes p in
    let '(nodes, j) := addNode nodes q in
    let* tangent := bvBetween m p q in
    let* tf := bvInFace m tangent f in
    let* r := bvRotate90 m len tf in
    let normal := bvNeg r in
    let* d := bvDot m len normal gradient in
    Ok (nodes, edges ++ [if Rgt_dec d 0 then (i, j) else (j, i)])
  | _ => Ok (nodes, edges)
  end.
(** mesh.faces(): the live faces in order of their indices *)
Definition faceIter (m : mesh) : list Z := filter (fun f => negb (getZ (fHalfedge m) f =? INVALID)) (zseq (fFill m)).
Definition marchingTriangles (m : mesh) (len u : Z -> R) (iso : R) : res (list (list point)) :=
  let* (nodes, edges) := foldM (marchFace m len u iso) (faceIter m) ([], []) in
  let* cs := getCurveComponents pointEqb nodes edges in
  mapM (curveNodes nodes) cs.
