(** SurfacePoint, include/geometrycentral/surface/surface_point.ipp and src/surface/surface_point.cpp, on a
    ManifoldSurfaceMesh. double is modelled by the reals: arithmetic is exact and there are no NaNs. *)
From Verif Require Import Base MeshModel.
From Coq Require Import Reals.
Open Scope Z_scope.
Open Scope R_scope.

(** surface_point.h:33-45; the fields not used by the type of the point are left out *)
Inductive point := PVertex (v : Z) | PEdge (e : Z) (t : R) | PFace (f : Z) (x y z : R).

(** SurfacePoint(Halfedge, double), :11-12 *)
Definition pointOnHalfedge (h : Z) (t : R) : point := PEdge (edge h) (if (h =? eHe (edge h))%Z then t else 1 - t).

(** inSomeFace, :39-86 *)
Definition inSomeFace (m : mesh) (p : point) : res point :=
  match p with
  | PVertex v =>
    let* he := vHe m v in
    let* f := faceOf m he in
    let* target := fHe m f in
    if (he =? target)%Z then Ok (PFace f 1 0 0) else
    let* he := next m he in
    if (he =? target)%Z then Ok (PFace f 0 0 1) else Ok (PFace f 0 1 0)
  | PEdge e t =>
    let he := eHe e in
    let* f := faceOf m he in
    let* target := fHe m f in
    if (he =? target)%Z then Ok (PFace f (1 - t) t 0) else
    let* he := next m he in
    if (he =? target)%Z then Ok (PFace f t 0 (1 - t)) else Ok (PFace f 0 (1 - t) t)
  | PFace _ _ _ _ => Ok p
  end.

(** bary = zero; bary[i] = a; bary[(i+1)%3] = b. An index of 3 or more, on a face that is not a triangle, writes outside
    the Vector3. *)
Definition setBary (i : nat) (a b : R) : res (R * R * R) :=
  match i with O => Ok (a, b, 0) | 1%nat => Ok (0, a, b) | 2%nat => Ok (b, 0, a) | _ => UB end.
(** position of the first occurrence *)
Fixpoint indexOf (x : Z) (l : list Z) : option nat :=
  match l with [] => None | y :: t => if (y =? x)%Z then Some O else option_map S (indexOf x t) end.
(** inFace, :88-148. The inner loop over the halfedges of the face returns at the first one equal to targetHe. *)
Definition inFace (m : mesh) (p : point) (f : Z) : res point :=
  match p with
  | PVertex v =>
    let* he := fHe m f in
    let* u := vertexOf m he in
    if (u =? v)%Z then Ok (PFace f 1 0 0) else
    let* he := next m he in
    let* u := vertexOf m he in
    if (u =? v)%Z then Ok (PFace f 0 1 0) else
    let* he := next m he in
    let* u := vertexOf m he in
    if (u =? v)%Z then Ok (PFace f 0 0 1) else Throw
  | PEdge e t =>
    let* hs := faceHalfedges m f in
    match indexOf (eHe e) hs with
    | Some i => let* (x, y, z) := setBary i (1 - t) t in Ok (PFace f x y z)
    | None =>
      match indexOf (tw (eHe e)) hs with
      | Some i => let* (x, y, z) := setBary i (1 - (1 - t)) (1 - t) in Ok (PFace f x y z)
      | None => Throw
      end
    end
  | PFace g _ _ _ => if (g =? f)%Z then Ok p else Throw
  end.

(** inEdge, :150-170 *)
Definition inEdge (m : mesh) (p : point) (e : Z) : res point :=
  match p with
  | PVertex v =>
    let* tail := vertexOf m (eHe e) in
    if (v =? tail)%Z then Ok (PEdge e 1) else
    let* n := next m (eHe e) in
    let* tip := vertexOf m n in
    if (v =? tip)%Z then Ok (PEdge e 0) else Throw
  | PEdge e' _ => if (e' =? e)%Z then Ok p else Throw
  | PFace _ _ _ _ => Throw
  end.

(** nearestVertex, :172-198 *)
Definition nearestVertex (m : mesh) (p : point) : res Z :=
  match p with
  | PVertex v => Ok v
  | PEdge e t => if Rlt_dec t (1 / 2) then vertexOf m (eHe e) else vertexOf m (tw (eHe e))
  | PFace f x y z =>
    let* h := fHe m f in
    if Rge_dec x y then
      if Rge_dec x z then vertexOf m h
      else let* h := next m h in let* h := next m h in vertexOf m h (* x >= y and z > x: the second test fails too *)
    else
      let* h := next m h in
      if Rge_dec y z then vertexOf m h else let* h := next m h in vertexOf m h
  end.

(** interpolate, :200-226, of a function on the vertices (reading a VertexData container is the subject of C05-C08) *)
Definition interpolate (m : mesh) (data : Z -> R) (p : point) : res R :=
  match p with
  | PVertex v => Ok (data v)
  | PEdge e t =>
    let* a := vertexOf m (eHe e) in
    let* b := vertexOf m (tw (eHe e)) in
    Ok ((1 - t) * data a + t * data b)
  | PFace f x y z =>
    let* h := fHe m f in
    let* a := vertexOf m h in
    let* h := next m h in
    let* b := vertexOf m h in
    let* h := next m h in
    let* c := vertexOf m h in
    Ok (x * data a + y * data b + z * data c)
  end.

(** ** adjacency, surface_point.cpp; the coordinates play no role *)
Inductive elem := EV (v : Z) | EE (e : Z) | EF (f : Z).
Definition elemOf (p : point) : elem := match p with PVertex v => EV v | PEdge e _ => EE e | PFace f _ _ _ => EF f end.

(** adjacent = false; for x in l: if t x then adjacent = true *)
Definition anyM {A} (t : A -> res bool) (l : list A) : res bool :=
  foldM (fun b x => let* c := t x in Ok (if c then true else b)) l false.
(** VertexAdjacentFaceNavigator: faces of the interior outgoing halfedges *)
Definition adjFaces (m : mesh) (v : Z) : res (list Z) :=
  let* hs := vertHalfedges m v in
  let* fs := mapM (fun h => let* b := isInterior m h in let* f := faceOf m h in Ok (if b then [f] else [])) hs in
  Ok (concat fs).
(** EdgeAdjacentFaceNavigator *)
Definition edgeFaces (m : mesh) (e : Z) : res (list Z) :=
  let* fs := mapM (fun h => let* b := isInterior m h in let* f := faceOf m h in Ok (if b then [f] else [])) [eHe e; tw (eHe e)] in
  Ok (concat fs).
(** the nine overloads, :12-65 *)
Definition adjVV m vA vB := let* hs := vertHalfedges m vA in anyM (fun h => let* n := next m h in let* u := vertexOf m n in Ok (u =? vB)%Z) hs.
Definition adjVE m vA eB := let* hs := vertHalfedges m vA in anyM (fun h => let* n := next m h in Ok ((eB =? edge n)%Z || (eB =? edge h)%Z)) hs.
Definition adjVF m vA fB := let* fs := adjFaces m vA in anyM (fun f => Ok (f =? fB)%Z) fs.
Definition adjEE m eA eB :=
  let* a := faceOf m (eHe eA) in let* a' := faceOf m (tw (eHe eA)) in let* b := faceOf m (eHe eB) in let* b' := faceOf m (tw (eHe eB)) in
  Ok ((a =? b)%Z || (a' =? b)%Z || (a =? b')%Z || (a' =? b')%Z).
Definition adjEF m eA fB := let* hs := faceHalfedges m fB in anyM (fun h => Ok (edge h =? eA)%Z) hs.
(** checkAdjacent, :70-112 *)
Definition checkAdjacent (m : mesh) (a b : elem) : res bool :=
  match a, b with
  | EV v, EV w => adjVV m v w
  | EV v, EE e => adjVE m v e
  | EV v, EF f => adjVF m v f
  | EE e, EV v => adjVE m v e
  | EE e, EE e' => adjEE m e e'
  | EE e, EF f => adjEF m e f
  | EF f, EV v => adjVF m v f
  | EF f, EE e => adjEF m e f
  | EF f, EF g => Ok (f =? g)%Z
  end.

(** first element satisfying a test *)
Fixpoint firstM (t : Z -> res bool) (l : list Z) : res (option Z) :=
  match l with [] => Ok None | x :: l => let* b := t x in if b then Ok (Some x) else firstM t l end.
(** sharedFace, surface_point.ipp:278-303; None is the null face *)
Definition sharedFace (m : mesh) (a b : elem) : res (option Z) :=
  match a with
  | EV v => let* fs := adjFaces m v in firstM (fun f => checkAdjacent m (EF f) b) fs
  | EE e => let* fs := edgeFaces m e in firstM (fun f => checkAdjacent m (EF f) b) fs
  | EF f => let* c := checkAdjacent m a b in Ok (if c then Some f else None)
  end.
(** sharedEdge, :305-347; on a manifold mesh adjacentEdges() runs over the edges of the outgoing halfedges *)
Definition sharedEdge (m : mesh) (a b : elem) : res (option Z) :=
  match a, b with
  | EV v, EV w =>
    let* hs := vertHalfedges m v in
    let* r := firstM (fun h => let* n := next m h in let* u := vertexOf m n in Ok (u =? w)%Z) hs in Ok (option_map edge r)
  | EV v, EE e => let* hs := vertHalfedges m v in let* r := firstM (fun h => Ok (edge h =? e)%Z) hs in Ok (option_map edge r)
  | EE e, EV v => let* hs := vertHalfedges m v in let* r := firstM (fun h => Ok (edge h =? e)%Z) hs in Ok (option_map edge r)
  | EE e, EE e' => Ok (if (e =? e')%Z then Some e else None)
  | _, _ => Ok None
  end.
