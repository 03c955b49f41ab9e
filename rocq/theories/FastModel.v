(** Fast marching, src/surface/fast_marching_method.cpp (fmm below), without signs (sign = false: every sign is 1), on meshes with implicit twins,
    which pass the manifold test fmm:62-65. double is R: rounding is not modelled; an infinite distance is None. The four VertexData of the function are
    functions of the vertex here: they are only read and written at vertices of the mesh. *)
From Coq Require Import Reals.
From Verif Require Import Base DataModel MeshModel MeshDataModel IntrinsicModel EmbeddedModel FrameModel CollapseModel PointModel.
Open Scope R_scope.

(** eikonalDistanceSubroutine, fmm:14-47, with sign 1. If dA is infinite the quadratic branch computes with NaN and infinities and its test fails, and the
    minimum is the one finite term, with either branch; likewise if the discriminant is negative (NaN) or t is zero (y is infinite or NaN). A right
    angle has cTheta = 0 and the bound a / cTheta infinite. *)
Definition eikonal (a b theta : R) (dA : option R) (dB : R) : R :=
  match dA with
  | None => a + dB
  | Some dA =>
    if Rle_dec theta (PI / 2) then
      let u := dB - dA in let cTheta := cos theta in let sTheta2 := 1 - cTheta * cTheta in
      let quadA := a * a + b * b - 2 * a * b * cTheta in let quadB := 2 * b * u * (a * cTheta - b) in let quadC := b * b * (u * u - a * a * sTheta2) in
      let disc := quadB * quadB - 4 * quadA * quadC in
      let fallback := Rmin (b + dA) (a + dB) in
      if Rlt_dec disc 0 then fallback else
      let t := (- quadB + sqrt disc) / (2 * quadA) in
      if Req_EM_T t 0 then fallback else
      let y := b * (t - u) / t in
      if Rlt_dec u t then if Rlt_dec (a * cTheta) y then
        if Req_EM_T cTheta 0 then dA + t else if Rlt_dec y (a / cTheta) then dA + t else fallback
      else fallback else fallback
    else
      let maxDist := Rmax dA dB in let c := sqrt (a * a + b * b - 2 * a * b * cos theta) in let area := 1 / 2 * sin theta * a * b in
      let altitude := 2 * area / c in let baseDist := maxDist + altitude in
      Rmin (Rmin (b + dA) (a + dB)) baseDist
  end.

(** std::pair<double, Vertex>; the queue frontierPQ as a list without order *)
Definition entry : Type := (R * Z)%type.
(** the variables of the search: distances, finalized, the queue and nFound *)
Record search := mkSearch { sDist : Z -> option R; sFin : Z -> bool; sQ : list entry; sFound : Z }.
Definition setf {A} (f : Z -> A) (v : Z) (x : A) (u : Z) : A := if (u =? v)%Z then x else f u.

(** fmm:216-219 and, with other distances, 236-239 and 257-260: keep a better distance and queue the vertex *)
Definition offer (s : search) (v : Z) (nd : R) : search :=
  let put := mkSearch (setf (sDist s) v (Some nd)) (sFin s) ((nd, v) :: sQ s) (sFound s) in
  match sDist s v with None => put | Some d => if Rlt_dec nd d then put else s end.

Section Run.
Context (m : mesh) (len angles : mdata R) (src : Z -> bool).
(** fmm:225-241 (left) and 246-262 (right), which differ in which side is lenA: the third vertex of the triangle of halfedge g, whose corner is that of
    the halfedge after the next. heB is the side to neighVert, heA the one to currV *)
Definition third (s : search) (g heA heB neigh : Z) (currDist : R) : res search :=
  let* g1 := next m g in let* g2 := next m g1 in let* nv := vertexOf m g2 in
  if (negb (sFin s nv) && negb (src nv))%bool then
    let* lenB := dataAt len (edge heB) in let* lenA := dataAt len (edge heA) in let* theta := dataAt angles g2 in
    Ok (offer s nv (eikonal lenA lenB theta (sDist s neigh) currDist))
  else Ok s.
(** fmm:209-263: the body of the loop over incoming halfedges *)
Definition visit (currDist : R) (s : search) (he : Z) : res search :=
  let* neigh := vertexOf m he in
  if (negb (sFin s neigh) && negb (src neigh))%bool then let* l := dataAt len (edge he) in Ok (offer s neigh (currDist + l)) else
  let* i := isInterior m he in
  let* s := (if (i : bool) then let* h1 := next m he in let* h2 := next m h1 in third s he h1 h2 neigh currDist else Ok s) in
  let heT := tw he in
  let* j := isInterior m heT in
  (if (j : bool) then let* t1 := next m heT in let* t2 := next m t1 in third s heT t2 t1 neigh currDist else Ok s).
(** the search, fmm:188-264. pick says which of the entries the heap yields; nothing but that it is one with the least distance is used (cmp, fmm:73-80) *)
Fixpoint searchLoop (fuel : nat) (pick : list entry -> nat) (s : search) : option (res search) :=
  match fuel with
  | O => None
  | S k =>
    if (nVertices m <=? sFound s)%Z then Some (Ok s) else
    match nth_error (sQ s) (pick (sQ s)) with
    | None => Some (Ok s)
    | Some (currDist, currV) =>
      let s := mkSearch (sDist s) (sFin s) (firstn (pick (sQ s)) (sQ s) ++ skipn (S (pick (sQ s))) (sQ s)) (sFound s) in
      if sFin s currV then searchLoop k pick s else
      let s := mkSearch (setf (sDist s) currV (Some currDist)) (setf (sFin s) currV true) (sQ s) (sFound s + 1) in
      match (let* hs := incoming m currV in foldM (visit currDist) hs s) with
      | Ok s => searchLoop k pick s
      | bad => Some bad
      end
    end
  end.
End Run.

(** fmm:140-187: the entries pushed for one point of the input *)
Definition pushes (m : mesh) (len : mdata R) (p : point * R) : res (list entry) :=
  let (p, x) := p in
  match p with
  | PVertex v => Ok [(x, v)]
  | PEdge e t =>
    let* vA := vertexOf m (eHe e) in let* vB := vertexOf m (tw (eHe e)) in let* l := dataAt len e in
    Ok [(x + t * l, vA); (x + (1 - t) * l, vB)]
  | PFace f u v w =>
    let* he := fHe m f in let* h1 := next m he in let* h2 := next m h1 in
    let* vA := vertexOf m he in let* vB := vertexOf m h1 in let* vC := vertexOf m h2 in
    let* lAB := dataAt len (edge he) in let* lBC := dataAt len (edge h1) in let* lCA := dataAt len (edge h2) in
    let lAB2 := lAB * lAB in let lBC2 := lBC * lBC in let lCA2 := lCA * lCA in
    let dist2A := lAB2 * (v * (1 - u)) + lCA2 * (w * (1 - u)) - lAB2 * v * w in
    let dist2B := lAB2 * (u * (1 - v)) + lBC2 * (w * (1 - v)) - lCA2 * u * w in
    let dist2C := lCA2 * (u * (1 - w)) + lBC2 * (v * (1 - w)) - lBC2 * u * v in
    Ok [(x + sqrt dist2A, vA); (x + sqrt dist2B, vB); (x + sqrt dist2C, vC)]
  end.
(** FMMDistance, fmm:52-267; None means that the loop needs more fuel *)
Definition fmmDistance (fuel : nat) (pick : list entry -> nat) (m : mesh) (len angles : mdata R) (curves : list (list (point * R))) : option (res (Z -> option R)) :=
  match mapM (pushes m len) (concat curves) with
  | Ok qs =>
    let q := rev (concat qs) in let src v := existsb (fun e => (snd e =? v)%Z) q in
    match searchLoop m len angles src fuel pick (mkSearch (fun _ => None) (fun _ => false) q 0) with
    | Some r => Some (let* s := r in Ok (sDist s))
    | None => None
    end
  | Throw => Some Throw
  | UB => Some UB
  end.
(** the overload for vertices, fmm:270-280 *)
Definition fmmFromVertices (fuel : nat) (pick : list entry -> nat) (m : mesh) (len angles : mdata R) (sources : list (Z * R)) : option (res (Z -> option R)) :=
  fmmDistance fuel pick m len angles [map (fun s => (PVertex (fst s), snd s)) sources].
