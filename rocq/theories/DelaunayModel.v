(** Intrinsic edge flipping until Delaunay: flipToDelaunay (src/surface/simple_idt.cpp:11-189) and
    IntrinsicTriangulation::flipToDelaunay (src/surface/intrinsic_triangulation.cpp:330-368) with its two
    flipEdgeIfNotDelaunay (integer_coordinates_intrinsic_triangulation.cpp:380-437, signpost_intrinsic_triangulation.cpp:278-322)
    and isDelaunay (intrinsic_triangulation.cpp:96-110), on manifold meshes.

    The same queue loop is written out in both files; what differs is a [policy]. Edge data (lengths, the inQueue flags,
    marked edges) are functions of the edge index: a flip changes no capacity, so their storage is not modelled. The
    data that the triangulation classes update beside the lengths (normal coordinates: NormalModel.v, signpost angles, face
    bases, callbacks) are not read by the loop and left out. The number type [T] is a parameter of the loop. *)
From Verif Require Import Base MeshModel GeoModel.
From Coq Require Import Reals.
Open Scope Z_scope.

Section Loop.
Context {T : Type}.
Definition T3 : Type := T * T * T.

Record policy := {
  pThrow : bool;                      (* a boundary edge raises an error (simple_idt.cpp:122) instead of being skipped *)
  pFixed : Z -> bool;                 (* marked edges, intrinsic_triangulation.ipp:8-12; none in simple_idt.cpp *)
  pTri : bool;                        (* GC_SAFETY_ASSERT(he == heI), simple_idt.cpp:74, edge_length_geometry.ipp:72 *)
  pBad : T3 * T3 -> T3 * T3 -> bool;  (* flip wanted? for each side of the edge, the lengths from that side on, and from face.halfedge() on *)
  pLen : T -> T -> T -> T -> T -> T;  (* new length from l01 l12 l23 l30 l02 *)
  pFin : T -> bool }.                 (* std::isfinite *)
Context (P : policy).

Definition triple (m : mesh) (len : Z -> T) (h : Z) : res T3 :=
  let* h2 := next m h in let* h3 := next m h2 in
  Ok (len (edge h), len (edge h2), len (edge h3)).
(** lengths around the face of h: simple_idt.cpp:56-83, 96-99, edge_length_geometry.ipp:9-27, 59-79 *)
Definition sideLens (m : mesh) (len : Z -> T) (h : Z) : res (T3 * T3) :=
  let* t := triple m len h in
  let* h2 := next m h in let* h3 := next m h2 in let* h4 := next m h3 in
  let* _ := guard (negb (pTri P) || (h4 =? h)) in
  let* f := faceOf m h in let* g := fHe m f in
  let* u := triple m len g in
  Ok (t, u).
Definition setLen (len : Z -> T) (e : Z) (l : T) : Z -> T := fun x => if x =? e then l else len x.

(** flipEdgeIfNotDelaunay; None: not flipped *)
Definition flipIfBad (m : mesh) (len : Z -> T) (e : Z) : res (option (mesh * (Z -> T))) :=
  let* bd := eIsBoundary m e in
  if (bd : bool) then (if pThrow P then Throw else Ok None) else
  if pFixed P e then Ok None else
  let* sa := sideLens m len (eHe e) in let* sb := sideLens m len (tw (eHe e)) in
  if negb (pBad P sa sb) then Ok None else
  let '((l02, l01, l12), _) := sa in let '((_, l23, l30), _) := sb in
  let newLength := pLen P l01 l12 l23 l30 l02 in
  if negb (pFin P newLength) then Ok None else
  let* (m', flipped) := flip m e false in
  if (flipped : bool) then Ok (Some (m', setLen len e newLength)) else Ok None.

(** the neighbours that are not in the queue enter it, simple_idt.cpp:176-183 *)
Definition enqueue (st : list Z * (Z -> bool)) (e : Z) : list Z * (Z -> bool) :=
  let (q, inq) := st in if inq e then st else (q ++ [e], fun x => if x =? e then true else inq x).
(** the while loop, :159-184; None: out of fuel *)
Fixpoint drain (fuel : nat) (m : mesh) (len : Z -> T) (q : list Z) (inq : Z -> bool) (n : Z) : res (option (mesh * (Z -> T) * Z)) :=
  match q with
  | [] => Ok (Some (m, len, n))
  | e :: q =>
    match fuel with
    | O => Ok None
    | S k =>
      let inq := fun x => if x =? e then false else inq x in
      let* r := flipIfBad m len e in
      match r with
      | None => drain k m len q inq n
      | Some (m, len) =>
        let he := eHe e in let* heN := next m he in let heT := tw he in let* heTN := next m heT in
        let* a := next m heN in let* b := next m heTN in
        let (q, inq) := fold_left enqueue [edge heN; edge a; edge heTN; edge b] (q, inq) in
        drain k m len q inq (n + 1)
      end
    end
  end.
(** mesh.edges(): the edges that are not deleted, in order *)
Definition liveEdges (m : mesh) : list Z := filter (fun e => negb (getZ (heNext m) (2 * e) =? INVALID)) (zseq (eFill m)).
Definition flipLoop (fuel : nat) (m : mesh) (len : Z -> T) := drain fuel m len (liveEdges m) (fun _ => true) 0.
End Loop.
Arguments policy : clear implicits.

(** ** the policies, over the reals *)
Open Scope R_scope.
(** simple_idt.cpp:66-83, edge_length_geometry.ipp:59-79 *)
Definition halfedgeCotanWeight (s : @T3 R * @T3 R) : R :=
  let '((l_ij, l_jk, l_ki), (a, b, c)) := s in
  let areaV := triangleArea a b c in
  let cotValue := (- l_ij * l_ij + l_jk * l_jk + l_ki * l_ki) / (4 * areaV) in
  cotValue / 2.
Definition edgeCotanWeight (sa sb : @T3 R * @T3 R) : R := halfedgeCotanWeight sa + halfedgeCotanWeight sb.
(** simple_idt.cpp:92-106 *)
Definition hyperbolicTerm (s : @T3 R * @T3 R) (score : R) : R :=
  let '((lA, lB, lC), _) := s in
  let score := score - lA / (lB * lC) in
  let score := score + lB / (lC * lA) in
  score + lC / (lA * lB).
Definition hyperbolicScore (sa sb : @T3 R * @T3 R) : R := hyperbolicTerm sb (hyperbolicTerm sa 0).
(** simple_idt.cpp:43-49, intrinsic_triangulation.ipp:43-78 *)
Definition layoutLen (l01 l12 l23 l30 l02 : R) : R :=
  let p3 := mk2 0 0 in let p0 := mk2 l30 0 in
  let p2 := layoutTriangleVertex p3 p0 l02 l23 in
  let p1 := layoutTriangleVertex p2 p0 l01 l12 in
  norm2d (sub2 p1 p3).
(** simple_idt.cpp:37-39 *)
Definition ptolemyLen (l01 l12 l23 l30 l02 : R) : R := (l01 * l23 + l12 * l30) / l02.
Definition ltb (a b : R) : bool := if Rlt_dec a b then true else false.
Definition simplePolicy (hyperbolic : bool) (eps : R) : policy R := {|
  pThrow := true; pFixed := fun _ => false; pTri := negb hyperbolic;
  pBad := fun sa sb => if hyperbolic then ltb (hyperbolicScore sa sb) (- eps) else ltb (edgeCotanWeight sa sb) (- eps);
  pLen := if hyperbolic then ptolemyLen else layoutLen; pFin := fun _ => true |}.
(** integer_coordinates_intrinsic_triangulation.cpp:380-437 with isDelaunay(e), intrinsic_triangulation.cpp:105-110 *)
Definition integerPolicy (marked : Z -> bool) (eps : R) : policy R := {|
  pThrow := false; pFixed := marked; pTri := true; pBad := fun sa sb => ltb (edgeCotanWeight sa sb) (- eps); pLen := layoutLen; pFin := fun _ => true |}.
(** signpost_intrinsic_triangulation.cpp:278-322 *)
Definition signpostPolicy (marked : Z -> bool) (eps : R) : policy R := {|
  pThrow := false; pFixed := marked; pTri := true; pBad := fun sa sb => negb (ltb (- eps) (edgeCotanWeight sa sb)); pLen := layoutLen; pFin := fun _ => true |}.

(** isDelaunay(), intrinsic_triangulation.cpp:96-110 *)
Fixpoint allDelaunay (marked : Z -> bool) (eps : R) (m : mesh) (len : Z -> R) (es : list Z) : res bool :=
  match es with
  | [] => Ok true
  | e :: t =>
    let* bd := eIsBoundary m e in
    let* bad := (if (bd || marked e)%bool then Ok false else
      let* sa := sideLens (integerPolicy marked eps) m len (eHe e) in let* sb := sideLens (integerPolicy marked eps) m len (tw (eHe e)) in
      Ok (ltb (edgeCotanWeight sa sb) (- eps))) in
    if (bad : bool) then Ok false else allDelaunay marked eps m len t
  end.
Definition isDelaunay (marked : Z -> bool) (eps : R) (m : mesh) (len : Z -> R) : res bool := allDelaunay marked eps m len (liveEdges m).
