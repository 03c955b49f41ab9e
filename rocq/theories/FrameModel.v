(** Tangent frames and curvature directions of a positioned mesh: src/surface/embedded_geometry_interface.cpp (emb below) and
    src/surface/extrinsic_geometry_interface.cpp (ext below); meshes with implicit twins. double is R: rounding is not modelled. *)
From Coq Require Import Reals.
From Verif Require Import Base DataModel MeshModel MeshDataModel GeoModel IntrinsicModel EmbeddedModel.
Open Scope Z_scope.

(** Vector2::arg, include/geometrycentral/utilities/vector2.ipp:126 *)
Definition arg2 (v : V2) : R := atan2 (py v) (px v).
(** emb:163-167, 203-208: the vector of halfedge h projected to the plane orthogonal to N and turned back by the angle of its intrinsic vector *)
Definition backToX (m : mesh) (pos : mdata V3) (vec : mdata V2) (N : V3) (h : Z) : res V3 :=
  let* n := next m h in let* b := posOf m pos n in let* a := posOf m pos h in
  let e := removeComponent (sub3 b a) N in
  let* x := dataAt vec h in Ok (rotateAround e N (- arg2 x)%R).
(** emb:175-177, 213-215 *)
Definition frameOf (N sum : V3) : V3 * V3 := let x := normalize3 sum in (x, cross3 N x).
(** emb:161-173: the loop stops after the first halfedge of a triangle *)
Fixpoint frame_loop (m : mesh) (pos : mdata V3) (vec : mdata V2) (N : V3) (isTri : bool) (hs : list Z) (s : V3) : res V3 :=
  match hs with
  | [] => Ok s
  | h :: t => let* x := backToX m pos vec N h in let s := add3 s x in if isTri then Ok s else frame_loop m pos vec N isTri t s
  end.
(** computeFaceTangentBasis, emb:137-179 *)
Definition faceTangentBasis (m : mesh) (pos normals : mdata V3) (vec : mdata V2) : res (mdata (V3 * V3)) :=
  let* fs := elements m EFace in
  forEach fs (newData m EFace (mk3 0 0 0, mk3 0 0 0)) (fun d f =>
    let* N := dataAt normals f in let* b := isTriangle m f in let* hs := faceHalfedges m f in
    let* s := frame_loop m pos vec N b hs (mk3 0 0 0) in setAt d f (frameOf N s)).
(** computeVertexTangentBasis, emb:184-217 *)
Definition vertexTangentBasis (m : mesh) (pos normals : mdata V3) (vec : mdata V2) : res (mdata (V3 * V3)) :=
  let* vs := elements m EVertex in
  forEach vs (newData m EVertex (mk3 0 0 0, mk3 0 0 0)) (fun d v =>
    let* N := dataAt normals v in let* hs := vertHalfedges m v in
    let* s := foldM (fun s h => let* x := backToX m pos vec N h in Ok (add3 s x)) hs (mk3 0 0 0) in setAt d v (frameOf N s)).

(** ext:122-125, 149-152 *)
Definition bendTerm (len alpha : mdata R) (vec : mdata V2) (s : V2) (h : Z) : res V2 :=
  let* l := dataAt len (edge h) in let* a := dataAt alpha (edge h) in let* u := dataAt vec h in
  Ok (add2 s (mul2 (div2 (cmul (neg2 u) u) l) a)).
(** computeVertexPrincipalCurvatureDirections, ext:112-130 *)
Definition vertexCurvatureDirections (m : mesh) (len alpha : mdata R) (vec : mdata V2) : res (mdata V2) :=
  let* vs := elements m EVertex in
  forEach vs (newData m EVertex (mk2 0 0)) (fun d v =>
    let* hs := vertHalfedges m v in let* s := foldM (bendTerm len alpha vec) hs (mk2 0 0) in setAt d v (div2 s 4)).
(** computeFacePrincipalCurvatureDirections, ext:139-157 *)
Definition faceCurvatureDirections (m : mesh) (len alpha : mdata R) (vec : mdata V2) : res (mdata V2) :=
  let* fs := elements m EFace in
  forEach fs (newData m EFace (mk2 0 0)) (fun d f =>
    let* hs := faceHalfedges m f in let* s := foldM (bendTerm len alpha vec) hs (mk2 0 0) in setAt d f (div2 s 4)).
