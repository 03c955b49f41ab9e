(** Indices of direction fields, src/surface/direction_fields.cpp:407-490 (dir below), and intrinsic mollification,
    src/surface/intrinsic_mollification.cpp (mol below), on meshes with implicit twins. double is R: rounding is not modelled, and int is Z. *)
From Coq Require Import Reals.
From Verif Require Import Base DataModel MeshModel MeshDataModel GeoModel IntrinsicModel EmbeddedModel FrameModel CollapseModel.
Open Scope Z_scope.

(** Vector2::pow(double), include/geometrycentral/utilities/vector2.ipp:109-113: std::pow of a complex number, the exponential of p times its logarithm.
    Not meant for the number zero. *)
Definition cpow (z : V2) (p : R) : V2 := mul2 (fromAngle (p * arg2 z)) (Rpower (norm2d z) p).
(** std::round: halves away from zero *)
Definition roundZ (x : R) : Z := if Rle_dec 0 x then Int_part (x + 1 / 2) else - Int_part (- x + 1 / 2).
(** dir:429-436, 474-478: the angle from x0, transported by rot, to x1 *)
Definition deltaTheta (rot x0 x1 : V2) (nSym : R) : R :=
  let theta0 := arg2 (cmul (cpow rot nSym) x0) in let theta1 := arg2 x1 in (regularizeAngle (theta1 - theta0 + PI) - PI)%R.
(** computeFaceIndex, dir:407-448; transport is transportVectorsAlongHalfedge, K is faceGaussianCurvatures *)
Definition computeFaceIndex (m : mesh) (transport : mdata V2) (K : mdata R) (field : mdata V2) (nSym : R) : res (mdata Z) :=
  let* fs := elements m EFace in
  forEach fs (newData m EFace 0) (fun d f =>
    let* k := dataAt K f in let* hs := faceHalfedges m f in
    let* total := foldM (fun t h =>
      let* b := isInterior m (tw h) in
      if (b : bool) then
        let* v0 := vertexOf m h in let* x0 := dataAt field v0 in let* v1 := vertexOf m (tw h) in let* x1 := dataAt field v1 in
        let* r := dataAt transport h in Ok (t + deltaTheta r x0 x1 nSym)%R
      else Ok t) hs (k * nSym)%R in
    setAt d f (roundZ (total / (2 * PI))%R)).
(** computeVertexIndex, dir:451-490; transport is transportVectorsAcrossHalfedge, K is vertexGaussianCurvatures *)
Definition computeVertexIndex (m : mesh) (transport : mdata V2) (K : mdata R) (field : mdata V2) (nSym : R) : res (mdata Z) :=
  let* vs := elements m EVertex in
  forEach vs (newData m EVertex 0) (fun d v =>
    let* k := dataAt K v in let* b := vIsBoundary m v in
    let* total := (if negb b then
        let* hs := incoming m v in
        foldM (fun t h =>
          let* f0 := faceOf m h in let* x0 := dataAt field f0 in let* f1 := faceOf m (tw h) in let* x1 := dataAt field f1 in
          let* r := dataAt transport h in Ok (t + deltaTheta r x0 x1 nSym)%R) hs (k * nSym)%R
      else Ok (k * nSym)%R) in
    setAt d v (roundZ (total / (2 * PI))%R)).

(** mollifyIntrinsicAbsolute, mol:20-38; interiorHalfedges() visits the indices of corners() *)
Definition mollifyIntrinsicAbsolute (m : mesh) (len : mdata R) (factor : R) : res (mdata R) :=
  let* hs := elements m ECorner in
  let* eps := forEach hs 0%R (fun eps h =>
    let* lA := dataAt len (edge h) in let* h1 := next m h in let* lB := dataAt len (edge h1) in let* h2 := next m h1 in let* lC := dataAt len (edge h2) in
    Ok (Rmax eps (lC - lA - lB + factor))) in
  let* es := elements m EEdge in forEach es len (fun d e => addAt d e eps).
(** mollifyIntrinsic, mol:7-18. With no edges the mean is not a number in the code; the factor is then unused *)
Definition mollifyIntrinsic (m : mesh) (len : mdata R) (factor : R) : res (mdata R) :=
  let* es := elements m EEdge in
  let* sum := forEach es 0%R (fun s e => let* l := dataAt len e in Ok (s + l)%R) in
  let meanEdge := (sum / IZR (nEdges m))%R in mollifyIntrinsicAbsolute m len (meanEdge * factor)%R.
