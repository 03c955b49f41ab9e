(** Operators on polygon meshes: src/surface/embedded_geometry_interface.cpp (emb below) and src/surface/polygon_mesh_helpers.cpp (pmh). The conventions are those of
    IntrinsicModel: double is R, the containers read are arguments. Not modelled: simplePolygonVirtualVertex (pmh:11-80, a least squares solve in Eigen), whose result is
    an argument, and the connection Laplacian on polygons. *)
From Coq Require Import Reals.
From Verif Require Import Base DataModel MeshModel MeshDataModel MatrixModel GeoModel IntrinsicModel EmbeddedModel.
Open Scope Z_scope.

(** ** small dense matrices *)
(** An Eigen::MatrixXd is its two sizes and its entries. Multiplying or adding matrices whose sizes do not match fails an assertion in Eigen; the sizes always match
    below, and this is not checked. *)
Record dense := mkDn { dr : nat; dc : nat; de : nat -> nat -> R }.
(** sums, Eigen::MatrixXd::Zero *)
Definition sumTo (n : nat) (f : nat -> R) : R := fold_right (fun k s => (f k + s)%R) 0%R (seq 0 n).
Definition dzero (r c : nat) : dense := mkDn r c (fun _ _ => 0%R).
(** M(i, j) += x and M(i, j) = x *)
Definition incr (M : dense) (i j : nat) (x : R) : dense := mkDn (dr M) (dc M) (fun a b => if ((a =? i) && (b =? j))%nat then (de M a b + x)%R else de M a b).
Definition put (M : dense) (i j : nat) (x : R) : dense := mkDn (dr M) (dc M) (fun a b => if ((a =? i) && (b =? j))%nat then x else de M a b).
(** v(i) += x, for the last row of the matrix over the fan, pmh and emb:458-541 *)
Definition incrV (v : nat -> R) (i : nat) (x : R) : nat -> R := fun a => if (a =? i)%nat then (v a + x)%R else v a.
(** Eigen's product, transpose, sum, difference, scalar product, Identity, Ones, and a Vector3d as a column; emb:827-918 *)
Definition dmul (A B : dense) : dense := mkDn (dr A) (dc B) (fun i j => sumTo (dc A) (fun k => (de A i k * de B k j)%R)).
Definition dtr (A : dense) : dense := mkDn (dc A) (dr A) (fun i j => de A j i).
Definition dadd (A B : dense) : dense := mkDn (dr A) (dc A) (fun i j => (de A i j + de B i j)%R).
Definition dsub (A B : dense) : dense := mkDn (dr A) (dc A) (fun i j => (de A i j - de B i j)%R).
Definition dscale (s : R) (A : dense) : dense := mkDn (dr A) (dc A) (fun i j => (s * de A i j)%R).
Definition ident (n : nat) : dense := mkDn n n (fun i j => if (i =? j)%nat then 1%R else 0%R).
Definition ones (n : nat) : dense := mkDn n 1 (fun _ _ => 1%R).
Definition column (v : V3) : dense := mkDn 3 1 (fun i _ => comp v i).

(** ** the polygon of a face *)
(** f.adjacentVertices() *)
Definition faceVerts (m : mesh) (f : Z) : res (list Z) := let* hs := faceHalfedges m f in mapM (vertexOf m) hs.
(** polygonPositionMatrix, emb:579-591: the rows *)
Definition polygonPositions (m : mesh) (pos : mdata V3) (f : Z) : res (list V3) := let* vs := faceVerts m f in mapM (dataAt pos) vs.
(** Vector3::zero() *)
Definition v0 : V3 := mk3 0 0 0.
(** The loops of computeSimplePolygonLaplacian (emb:366-388), computeSimplePolygonVertexGalerkinMassMatrix (emb:394-417), computeSimplePolygonVertexLumpedMassMatrix
    (emb:426-449, [lump]: the column is that of i again) and computePolygonLaplacian (emb:600-622): the matrix of each face is added to the rows and columns of its vertices *)
Definition assemble (m : mesh) (lump : bool) (local : Z -> res dense) : res (smat R) :=
  let* vi := indicesOf m EVertex in let* fs := elements m EFace in
  let* trips := forEach fs [] (fun l f =>
    let* vs := faceVerts m f in let* ids := mapM (dataAt vi) vs in let n := length ids in
    let* M := local f in
    Ok (l ++ flat_map (fun j => map (fun i => (nth i ids 0%nat, nth (if lump then i else j) ids 0%nat, de M i j)) (seq 0 n)) (seq 0 n))) in
  matrix (nVertices m) (nVertices m) trips.

(** ** virtual refinement: a fan of triangles around a virtual vertex *)
(** poly.transpose() * weights, emb:465 and 504; Eigen asserts that the sizes agree: UB *)
Definition virtualVertex (poly : list V3) (w : list R) : res V3 :=
  if (length poly =? length w)%nat
  then Ok (fold_right (fun i s => add3 (mul3 (nth i poly v0) (nth i w 0%R)) s) v0 (seq 0 (length poly)))
  else UB.
(** the squared lengths l2[0], l2[1], l2[2], emb:471-473 and 510-512 *)
Definition fanSquares (p q c : V3) : R * R * R := (norm2_3 (sub3 q c), norm2_3 (sub3 p c), norm2_3 (sub3 p q)).
(** arg, emb:477-478 and 516-517 *)
Definition heronArg (a b c : R) : R := ((a + (b + c)) * (c - (a - b)) * (c + (a - b)) * (a + (b - c)))%R.
(** one round of the loop of simplePolygonMassMatrix, emb:469-489 *)
Definition massStep (poly : list V3) (c : V3) (s : dense * (nat -> R)) (i : nat) : dense * (nat -> R) :=
  let '(M, ln) := s in let n := length poly in let i1 := ((i + 1) mod n)%nat in
  let '(a, b, d) := fanSquares (nth i poly v0) (nth i1 poly v0) c in
  let area := (1 / 4 * sqrt (heronArg (sqrt a) (sqrt b) (sqrt d)))%R in
  let l0 := (1 / 6 * area)%R in let l1 := (1 / 12 * area)%R in
  let M := incr M i1 i1 (1 / 6 * area)%R in let M := incr M i i (1 / 6 * area)%R in
  let M := incr M i1 i (1 / 12 * area)%R in let M := incr M i i1 (1 / 12 * area)%R in
  let ln := incrV ln i1 l1 in let ln := incrV ln i l1 in let ln := incrV ln n l0 in (M, ln).
(** one round of the loop of simplePolygonStiffnessMatrix, emb:508-535 *)
Definition stiffStep (poly : list V3) (c : V3) (s : dense * (nat -> R)) (i : nat) : dense * (nat -> R) :=
  let '(K, ln) := s in let n := length poly in let i1 := ((i + 1) mod n)%nat in
  let '(a, b, d) := fanSquares (nth i poly v0) (nth i1 poly v0) c in
  let area := (1 / 2 * sqrt (heronArg (sqrt a) (sqrt b) (sqrt d)))%R in
  if Rlt_dec (1 / 10000000) area then
    let l0 := (1 / 4 * (b + d - a) / area)%R in let l1 := (1 / 4 * (d + a - b) / area)%R in let l2 := (1 / 4 * (a + b - d) / area)%R in
    let K := incr K i1 i1 l0 in let K := incr K i i l1 in
    let K := incr K i1 i (- l2)%R in let K := incr K i i1 (- l2)%R in let K := incr K i i l2 in let K := incr K i1 i1 l2 in
    let ln := incrV ln i1 (- l0)%R in let ln := incrV ln i (- l1)%R in let ln := incrV ln n (l0 + l1)%R in (K, ln)
  else s.
(** "Apply prolongation", emb:490-492 and 536-538 *)
Definition prolong (w : list R) (n : nat) (s : dense * (nat -> R)) : dense :=
  let '(M, ln) := s in
  mkDn n n (fun i j => (de M i j + (nth i w 0 * ln j + nth j w 0 * ln i + nth i w 0 * nth j w 0 * ln n))%R).
(** The frame shared by simplePolygonMassMatrix and simplePolygonStiffnessMatrix, emb:458-541: loop over the sides, then eliminate the virtual vertex *)
Definition fanMatrix (step : list V3 -> V3 -> dense * (nat -> R) -> nat -> dense * (nat -> R)) (m : mesh) (pos : mdata V3) (wts : mdata (list R)) (f : Z) : res dense :=
  let* poly := polygonPositions m pos f in let* w := dataAt wts f in let* c := virtualVertex poly w in let n := length poly in
  Ok (prolong w n (fold_left (step poly c) (seq 0 n) (dzero n n, fun _ => 0%R))).
(** simplePolygonMassMatrix, emb:458-495 *)
Definition simplePolygonMass := fanMatrix massStep.
(** simplePolygonStiffnessMatrix, emb:497-541 *)
Definition simplePolygonStiffness := fanMatrix stiffStep.
(** computeSimplePolygonLaplacian (emb:366-388), computeSimplePolygonVertexGalerkinMassMatrix (emb:394-417), computeSimplePolygonVertexLumpedMassMatrix (emb:421-443) *)
Definition simplePolygonLaplacian (m : mesh) (pos : mdata V3) (wts : mdata (list R)) : res (smat R) := assemble m false (simplePolygonStiffness m pos wts).
Definition simplePolygonGalerkin (m : mesh) (pos : mdata V3) (wts : mdata (list R)) : res (smat R) := assemble m false (simplePolygonMass m pos wts).
Definition simplePolygonLumped (m : mesh) (pos : mdata V3) (wts : mdata (list R)) : res (smat R) := assemble m true (simplePolygonMass m pos wts).
(** simplePolygonProlongationMatrix, emb:543-565; reading past the end of the weights is UB *)
Definition simplePolygonProlongation (m : mesh) (wts : mdata (list R)) : res (smat R) :=
  let* vi := indicesOf m EVertex in let* fs := elements m EFace in
  let nV := Z.to_nat (nVertices m) in
  let* (trips, _) := forEach fs (map (fun i => (i, i, 1%R)) (seq 0 nV), 0%nat) (fun s f =>
    let '(l, j) := s in let* w := dataAt wts f in let* vs := faceVerts m f in
    let* (l, _) := foldM (fun s v => let '(l, i) := s in let* k := dataAt vi v in let* x := rd w i in Ok (l ++ [((nV + j)%nat, k, x)], S i)) vs (l, 0%nat) in
    Ok (l, S j)) in
  matrix (nVertices m + nFaces m) (nVertices m) trips.

(** ** the virtual element method *)
(** polygonAveragingMatrix, pmh:87-95 *)
Definition averaging (n : nat) : dense := fold_left (fun A i => put (put A i ((i + 1) mod n) (1 / 2)%R) i i (1 / 2)%R) (seq 0 n) (dzero n n).
(** polygonDerivativeMatrix, pmh:97-105 *)
Definition derivative (n : nat) : dense := fold_left (fun D i => put (put D i ((i + 1) mod n) 1%R) i i (-1)%R) (seq 0 n) (dzero n n).
(** bracket, pmh:107-111 *)
Definition bracket (n : V3) : dense :=
  mkDn 3 3 (fun i j => match i, j with
    | 0%nat, 1%nat => (- qz n)%R | 0%nat, 2%nat => qy n | 1%nat, 0%nat => qz n | 1%nat, 2%nat => (- qx n)%R | 2%nat, 0%nat => (- qy n)%R | 2%nat, 1%nat => qx n | _, _ => 0%R end).
(** polygonPositionMatrix, emb:579-591 *)
Definition positionMatrix (poly : list V3) : dense := mkDn (length poly) 3 (fun i j => comp (nth i poly v0) j).
(** polygonEdgeVectorMatrix, polygonEdgeMidpointMatrix, emb:892-898 *)
Definition edgeVectors (poly : list V3) : dense := dmul (derivative (length poly)) (positionMatrix poly).
Definition edgeMidpoints (poly : list V3) : dense := dmul (averaging (length poly)) (positionMatrix poly).
(** polygonCoGradientMatrix, emb:888-890 *)
Definition coGradient (poly : list V3) : dense := dmul (dtr (edgeVectors poly)) (averaging (length poly)).
(** polygonPerFaceGradientMatrix, emb:877-886 *)
Definition faceGradient (A : R) (N : V3) (poly : list V3) : dense := dmul (dscale (1 / A)%R (bracket N)) (coGradient poly).
(** polygonFlat, emb:900-906 *)
Definition flatMatrix (N : V3) (poly : list V3) : dense := dmul (edgeVectors poly) (dsub (ident 3) (dmul (column N) (dtr (column N)))).
(** polygonCentroid, emb:937-946 *)
Definition centroid (poly : list V3) : V3 := div3 (fold_left add3 poly v0) (INR (length poly)).
(** polygonSharp, emb:908-918 *)
Definition sharpMatrix (A : R) (N : V3) (poly : list V3) : dense :=
  dmul (dscale (1 / A)%R (bracket N)) (dsub (dtr (edgeMidpoints poly)) (dmul (column (centroid poly)) (dtr (ones (length poly))))).
(** polygonProjectionMatrix, emb:871-875 *)
Definition projection (A : R) (N : V3) (poly : list V3) : dense := dsub (ident (length poly)) (dmul (flatMatrix N poly) (sharpMatrix A N poly)).
(** polygonPerFaceInnerProductMatrix, emb:832-839; [lam] is polygonLambda *)
Definition innerProduct (lam A : R) (N : V3) (poly : list V3) : dense :=
  let U := sharpMatrix A N poly in let P := projection A N poly in
  dadd (dmul (dscale A (dtr U)) U) (dmul (dscale lam (dtr P)) P).
(** polygonPerFaceLaplacian, emb:827-830 *)
Definition faceLaplacian (lam A : R) (N : V3) (poly : list V3) : dense :=
  let D := derivative (length poly) in dmul (dmul (dtr D) (innerProduct lam A N poly)) D.
(** computePolygonLaplacian, emb:600-622 *)
Definition polygonLaplacian (m : mesh) (lam : R) (pos normals : mdata V3) (areas : mdata R) : res (smat R) :=
  assemble m false (fun f =>
    let* poly := polygonPositions m pos f in let* A := dataAt areas f in let* N := dataAt normals f in Ok (faceLaplacian lam A N poly)).
(** computePolygonGradientMatrix, emb:628-655 *)
Definition polygonGradient (m : mesh) (pos normals : mdata V3) (areas : mdata R) : res (smat R) :=
  let* vi := indicesOf m EVertex in let* fi := indicesOf m EFace in let* fs := elements m EFace in
  let* trips := forEach fs [] (fun l f =>
    let* k := dataAt fi f in let* vs := faceVerts m f in let* ids := mapM (dataAt vi) vs in let n := length ids in
    let* poly := polygonPositions m pos f in let* A := dataAt areas f in let* N := dataAt normals f in let G := faceGradient A N poly in
    Ok (l ++ flat_map (fun i => map (fun j => ((3 * k + i)%nat, nth j ids 0%nat, de G i j)) (seq 0 n)) (seq 0 3))) in
  matrix (3 * nFaces m) (nVertices m) trips.
(** computePolygonDivergenceMatrix, emb:659-687 *)
Definition polygonDivergence (m : mesh) (pos normals : mdata V3) (areas : mdata R) : res (smat R) :=
  let* vi := indicesOf m EVertex in let* fi := indicesOf m EFace in let* fs := elements m EFace in
  let* trips := forEach fs [] (fun l f =>
    let* k := dataAt fi f in let* A := dataAt areas f in let* vs := faceVerts m f in let* ids := mapM (dataAt vi) vs in let n := length ids in
    let* poly := polygonPositions m pos f in let* N := dataAt normals f in let G := faceGradient A N poly in
    Ok (l ++ flat_map (fun i => map (fun j => (nth j ids 0%nat, (3 * k + i)%nat, (de G i j * A)%R)) (seq 0 n)) (seq 0 3))) in
  matrix (nVertices m) (3 * nFaces m) trips.
