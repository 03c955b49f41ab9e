(** Vector arithmetic (utilities/vector2.ipp, vector3.ipp), elementary geometry (utilities/elementary_geometry.ipp,
    src/utilities/elementary_geometry.cpp) and barycentric coordinate helpers
    (surface/barycentric_coordinate_helpers.ipp). double is modelled by the reals: arithmetic is exact, and a division by
    zero gives an unspecified real instead of an infinity or NaN, so every statement excludes it. *)
From Verif Require Import Base MeshModel.
From Coq Require Import Reals.
Open Scope R_scope.

Record V2 := mk2 { px : R; py : R }.
Record V3 := mk3 { qx : R; qy : R; qz : R }.

(** vector2.ipp:3-5, 14-19 *)
Definition add2 (u v : V2) := mk2 (px u + px v) (py u + py v).
Definition sub2 (u v : V2) := mk2 (px u - px v) (py u - py v).
Definition mul2 (u : V2) (s : R) := mk2 (px u * s) (py u * s).
Definition div2 (u : V2) (s : R) := let r := 1 / s in mk2 (px u * r) (py u * r).
(** vector2.ipp:7-12, complex product and quotient *)
Definition cmul (u v : V2) := mk2 (px u * px v - py u * py v) (px u * py v + py u * px v).
Definition cdiv (u v : V2) := let denom := px v * px v + py v * py v in div2 (mk2 (px u * px v + py u * py v) (py u * px v - px u * py v)) denom.
(** :128-135, 147 *)
Definition norm2_2 (v : V2) := px v * px v + py v * py v.
Definition norm2d (v : V2) := sqrt (px v * px v + py v * py v).
Definition dot2 (u v : V2) := px u * px v + py u * py v.
Definition cross2 (u v : V2) := px u * py v - py u * px v.
(** :72-76, 81-86 normalize and normalizeCutoff; :96-109 rotations; :123-125 conj, inv; vector2.h:19 fromAngle *)
Definition normalize2 (v : V2) := let r := 1 / sqrt (px v * px v + py v * py v) in mul2 v r.
Definition normalizeCutoff2 (v : V2) (mag : R) :=
  let len := sqrt (px v * px v + py v * py v) in let len := if Rle_dec len mag then 1 else len in let r := 1 / len in mul2 v r.
Definition rotateCW (v : V2) (theta : R) := mk2 (cos theta * px v + sin theta * py v) (- sin theta * px v + cos theta * py v).
Definition rotateCCW (v : V2) (theta : R) := rotateCW v (- theta).
Definition rotate90 (v : V2) := mk2 (- py v) (px v).
Definition conj2 (v : V2) := mk2 (px v) (- py v).
Definition inv2 (v : V2) := cdiv (mk2 1 0) v.
Definition fromAngle (theta : R) := mk2 (cos theta) (sin theta).

(** vector3.ipp:3-14, 52-57, 65-73 *)
Definition add3 (u v : V3) := mk3 (qx u + qx v) (qy u + qy v) (qz u + qz v).
Definition sub3 (u v : V3) := mk3 (qx u - qx v) (qy u - qy v) (qz u - qz v).
Definition mul3 (u : V3) (s : R) := mk3 (qx u * s) (qy u * s) (qz u * s).
Definition div3 (u : V3) (s : R) := let r := 1 / s in mk3 (qx u * r) (qy u * r) (qz u * r).
Definition norm2_3 (v : V3) := qx v * qx v + qy v * qy v + qz v * qz v.
Definition norm3d (v : V3) := sqrt (qx v * qx v + qy v * qy v + qz v * qz v).
Definition dot3 (u v : V3) := qx u * qx v + qy u * qy v + qz u * qz v.
Definition cross3 (u v : V3) := mk3 (qy u * qz v - qz u * qy v) (qz u * qx v - qx u * qz v) (qx u * qy v - qy u * qx v).
Definition sum3 (u : V3) := qx u + qy u + qz u.
(** :131-134 normalize, :145 removeComponent, :112-129 rotateAround, :147-158 buildTangentBasis *)
Definition normalize3 (v : V3) := let r := 1 / sqrt (qx v * qx v + qy v * qy v + qz v * qz v) in mul3 v r.
Definition removeComponent (v unitDir : V3) := sub3 v (mul3 unitDir (dot3 unitDir v)).
Definition rotateAround (v axis : V3) (theta : R) : V3 :=
  let axisN := normalize3 axis in
  let parallelComp := mul3 axisN (dot3 v axisN) in
  let tangentComp := sub3 v parallelComp in
  if Rgt_dec (norm2_3 tangentComp) 0 then
    let basisX := normalize3 tangentComp in
    let basisY := cross3 axisN basisX in
    let tangentMag := norm3d tangentComp in
    let rotatedV := mul3 (add3 (mul3 basisX (cos theta)) (mul3 basisY (sin theta))) tangentMag in
    add3 rotatedV parallelComp
  else parallelComp.
Definition buildTangentBasis (v : V3) : V3 * V3 :=
  let unitDir := normalize3 v in
  let testVec := mk3 1 0 0 in
  let testVec := if Rgt_dec (Rabs (dot3 testVec unitDir)) (9/10) then mk3 0 1 0 else testVec in
  let basisX := normalize3 (cross3 testVec unitDir) in
  let basisY := normalize3 (cross3 unitDir basisX) in
  (basisX, basisY).
(** utilities.h:84-88 clamp, :90 regularizeAngle (floor is Int_part) *)
Definition clamp (val low high : R) : R := if Rgt_dec val high then high else if Rlt_dec val low then low else val.
Definition regularizeAngle (theta : R) : R := theta - 2 * PI * IZR (Int_part (theta / (2 * PI))).

(** ** elementary_geometry.ipp *)
(** :7-12 *)
Definition triangleArea (lAB lBC lCA : R) : R :=
  let s := (lAB + lBC + lCA) / 2 in
  let arg := Rmax 0 (s * (s - lAB) * (s - lBC) * (s - lCA)) in
  sqrt arg.
(** :14-16 *)
Definition triangleIsValid (a b c tolerance : R) : Prop := a + b >= c - tolerance /\ b + c >= a - tolerance /\ c + a >= b - tolerance.
(** :18-33 *)
Definition layoutTriangleVertex (pA pB : V2) (lBC lCA : R) : V2 :=
  let lAB := norm2d (sub2 pB pA) in
  let tArea := triangleArea lAB lBC lCA in
  let h := 2 * tArea / lAB in
  let w := (lAB * lAB - lBC * lBC + lCA * lCA) / (2 * lAB) in
  let vABn := div2 (sub2 pB pA) lAB in
  let vABnPerp := mk2 (- py vABn) (px vABn) in
  add2 (add2 pA (mul2 vABn w)) (mul2 vABnPerp h).
(** :35-41 *)
Definition pointLineSegmentDistance2 (p lineA lineB : V2) : R :=
  let len2 := norm2_2 (sub2 lineA lineB) in
  if Req_EM_T len2 0 then norm2d (sub2 lineA p) else
  let t := clamp (dot2 (sub2 p lineA) (sub2 lineB lineA) / len2) 0 1 in
  let proj := add2 lineA (mul2 (sub2 lineB lineA) t) in
  norm2d (sub2 p proj).
(** :59-71, 73-84 *)
Definition raySegmentIntersection (rayStart rayDir lineStart lineEnd : V2) : R * R :=
  let v1 := sub2 rayStart lineStart in
  let v2 := sub2 lineEnd lineStart in
  let v3 := mk2 (- py rayDir) (px rayDir) in
  let cross21 := cross2 v2 v1 in
  (cross21 / dot2 v2 v3, dot2 v1 v3 / dot2 v2 v3).
Definition rayRayIntersection (ray1Start ray1Dir ray2Start ray2Dir : V2) : R * R :=
  let v1 := sub2 ray1Start ray2Start in
  let v2 := ray2Dir in
  let v3 := mk2 (- py ray1Dir) (px ray1Dir) in
  let cross21 := cross2 v2 v1 in
  (cross21 / dot2 v2 v3, dot2 v1 v3 / dot2 v2 v3).
(** :44-56; the hit flag as a proposition *)
Definition segmentSegmentIntersection (pAStart pAEnd pBStart pBEnd : V2) : R * R * Prop :=
  let lenA := norm2d (sub2 pAEnd pAStart) in
  let '(tRay, tLine) := raySegmentIntersection pAStart (div2 (sub2 pAEnd pAStart) lenA) pBStart pBEnd in
  let tA := tRay / lenA in
  (tA, tLine, tA >= 0 /\ tA <= 1 /\ tLine >= 0 /\ tLine <= 1).
(** :87-97 *)
Definition pointLineSegmentNeaestLocation (p lineA lineB : V3) : R :=
  let len2 := norm2_3 (sub3 lineA lineB) in
  if Req_EM_T len2 0 then 0 else clamp (dot3 (sub3 p lineA) (sub3 lineB lineA) / len2) 0 1.
Definition pointLineSegmentDistance3 (p lineA lineB : V3) : R :=
  let t := pointLineSegmentNeaestLocation p lineA lineB in
  let proj := add3 lineA (mul3 (sub3 lineB lineA) t) in
  norm3d (sub3 p proj).
(** :99-140 *)
Definition tetFourthPoint (a b c : V3) (Lad Lbd Lcd : R) : V3 :=
  let e1 := div3 (sub3 b a) (norm3d (sub3 b a)) in
  let e2 := sub3 c a in
  let e2 := sub3 e2 (mul3 e1 (dot3 e2 e1)) in
  let e2 := div3 e2 (norm3d e2) in
  let e3 := cross3 e1 e2 in
  let x2 := dot3 (sub3 b a) e1 in
  let x3 := dot3 (sub3 c a) e1 in
  let y3 := dot3 (sub3 c a) e2 in
  let x4 := (Lad * Lad - Lbd * Lbd + x2 * x2) / (2 * x2) in
  let y4 := (Lad * Lad - Lcd * Lcd + x3 * x3 + y3 * y3 - 2 * x4 * x3) / (2 * y3) in
  let z4 := sqrt (Rmax 0 (Lad * Lad - x4 * x4 - y4 * y4)) in
  let d1 := add3 (add3 (add3 a (mul3 e1 x4)) (mul3 e2 y4)) (mul3 e3 z4) in
  let d2 := sub3 (add3 (add3 a (mul3 e1 x4)) (mul3 e2 y4)) (mul3 e3 z4) in
  let vol1 := dot3 (sub3 d1 a) (cross3 (sub3 b a) (sub3 c a)) in
  if Rlt_dec vol1 0 then d1 else d2.
(** elementary_geometry.cpp:8-18; Eigen's determinant of a 4x4 matrix by expansion along the last column of ones *)
Definition det3 (a b c d e f g h i : R) : R := a * (e * i - f * h) - b * (d * i - f * g) + c * (d * h - e * g).
Definition inCircleDet (pA pB pC pT : V2) : R :=
  let d u v w := det3 (px u) (py u) (norm2_2 u) (px v) (py v) (norm2_2 v) (px w) (py w) (norm2_2 w) in
  - d pB pC pT + d pA pC pT - d pA pB pT + d pA pB pC.
Definition inCircleTest (pA pB pC pT : V2) : Prop := inCircleDet pA pB pC pT > 0.

(** ** barycentric_coordinate_helpers.ipp *)
(** :7-15, loop unrolled *)
Definition displacementLength2 (d l : V3) : R :=
  0 + - qx l * qx l * qy d * qz d + - qy l * qy l * qz d * qx d + - qz l * qz l * qx d * qy d.
(** :18-21 *)
Definition displacementLength (d l : V3) : R := sqrt (Rmax (displacementLength2 d l) 0).
(** :23-26 *)
Definition barycentricDisplacementToCartesian (c0 c1 c2 : V2) (b : V3) : V2 := add2 (add2 (mul2 c0 (qx b)) (mul2 c1 (qy b))) (mul2 c2 (qz b)).
(** :49-55 *)
Definition normalizeBarycentric (b : V3) : V3 := let s := sum3 b in if Req_EM_T s 0 then mk3 (1/3) (1/3) (1/3) else div3 b s.
(** :57-60 *)
Definition normalizeBarycentricDisplacement (b : V3) : V3 := let s := sum3 b in sub3 b (mk3 (s / 3) (s / 3) (s / 3)).
(** :63-68 *)
Definition projectInsideTriangle (b : V3) : V3 := normalizeBarycentric (mk3 (Rmax (qx b) 0) (Rmax (qy b) 0) (Rmax (qz b) 0)).
(** :70 *)
Definition isInsideTriangle (b : V3) : Prop := qx b >= 0 /\ qy b >= 0 /\ qz b >= 0.
(** :73-83 *)
Definition halfedgeIndexInTriangle (m : mesh) (he : Z) : res nat :=
  let* f := faceOf m he in
  let* t := fHe m f in
  if (he =? t)%Z then Ok 0%nat else
  let* t := next m t in
  if (he =? t)%Z then Ok 1%nat else
  let* t := next m t in
  if (he =? t)%Z then Ok 2%nat else Throw.
(** Vector3::operator[] *)
Definition comp (v : V3) (i : nat) : R := match i with O => qx v | 1%nat => qy v | _ => qz v end.
Definition setComp (v : V3) (i : nat) (r : R) : V3 := match i with O => mk3 r (qy v) (qz v) | 1%nat => mk3 (qx v) r (qz v) | _ => mk3 (qx v) (qy v) r end.
(** :88-95, 97-104; result starts uninitialised, here as zero: every component is assigned *)
Definition permuteBarycentricToCanonical (m : mesh) (b : V3) (refHe : Z) : res V3 :=
  let* k := halfedgeIndexInTriangle m refHe in
  Ok (fold_left (fun r i => setComp r ((i + k) mod 3) (comp b i)) [0; 1; 2]%nat (mk3 0 0 0)).
Definition permuteBarycentricFromCanonical (m : mesh) (b : V3) (refHe : Z) : res V3 :=
  let* k := halfedgeIndexInTriangle m refHe in
  Ok (fold_left (fun r i => setComp r i (comp b ((i + k) mod 3))) [0; 1; 2]%nat (mk3 0 0 0)).
