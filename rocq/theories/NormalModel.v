(** Model of the integer part of src/surface/normal_coordinates.cpp: corner counts, the flip rule, one step of tracing and
    the trace loop. `int` is 32 bit: signed overflow is UB. `size_t` is 64 bit and wraps. positivePart and negativePart
    (:9-18) go through double, which is exact for int. *)
From Verif Require Import Base MeshModel.
Open Scope Z_scope.

Definition i32 (z : Z) : res Z := if (- 2147483648 <=? z) && (z <? 2147483648) then Ok z else UB.
Definition u64 (z : Z) : Z := z mod 18446744073709551616.
(** conversion of an integer to int keeps the low 32 bits (what every compiler does; implementation-defined before C++20) *)
Definition toInt (z : Z) : Z := (z + 2147483648) mod 4294967296 - 2147483648.
Definition positivePart (z : Z) : Z := Z.max z 0.
Definition negativePart (z : Z) : Z := Z.min z 0.
(** a - b - c and a + b + c on ints *)
Definition sub3 (a b c : Z) : res Z := let* x := i32 (a - b) in i32 (x - c).
Definition add3 (a b c : Z) : res Z := let* x := i32 (a + b) in i32 (x + c).

(** strictDegree, :822-824 *)
Definition strictDegree (nij njk nki : Z) : res Z :=
  let* x := sub3 (positivePart nij) (positivePart njk) (positivePart nki) in Ok (positivePart x).
(** cornerCoord, :828-830: the subtractions of the two size_t values make the whole expression a size_t, including the
    division; the result is converted back to int *)
Definition cornerCoord (nij njk nki : Z) : res Z :=
  let* a := i32 (njk + nki) in
  let* b := i32 (a - nij) in
  let* d1 := strictDegree njk nki nij in
  let* d2 := strictDegree nki nij njk in
  Ok (toInt (u64 (u64 (u64 b - d1) - d2) / 2)).
(** strictCornerCoord, :834 *)
Definition strictCornerCoord (nij njk nki : Z) : res Z := let* c := cornerCoord nij njk nki in Ok (positivePart c).

(** flipNormalCoordinates, :762-801. The doubles C.... are halves of ints: the model keeps the numerators. The unqualified
    abs is the one for doubles or, depending on the headers, the one for ints, which truncates its argument: [absInt] says
    which. The conversion of the sum to int truncates, and so does the division by two. *)
Definition absHalf (absInt : bool) (num : Z) : Z := if absInt then 2 * Z.abs (Z.quot num 2) else Z.abs num.
Definition flipNormalCoordinates (absInt : bool) (nij njk nki nil nlj : Z) : res Z :=
  let njk := positivePart njk in
  let nki := positivePart nki in
  let nil := positivePart nil in
  let nlj := positivePart nlj in
  let* arcsAlongIJ := i32 (- negativePart nij) in
  let nij := positivePart nij in
  let* Dilj := sub3 nlj nij nil in
  let* Djil := sub3 nil nlj nij in
  let* Dlji := sub3 nij nil nlj in
  let* Dijk := sub3 njk nki nij in
  let* Djki := sub3 nki nij njk in
  let* Dkij := sub3 nij njk nki in
  let Eilj := positivePart Dilj in
  let Ejil := positivePart Djil in
  let Elji := positivePart Dlji in
  let Eijk := positivePart Dijk in
  let Ejki := positivePart Djki in
  let Ekij := positivePart Dkij in
  let* Cilj := add3 (negativePart Dilj) Ejil Elji in
  let* Cjil := add3 (negativePart Djil) Eilj Elji in
  let* Clji := add3 (negativePart Dlji) Eilj Ejil in
  let* Cijk := add3 (negativePart Dijk) Ejki Ekij in
  let* Cjki := add3 (negativePart Djki) Eijk Ekij in
  let* Ckij := add3 (negativePart Dkij) Eijk Ejki in
  let twice := 2 * (- Clji) + 2 * (- Ckij) + absHalf absInt (- Cjil - - Cjki) + absHalf absInt (- Cilj - - Cijk)
               - 2 * Elji - 2 * Ekij + 2 * (2 * Eilj) + 2 * (2 * Eijk) + 2 * (2 * Ejil) + 2 * (2 * Ejki) in
  let* doubledAnswer := i32 (Z.quot twice 2) in
  i32 (Z.quot doubledAnswer 2 + arcsAlongIJ).

(** flipRoundabouts, :806-818 *)
Definition flipRoundabouts (nij njk nki nil nlj nkl rki rlj dk dl : Z) : res (Z * Z) :=
  let deltaki := - negativePart nki in
  let deltalj := - negativePart nlj in
  let* ekil := strictDegree nil nki nkl in
  let* eljk := strictDegree njk nlj nkl in
  let rkl := if dk =? 0 then 0 else u64 (rki + deltaki + ekil) mod dk in
  let rlk := if dl =? 0 then 0 else u64 (rlj + deltalj + eljk) mod dl in
  Ok (rkl, rlk).

(** ** on a mesh; [coords] is edgeCoords *)
Definition coordAt (coords : list Z) (h : Z) : res Z := rdZ coords (edge h).
(** NormalCoordinates::strictCornerCoord(Corner), :649-655; the corner of halfedge h *)
Definition strictCornerAt (m : mesh) (coords : list Z) (h : Z) : res Z :=
  let* nki := coordAt coords h in
  let* b := next m h in
  let* nij := coordAt coords b in
  let* c := next m b in
  let* njk := coordAt coords c in
  strictCornerCoord nij njk nki.
(** NormalCoordinates::strictDegree(Corner), :640-646 *)
Definition strictDegreeAt (m : mesh) (coords : list Z) (h : Z) : res Z :=
  let* nki := coordAt coords h in
  let* b := next m h in
  let* nij := coordAt coords b in
  let* c := next m b in
  let* njk := coordAt coords c in
  strictDegree nij njk nki.
(** stepTopologicalCurve, :663-681: the new (he, index), and whether the curve ends at a vertex *)
Definition stepTopologicalCurve (m : mesh) (coords : list Z) (he index : Z) : res (Z * Z * bool) :=
  let he := tw he in
  let* n := next m he in
  let* cikj := strictCornerAt m coords n in
  let* cjik := strictCornerAt m coords he in
  let* a := coordAt coords he in
  let nij := positivePart a in
  if index <? cikj then Ok (n, index, false)
  else let* x := i32 (nij - cjik) in
    if x <=? index then
      let* nn := next m n in
      let* b := coordAt coords nn in
      let nkj := positivePart b in
      let* y := i32 (nkj + index) in
      let* y := i32 (y - nij) in
      Ok (nn, y, false)
    else Ok (he, index, true).
(** topologicalTrace(Halfedge, int), :333-356: the do-while loop, then the test made after it. Entries are (he, index).
    The loop need not end for arbitrary input; [fuel] bounds its rounds. *)
Fixpoint traceLoop (fuel : nat) (m : mesh) (coords : list Z) (startHe startIndex he index : Z) : res (list (Z * Z)) :=
  match fuel with
  | O => UB
  | S k =>
    let* n := coordAt coords he in
    let* _ := guard (index <? n) in
    let* (he', index', stop) := stepTopologicalCurve m coords he index in
    let looped := (he' =? startHe) && (index' =? startIndex) in
    let* bnd := eIsBoundary m (edge he') in
    if stop || looped || bnd
    then Ok (if looped || bnd then [(he, index); (he', index')] else [(he, index)])
    else let* r := traceLoop k m coords startHe startIndex he' index' in Ok ((he, index) :: r)
  end.
Definition topologicalTrace (fuel : nat) (m : mesh) (coords : list Z) (he index : Z) : res (list (Z * Z)) :=
  traceLoop fuel m coords he index he index.
