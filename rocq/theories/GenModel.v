(** The general SurfaceMesh (useImplicitTwinFlag = false): surface_mesh.{h,ipp,cpp}. Its connectivity arrays are kept in one
    table indexed by [arr]. Boundary loops do not occur in a general mesh: nBoundaryLoopsCount and nBoundaryLoopsFillCount stay
    0 and are left out. modificationTick and the callbacks are not modelled. *)
From Verif Require Import Base MeshModel.
Open Scope Z_scope.

(** surface_mesh.h:262-291: heNextArr heVertexArr heFaceArr vHalfedgeArr fHalfedgeArr heSiblingArr heEdgeArr heOrientArr
    eHalfedgeArr heVertInNextArr heVertInPrevArr vHeInStartArr heVertOutNextArr heVertOutPrevArr vHeOutStartArr *)
Inductive arr := ANext | AVert | AFace | AVHe | AFHe | ASib | AEdge | AOri | AEHe | AInN | AInP | AInS | AOutN | AOutP | AOutS.
Definition arr_eqb (a b : arr) : bool :=
  match a, b with
  | ANext, ANext | AVert, AVert | AFace, AFace | AVHe, AVHe | AFHe, AFHe | ASib, ASib | AEdge, AEdge | AOri, AOri | AEHe, AEHe
  | AInN, AInN | AInP, AInP | AInS, AInS | AOutN, AOutN | AOutP, AOutP | AOutS, AOutS => true
  | _, _ => false
  end.
(** the element an array has an entry for *)
Inductive eltype := THe | TVe | TFc | TEd.
Definition typeOf (a : arr) : eltype :=
  match a with AVHe | AInS | AOutS => TVe | AFHe => TFc | AEHe => TEd | _ => THe end.
Record gmesh := mkG { ga : arr -> list Z;
  gHe : Z; gInt : Z; gEd : Z; gVe : Z; gFc : Z;             (* counts *)
  gHeFill : Z; gEFill : Z; gVFill : Z; gFFill : Z;
  gHeCap : Z; gECap : Z; gVCap : Z; gFCap : Z; gComp : bool }.
Definition setA (m : gmesh) (g : arr -> list Z) : gmesh :=
  mkG g (gHe m) (gInt m) (gEd m) (gVe m) (gFc m) (gHeFill m) (gEFill m) (gVFill m) (gFFill m) (gHeCap m) (gECap m) (gVCap m) (gFCap m) (gComp m).
Definition put (g : arr -> list Z) (a : arr) (l : list Z) : arr -> list Z := fun b => if arr_eqb a b then l else g b.
Definition rdA (m : gmesh) (a : arr) (i : Z) : res Z := rdZ (ga m a) i.
Definition wrA (m : gmesh) (a : arr) (i x : Z) : res gmesh := let* l := wrZ (ga m a) i x in Ok (setA m (put (ga m) a l)).
(** resize the arrays of one type of element *)
Definition eltype_eqb (a b : eltype) : bool := match a, b with THe, THe | TVe, TVe | TFc, TFc | TEd, TEd => true | _, _ => false end.
Definition resizeA (m : gmesh) (t : eltype) (n : Z) : gmesh :=
  setA m (fun a => if eltype_eqb (typeOf a) t then resizeZ (ga m a) n else ga m a).

(** ** allocation *)
(** getNewHalfedge, surface_mesh.cpp:1405-1450 *)
Definition gNewHalfedge (m : gmesh) (isInterior : bool) : gmesh * Z :=
  let m := if gHeFill m <? gHeCap m then m else
    let n := Z.max (gHeCap m * 2) 1 in let m := resizeA m THe n in
    mkG (ga m) (gHe m) (gInt m) (gEd m) (gVe m) (gFc m) (gHeFill m) (gEFill m) (gVFill m) (gFFill m) n (gECap m) (gVCap m) (gFCap m) (gComp m) in
  (mkG (ga m) (gHe m + 1) (if isInterior then gInt m + 1 else gInt m) (gEd m) (gVe m) (gFc m)
       (gHeFill m + 1) (gEFill m) (gVFill m) (gFFill m) (gHeCap m) (gECap m) (gVCap m) (gFCap m) false, gHeFill m).
(** getNewEdge, :1452-1484 *)
Definition gNewEdge (m : gmesh) : gmesh * Z :=
  let m := if gEFill m <? gECap m then m else
    let n := Z.max (gECap m * 2) 1 in let m := resizeA m TEd n in
    mkG (ga m) (gHe m) (gInt m) (gEd m) (gVe m) (gFc m) (gHeFill m) (gEFill m) (gVFill m) (gFFill m) (gHeCap m) n (gVCap m) (gFCap m) (gComp m) in
  (mkG (ga m) (gHe m) (gInt m) (gEd m + 1) (gVe m) (gFc m)
       (gHeFill m) (gEFill m + 1) (gVFill m) (gFFill m) (gHeCap m) (gECap m) (gVCap m) (gFCap m) false, gEFill m).
(** getNewVertex, :1371-1403 *)
Definition gNewVertex (m : gmesh) : gmesh * Z :=
  let m := if gVFill m <? gVCap m then m else
    let n := gVCap m * 2 in let m := resizeA m TVe n in
    mkG (ga m) (gHe m) (gInt m) (gEd m) (gVe m) (gFc m) (gHeFill m) (gEFill m) (gVFill m) (gFFill m) (gHeCap m) (gECap m) n (gFCap m) (gComp m) in
  (mkG (ga m) (gHe m) (gInt m) (gEd m) (gVe m + 1) (gFc m)
       (gHeFill m) (gEFill m) (gVFill m + 1) (gFFill m) (gHeCap m) (gECap m) (gVCap m) (gFCap m) false, gVFill m).
(** getNewFace, :1556-1574, expandFaceStorage, :1576-1605: there are no boundary loops to move back *)
Definition gNewFace (m : gmesh) : gmesh * Z :=
  let m := if gFFill m <? gFCap m then m else
    let n := gFCap m * 2 in let m := resizeA m TFc n in
    mkG (ga m) (gHe m) (gInt m) (gEd m) (gVe m) (gFc m) (gHeFill m) (gEFill m) (gVFill m) (gFFill m) (gHeCap m) (gECap m) (gVCap m) n (gComp m) in
  (mkG (ga m) (gHe m) (gInt m) (gEd m) (gVe m) (gFc m + 1)
       (gHeFill m) (gEFill m) (gVFill m) (gFFill m + 1) (gHeCap m) (gECap m) (gVCap m) (gFCap m) false, gFFill m).

(** ** iteration *)
Definition gFuel (m : gmesh) : nat := S (Z.to_nat (gHeFill m)).
(** mesh.vertices(), edges(), faces(): the elements that are not dead, surface_mesh.ipp:68-71 *)
Definition gLive (m : gmesh) (a : arr) (n : Z) : list Z := filter (fun i => negb (getZ (ga m a) i =? INVALID)) (zseq n).
Definition gVertices m := gLive m AVHe (gVFill m).
Definition gEdges m := gLive m AEHe (gEFill m).
Definition gFaces m := gLive m AFHe (gFFill m).
(** f.adjacentHalfedges(), e.adjacentHalfedges(), v.outgoingHalfedges(), v.incomingHalfedges() *)
Definition gFaceHes (m : gmesh) (f : Z) : res (list Z) := let* h := rdA m AFHe f in orbit_loop (gFuel m) (rdA m ANext) h h.
Definition gEdgeHes (m : gmesh) (e : Z) : res (list Z) := let* h := rdA m AEHe e in orbit_loop (gFuel m) (rdA m ASib) h h.
Definition gOutHes (m : gmesh) (v : Z) : res (list Z) := let* h := rdA m AVHe v in orbit_loop (gFuel m) (rdA m AOutN) h h.
(** prevOrbitFace, halfedge_element_types.ipp:235 *)
Fixpoint gPrev_loop (fuel : nat) (m : gmesh) (h curr : Z) : res Z :=
  match fuel with
  | O => UB
  | S k => let* n := rdA m ANext curr in if n =? h then Ok curr else gPrev_loop k m h n
  end.
Definition gPrev (m : gmesh) (h : Z) : res Z := gPrev_loop (gFuel m) m h h.
Definition gInHes (m : gmesh) (v : Z) : res (list Z) :=
  let* h := rdA m AVHe v in let* p := gPrev m h in orbit_loop (gFuel m) (rdA m AInN) p p.
(** tipVertex() = next().vertex(), halfedge_element_types.ipp:223 *)
Definition gTip (m : gmesh) (h : Z) : res Z := let* n := rdA m ANext h in rdA m AVert n.
Definition gTail (m : gmesh) (h : Z) : res Z := rdA m AVert h.

(** ** SurfaceMesh(polygons), surface_mesh.cpp:61-213 *)
Definition gMaxIndex (polys : list (list Z)) : Z := fold_left (fun acc p => fold_left Z.max p acc) polys 0.
Definition gStart (polys : list (list Z)) : gmesh :=
  let nV := gMaxIndex polys + 1 in let nF := Z.of_nat (length polys) in
  mkG (put (put (fun _ => []) AVHe (repeat INVALID (Z.to_nat nV))) AFHe (repeat INVALID (Z.to_nat nF)))
      0 0 0 nV nF 0 0 nV nF 0 0 nV nF true.
(** one corner, :93-127; [first] is INVALID for the first one *)
Definition gAddCorner (iFace : Z) (st : gmesh * list Z * Z * Z) (tail : Z) : res (gmesh * list Z * Z * Z) :=
  let '(m, used, prev, first) := st in
  let* used := wrZ used tail 1 in
  let (m, h) := gNewHalfedge m true in
  let* m := wrA m ANext h INVALID in let* m := wrA m AVert h tail in let* m := wrA m AFace h iFace in
  let* m := wrA m AVHe tail h in
  if first =? INVALID then let* m := wrA m AFHe iFace h in Ok (m, used, h, h)
  else let* m := wrA m ANext prev h in Ok (m, used, h, first).
Definition gAddFace (st : gmesh * list Z * Z) (p : list Z) : res (gmesh * list Z * Z) :=
  let '(m, used, iFace) := st in
  let* (m, used, prev, first) := foldM (gAddCorner iFace) p (m, used, INVALID, INVALID) in
  let* m := wrA m ANext prev first in
  Ok (m, used, iFace + 1).
(** the pairs (poly[i], poly[(i+1) % degree]) *)
Definition gSides (p : list Z) : list (Z * Z) := match p with [] => [] | x :: t => combine p (t ++ [x]) end.
(** edgeHistory: the entries in order of first insertion *)
Definition history := list (Z * Z * Z).
Fixpoint hFind (d : history) (a b : Z) : option Z :=
  match d with [] => None | (x, y, i) :: t => if (x =? a) && (y =? b) then Some i else hFind t a b end.
Fixpoint hSet (d : history) (a b i : Z) : history :=
  match d with [] => [(a, b, i)] | (x, y, j) :: t => if (x =? a) && (y =? b) then (x, y, i) :: t else (x, y, j) :: hSet t a b i end.
(** one side, :154-181 *)
Definition gAddEdge (st : gmesh * history * Z) (side : Z * Z) : res (gmesh * history * Z) :=
  let '(m, d, iHe) := st in let (tail, tip) := side in
  let a := Z.min tail tip in let b := Z.max tail tip in
  match hFind d a b with
  | None =>
    let (m, e) := gNewEdge m in
    let* m := wrA m AEdge iHe e in let* m := wrA m ASib iHe INVALID in let* m := wrA m AOri iHe 1 in let* m := wrA m AEHe e iHe in
    Ok (m, hSet d a b iHe, iHe + 1)
  | Some prev =>
    let* m := wrA m ASib iHe prev in
    let* e := rdA m AEdge prev in let* m := wrA m AEdge iHe e in
    let* v := rdA m AVert iHe in let* h0 := rdA m AEHe e in let* w := rdA m AVert h0 in
    let* m := wrA m AOri iHe (if v =? w then 1 else 0) in
    Ok (m, hSet d a b iHe, iHe + 1)
  end.
(** :186-202 *)
Fixpoint gWalkBack (fuel : nat) (m : gmesh) (h : Z) : res Z :=
  match fuel with
  | O => UB
  | S k => let* s := rdA m ASib h in if s =? INVALID then Ok h else gWalkBack k m s
  end.
Definition gComplete (m : gmesh) (entry : Z * Z * Z) : res gmesh :=
  let last := snd entry in
  let* s := rdA m ASib last in
  if s =? INVALID then wrA m ASib last last else
  let* c := gWalkBack (gFuel m) m last in wrA m ASib c last.

(** generateVertexIterationCache(…, incoming, skipDead = true), :663-695 *)
Definition gKey (m : gmesh) (incoming : bool) (h : Z) : res Z := if incoming then gTip m h else gTail m h.
Definition gLiveHes (m : gmesh) : list Z := gLive m ANext (gHeFill m).
Fixpoint prefixSums (l : list Z) (acc : Z) : list Z := acc :: match l with [] => [] | d :: t => prefixSums t (acc + d) end.
Definition gCache (m : gmesh) (incoming : bool) : res (list Z * list Z) :=
  let* deg := foldM (fun d h => let* v := gKey m incoming h in let* x := rdZ d v in wrZ d v (x + 1)) (gLiveHes m) (repeat 0 (Z.to_nat (gVFill m))) in
  let start := prefixSums deg 0 in
  let* (index, _) := foldM (fun (st : list Z * list Z) h =>
      let (index, cur) := st in
      let* v := gKey m incoming h in let* i := rdZ cur v in let* index := wrZ index i h in let* cur := wrZ cur v (i + 1) in Ok (index, cur))
    (gLiveHes m) (repeat 0 (Z.to_nat (gHeFill m)), start) in
  Ok (index, start).
(** one vertex of initializeHalfedgeNeighbors, :312-345; [checked]: the two tests of the outgoing half *)
Definition gLinkVertex (index start : list Z) (S N P : arr) (checked : bool) (m : gmesh) (v : Z) : res gmesh :=
  let* a := rdZ start v in let* b := rdZ start (v + 1) in
  let* s := rdZ index a in let* m := wrA m S v s in
  foldM (fun m t =>
      let* x := rdZ index (a + t) in let* y := rdZ index ((t + 1) mod (b - a) + a) in
      let* _ := (if checked then let* u := rdA m AVert x in let* _ := guard (u =? v) in let* w := rdA m AVert y in guard (w =? v) else Ok tt) in
      let* m := wrA m N x y in wrA m P y x) (zseq (b - a)) m.
(** initializeHalfedgeNeighbors, :291-350 *)
Definition gInitNeighbors (m : gmesh) : res gmesh :=
  let* (indexIn, startIn) := gCache m true in
  let* (indexOut, startOut) := gCache m false in
  let m := setA m (fun a => match a with
      | AInN | AInP | AOutN | AOutP => resizeZ (ga m a) (gHeCap m)
      | AInS | AOutS => resizeZ (ga m a) (gVCap m)
      | _ => ga m a end) in
  foldM (fun m v => let* m := gLinkVertex indexIn startIn AInS AInN AInP false m v in
                    gLinkVertex indexOut startOut AOutS AOutN AOutP true m v) (gVertices m) m.

(** [order] is the order in which the unordered_map edgeHistory is traversed at :186 *)
Definition gBuild (order : history -> history) (polys : list (list Z)) : res gmesh :=
  let* _ := foldM (fun _ p => guard (3 <=? zlen p)) polys tt in
  let nV := gMaxIndex polys + 1 in
  let* (m, used, _) := foldM gAddFace polys (gStart polys, repeat 0 (Z.to_nat nV), 0) in
  let* _ := foldM (fun _ v => let* u := rdZ used v in guard (negb (u =? 0))) (zseq nV) tt in
  let* (m, d, _) := foldM (fun st p => foldM gAddEdge (gSides p) st) polys (m, [], 0) in
  let* m := foldM gComplete (order d) m in
  let* m := gInitNeighbors m in
  Ok (mkG (ga m) (gHe m) (gInt m) (gEd m) (gVe m) (gFc m) (gHeFill m) (gEFill m) (gVFill m) (gFFill m) (gHeCap m) (gECap m) (gVCap m) (gFCap m) true).

(** getFaceVertexList, surface_mesh.cpp:646-661, with getVertexIndices, :468-476 *)
Definition gVertexIndices (m : gmesh) : res (list Z) :=
  let* (l, _) := foldM (fun (st : list Z * Z) v => let (l, i) := st in let* l := wrZ l v i in Ok (l, i + 1)) (gVertices m) (repeat 0 (Z.to_nat (gVCap m)), 0) in Ok l.
Definition gFaceVertexList (m : gmesh) : res (list (list Z)) :=
  let* ind := gVertexIndices m in
  mapM (fun f => let* hs := gFaceHes m f in mapM (fun h => let* v := rdA m AVert h in rdZ ind v) hs) (gFaces m).
