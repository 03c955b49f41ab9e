(** Operations on a general mesh: surface_mesh.cpp:699-1067 *)
From Verif Require Import Base MeshModel GenModel.
Open Scope Z_scope.

(** ** linked lists around a vertex *)
(** removeFromVertexLists, :699-720; the two halves, over the incoming and over the outgoing arrays *)
Definition gUnlink (m : gmesh) (S N P : arr) (i : Z) (vertex : gmesh -> res Z) : res gmesh :=
  let* iN := rdA m N i in let* iP := rdA m P i in
  let* m := wrA m N iP iN in let* m := wrA m P iN iP in
  let* m := wrA m N i INVALID in let* m := wrA m P i INVALID in
  let* v := vertex m in
  wrA m S v (if iP =? i then INVALID else iP).
Definition gRemoveFromVertexLists (m : gmesh) (i : Z) : res gmesh :=
  let* m := gUnlink m AInS AInN AInP i (fun m => gTip m i) in
  gUnlink m AOutS AOutN AOutP i (fun m => gTail m i).
(** addToVertexLists, :721-762 *)
Definition gLink (m : gmesh) (S N P : arr) (i : Z) (vertex : gmesh -> res Z) : res gmesh :=
  let* v := vertex m in
  let* iN := rdA m S v in
  if iN =? INVALID then let* m := wrA m P i i in let* m := wrA m N i i in wrA m S v i
  else
    let* iP := rdA m P iN in
    let* m := wrA m N iP i in let* m := wrA m P i iP in let* m := wrA m N i iN in wrA m P iN i.
Definition gAddToVertexLists (m : gmesh) (i : Z) : res gmesh :=
  let* m := gLink m AInS AInN AInP i (fun m => gTip m i) in
  gLink m AOutS AOutN AOutP i (fun m => gTail m i).
(** removeFromSiblingList, :764-772 *)
Fixpoint gFindPrevSib (fuel : nat) (m : gmesh) (he hePrev : Z) : res Z :=
  match fuel with
  | O => UB
  | S k => let* s := rdA m ASib hePrev in if s =? he then Ok hePrev else gFindPrevSib k m he s
  end.
Definition gRemoveFromSiblingList (m : gmesh) (he : Z) : res gmesh :=
  let* n := rdA m ASib he in
  let* p := gFindPrevSib (gFuel m) m he n in
  wrA m ASib p n.

(** ** queries, halfedge_element_types.ipp:331-352: in a general mesh every halfedge is interior *)
Definition gEdgeIsBoundary (m : gmesh) (e : Z) : res bool := let* h := rdA m AEHe e in let* s := rdA m ASib h in Ok (s =? h).
Definition gEdgeIsManifold (m : gmesh) (e : Z) : res bool :=
  let* h := rdA m AEHe e in let* s := rdA m ASib h in let* t := rdA m ASib s in Ok ((t =? h) || (s =? h)).
Definition gEdgeIsOriented (m : gmesh) (e : Z) : res bool :=
  let* h := rdA m AEHe e in let* s := rdA m ASib h in
  if h =? s then Ok true else
  let* t := rdA m ASib s in if negb (t =? h) then Ok false else
  let* a := rdA m AOri h in let* b := rdA m AOri s in Ok (negb (a =? b)).
Definition gEdgeDegree (m : gmesh) (e : Z) : res Z := let* l := gEdgeHes m e in Ok (Z.of_nat (length l)).

(** ** invertOrientation, :773-804 *)
Fixpoint gInvertLoop (fuel : nat) (m : gmesh) (firstHe firstVert prev curr : Z) : res (gmesh * Z) :=
  match fuel with
  | O => UB
  | S k =>
    let* n := rdA m ANext curr in
    let* v := (if n =? firstHe then Ok firstVert else rdA m AVert n) in
    let* m := wrA m AVert curr v in let* m := wrA m AVHe v curr in
    let* o := rdA m AOri curr in let* m := wrA m AOri curr (if o =? 0 then 1 else 0) in
    let* m := (if prev =? INVALID then Ok m else wrA m ANext curr prev) in
    if n =? firstHe then Ok (m, curr) else gInvertLoop k m firstHe firstVert curr n
  end.
Definition gInvertOrientation (m : gmesh) (f : Z) : res gmesh :=
  let* l := gFaceHes m f in
  let* m := foldM gRemoveFromVertexLists l m in
  let* firstHe := rdA m AFHe f in let* firstVert := rdA m AVert firstHe in
  let* (m, prev) := gInvertLoop (gFuel m) m firstHe firstVert INVALID firstHe in
  let* m := wrA m ANext firstHe prev in
  let* l := gFaceHes m f in
  foldM gAddToVertexLists l m.

(** ** duplicateFace, :806-846 *)
Definition gDupStep (newFace : Z) (st : gmesh * Z * Z) (oldHe : Z) : res (gmesh * Z * Z) :=
  let '(m, prev, first) := st in
  let (m, newHe) := gNewHalfedge m false in
  let* (m, first) := (if first =? INVALID then let* m := wrA m AFHe newFace newHe in Ok (m, newHe)
                      else let* m := wrA m ANext prev newHe in Ok (m, first)) in
  let* v := rdA m AVert oldHe in let* m := wrA m AVert newHe v in
  let* e := rdA m AEdge oldHe in let* m := wrA m AEdge newHe e in
  let* o := rdA m AOri oldHe in let* m := wrA m AOri newHe o in
  let* m := wrA m AFace newHe newFace in
  let* sibN := rdA m ASib oldHe in
  let* m := wrA m ASib oldHe newHe in let* m := wrA m ASib newHe sibN in
  Ok (m, newHe, first).
(** the face circulator reads oldHe.next() after the body: the halfedges of f keep their next() *)
Definition gDuplicateFace (m : gmesh) (f : Z) : res (gmesh * Z) :=
  let* l := gFaceHes m f in
  let (m, newFace) := gNewFace m in
  let* (m, prev, first) := foldM (gDupStep newFace) l (m, INVALID, INVALID) in
  let* m := wrA m ANext prev first in
  let* l := gFaceHes m newFace in
  let* m := foldM gAddToVertexLists l m in
  Ok (m, newFace).

(** ** separateToNewEdge, :930-964 *)
Definition gSeparateToNewEdge (m : gmesh) (heA heB : Z) : res (gmesh * Z) :=
  let* eA := rdA m AEdge heA in let* eB := rdA m AEdge heB in
  let* _ := guard (eA =? eB) in let* _ := guard (negb (heA =? heB)) in
  let* d := gEdgeDegree m eA in
  if d <=? 2 then Ok (m, eA) else
  let e := eA in
  let (m, newE) := gNewEdge m in
  let* l := gEdgeHes m e in
  let* m := match find (fun h => negb (h =? heA) && negb (h =? heB)) l with Some h => wrA m AEHe e h | None => Ok m end in
  let* m := gRemoveFromSiblingList m heA in
  let* m := gRemoveFromSiblingList m heB in
  let* m := wrA m AEHe newE heA in
  let* m := wrA m AEdge heA newE in let* m := wrA m AEdge heB newE in
  let* m := wrA m ASib heA heB in let* m := wrA m ASib heB heA in
  Ok (m, newE).
(** separateNonmanifoldEdges, :966-977: the range of edges is fixed when the loop starts *)
Fixpoint gSeparateLoop (fuel : nat) (m : gmesh) (e : Z) : res gmesh :=
  match fuel with
  | O => UB
  | S k =>
    let* b := gEdgeIsManifold m e in
    if b then Ok m else
    let* heA := rdA m AEHe e in let* heB := rdA m ASib heA in
    let* (m, _) := gSeparateToNewEdge m heA heB in
    gSeparateLoop k m e
  end.
Definition gSeparateNonmanifoldEdges (m : gmesh) : res gmesh :=
  foldM (fun m e => let* h := rdA m AEHe e in if h =? INVALID then Ok m else gSeparateLoop (gFuel m) m e) (zseq (gEFill m)) m.

(** ** flip, :848-928; with implicit twins: MeshModel *)
(** v.adjacentVertices(): the outgoing, then the incoming halfedges that are the halfedge() of their edge,
    halfedge_element_types.ipp:137-187 *)
Definition gIsCanonical (m : gmesh) (h : Z) : res bool := let* e := rdA m AEdge h in let* h0 := rdA m AEHe e in Ok (h =? h0).
Fixpoint filterM {A} (p : A -> res bool) (l : list A) : res (list A) :=
  match l with [] => Ok [] | a :: t => let* b := p a in let* t := filterM p t in Ok (if b : bool then a :: t else t) end.
Definition gFlipOriented (m : gmesh) (preventSelfEdges : bool) (ha1 ha2 ha3 hb1 hb2 hb3 : Z) : res (gmesh * bool) :=
  let* va := rdA m AVert ha1 in let* vb := rdA m AVert hb1 in let* vc := rdA m AVert ha3 in let* vd := rdA m AVert hb3 in
  let* dup := (if preventSelfEdges then
      let* lo := gOutHes m vc in let* lo := filterM (gIsCanonical m) lo in let* so := mapM (gTip m) lo in
      let* li := gInHes m vc in let* li := filterM (gIsCanonical m) li in let* si := mapM (gTail m) li in
      Ok (existsb (fun v => v =? vd) (so ++ si)) else Ok false) in
  if dup : bool then Ok (m, false) else
  let* fa := rdA m AFace ha1 in let* fb := rdA m AFace hb1 in
  let* m := gRemoveFromVertexLists m ha1 in let* m := gRemoveFromVertexLists m hb1 in
  let* x := rdA m AVHe va in let* m := (if x =? ha1 then wrA m AVHe va hb2 else Ok m) in
  let* x := rdA m AVHe vb in let* m := (if x =? hb1 then wrA m AVHe vb ha2 else Ok m) in
  let* m := wrA m AFHe fa ha1 in let* m := wrA m AFHe fb hb1 in
  let* m := wrA m ANext ha1 hb3 in let* m := wrA m ANext hb3 ha2 in let* m := wrA m ANext ha2 ha1 in
  let* m := wrA m ANext hb1 ha3 in let* m := wrA m ANext ha3 hb2 in let* m := wrA m ANext hb2 hb1 in
  let* m := wrA m AVert ha1 vc in let* m := wrA m AVert hb1 vd in
  let* m := wrA m AFace ha3 fb in let* m := wrA m AFace hb3 fa in
  let* m := gAddToVertexLists m ha1 in let* m := gAddToVertexLists m hb1 in
  Ok (m, true).
(** [depth]: how often flip may call itself *)
Fixpoint gFlip (depth : nat) (m : gmesh) (e : Z) (preventSelfEdges : bool) : res (gmesh * bool) :=
  match depth with
  | O => UB
  | S k =>
    let* b := gEdgeIsBoundary m e in if b : bool then Ok (m, false) else
    let* ha1 := rdA m AEHe e in let* ha2 := rdA m ANext ha1 in let* ha3 := rdA m ANext ha2 in
    let* n := rdA m ANext ha3 in if negb (n =? ha1) then Ok (m, false) else
    let* hb1 := rdA m ASib ha1 in let* hb2 := rdA m ANext hb1 in let* hb3 := rdA m ANext hb2 in
    let* n := rdA m ANext hb3 in if negb (n =? hb1) then Ok (m, false) else
    let* s := rdA m ASib hb1 in if negb (s =? ha1) then Ok (m, false) else
    if (ha2 =? hb1) || (hb2 =? ha1) then Ok (m, false) else
    let* oa := rdA m AOri ha1 in let* ob := rdA m AOri hb1 in
    if oa =? ob then
      let* f := rdA m AFace ha1 in let* m := gInvertOrientation m f in
      let* (m, r) := gFlip k m e preventSelfEdges in
      let* f := rdA m AFace ha1 in let* m := gInvertOrientation m f in
      Ok (m, r)
    else gFlipOriented m preventSelfEdges ha1 ha2 ha3 hb1 hb2 hb3
  end.
