(** SimplePolygonMesh (src/surface/simple_polygon_mesh.cpp). size_t indices are [nat]; positions and texture coordinates
    are values of arbitrary types P and U. *)
From Verif Require Import Base.
From Coq Require Import Permutation.

(** the three data members, simple_polygon_mesh.h:28-30 *)
Record pmesh (P U : Type) := mkP { polys : list (list nat); verts : list P; uvs : list (list U) }.
Arguments mkP {P U}.
Arguments polys {P U}.
Arguments verts {P U}.
Arguments uvs {P U}.

(** hasParameterization, simple_polygon_mesh.h:35 *)
Definition hasParam {P U} (m : pmesh P U) : bool := match uvs m with [] => false | _ => true end.

(** ** mergeIdenticalVertices, simple_polygon_mesh.cpp:445-477. [eqb] is Vector3's operator==; canonicalIndex is an
    association list (key, index), and find returns an entry whose key equals v. *)
Section Merge.
Context {P U : Type} (eqb : P -> P -> bool).
Definition merge_step (st : list P * list nat * list (P * nat)) (v : P) : list P * list nat * list (P * nat) :=
  let '(cp, cv, canon) := st in
  match find (fun kv => eqb (fst kv) v) canon with
  | None => let cp := cp ++ [v] in let i := length cp - 1 in (cp, cv ++ [i], (v, i) :: canon)
  | Some kv => (cp, cv ++ [snd kv], canon)
  end.
Definition mergeIdenticalVertices (m : pmesh P U) : res (pmesh P U) :=
  let '(cp, cv, _) := fold_left merge_step (verts m) ([], [], []) in
  let* ps := mapM (mapM (rd cv)) (polys m) in
  Ok (mkP ps cp (uvs m)).
End Merge.

(** ** stripUnusedVertices, simple_polygon_mesh.cpp:480-514. INVALID_IND is [None]. *)
Definition mark_used (nV : nat) (used : list bool) (i : nat) : res (list bool) :=
  let* _ := guard (i <? nV) in wr used i true.
Definition reindex_step {P} (used : list bool) (vs : list P) (st : list (option nat) * list P * nat) (i : nat) : res (list (option nat) * list P * nat) :=
  let '(newInd, nv, n) := st in
  let* u := rd used i in
  if (u : bool) then
    let* newInd := wr newInd i (Some n) in
    let* x := rd vs i in
    Ok (newInd, nv ++ [x], S n)
  else Ok st.
(** a polygon entry holding INVALID_IND is not representable as [nat]: UB *)
Definition translate (newInd : list (option nat)) (i : nat) : res nat :=
  let* x := rd newInd i in match x with Some k => Ok k | None => UB end.
Definition stripUnusedVertices {P U} (m : pmesh P U) : res (pmesh P U * list (option nat)) :=
  let nV := length (verts m) in
  let* used := foldM (fun used poly => foldM (mark_used nV) poly used) (polys m) (repeat false nV) in
  let* (newInd, nv, _) := foldM (reindex_step used (verts m)) (seq 0 nV) (repeat None nV, [], 0) in
  let* ps := mapM (mapM (translate newInd)) (polys m) in
  Ok (mkP ps nv (uvs m), newInd).

(** ** stripInvalidFaceWorker, simple_polygon_mesh.cpp:527-591 *)
Definition badInds (nV : nat) (face : list nat) : bool := fold_left (fun cull i => if nV <=? i then true else cull) face false.
Definition lowDegree (face : list nat) : bool := length face <? 3.
(** the double loop for faces of degree < 8 *)
Definition repeatsSmall (face : list nat) : res bool :=
  let D := length face in
  foldM (fun cull i => foldM (fun cull j => let* a := rd face i in let* b := rd face j in Ok (if a =? b then true else cull))
                             (seq (i + 1) (D - (i + 1))) cull) (seq 0 D) false.
(** the unordered_set for larger faces *)
Definition repeatsBig (face : list nat) : bool :=
  fst (fold_left (fun st i => let '(cull, inds) := st in (if existsb (Nat.eqb i) inds then true else cull, i :: inds)) face (false, [])).
(** removeLowDegree is never read: the degree test is guarded by removeWithBadInds (:553) *)
Definition cullFace (nV : nat) (removeWithBadInds removeLowDegree removeWithRepeatedInds : bool) (face : list nat) : res bool :=
  let c1 := if removeWithBadInds then badInds nV face else false in
  let c2 := if removeWithBadInds then (if lowDegree face then true else c1) else c1 in
  if removeWithRepeatedInds then
    let* r := (if length face <? 8 then repeatsSmall face else Ok (repeatsBig face)) in
    Ok (if (r : bool) then true else c2)
  else Ok c2.
Definition stripWorker {P U} (b1 b2 b3 : bool) (m : pmesh P U) : res (pmesh P U) :=
  let* (fs, cs) := foldM (fun st iF =>
      let '(fs, cs) := st in
      let* face := rd (polys m) iF in
      let* cull := cullFace (length (verts m)) b1 b2 b3 face in
      if (cull : bool) then Ok (fs, cs)
      else
        let* cs := (if hasParam m then let* c := rd (uvs m) iF in Ok (cs ++ [c]) else Ok cs) in
        Ok (fs ++ [face], cs)) (seq 0 (length (polys m))) ([], []) in
  Ok (mkP fs (verts m) (if hasParam m then cs else uvs m)).
Definition stripFacesWithDuplicateVertices {P U} (m : pmesh P U) := stripWorker false false true m.
Definition stripInvalidFaces {P U} (m : pmesh P U) := stripWorker true true true m.

(** ** stripDuplicateFaces, simple_polygon_mesh.cpp:593-633. std::sort returns some sorted permutation of its input; the
    two sorts are parameters. [skip] is the inner while loop: it drops the entries with the same sorted index list. *)
Section Dup.
Context {P U : Type} (sortInds : list nat -> list nat) (sortPolys : list (list nat * nat) -> list (list nat * nat)).
Fixpoint list_eqb (a b : list nat) : bool :=
  match a, b with
  | [], [] => true
  | x :: s, y :: t => (x =? y) && list_eqb s t
  | _, _ => false
  end.
Fixpoint skip (key : list nat) (l : list (list nat * nat)) : list (list nat * nat) :=
  match l with
  | (k, _) :: t => if list_eqb key k then skip key t else l
  | [] => []
  end.
Fixpoint keepRuns (fuel : nat) (l : list (list nat * nat)) : res (list nat) :=
  match fuel, l with
  | _, [] => Ok []
  | O, _ => UB
  | S k, (key, i) :: t => let* r := keepRuns k (skip key t) in Ok (i :: r)
  end.
Definition stripDuplicateFaces (m : pmesh P U) : res (pmesh P U) :=
  let sorted := sortPolys (combine (map sortInds (polys m)) (seq 0 (length (polys m)))) in
  let* ks := keepRuns (length sorted) sorted in
  let* fs := mapM (rd (polys m)) ks in
  let* cs := (if hasParam m then mapM (rd (uvs m)) ks else Ok []) in
  Ok (mkP fs (verts m) cs).
End Dup.

(** ** triangulate, simple_polygon_mesh.cpp:635-650; paramCoordinates is not touched *)
Definition triangulatePoly (poly : list nat) : res (list (list nat)) :=
  if length poly <=? 2 then Throw
  else mapM (fun i => let* a := rd poly 0 in let* b := rd poly (i - 1) in let* c := rd poly i in Ok [a; b; c]) (seq 2 (length poly - 2)).
Definition triangulateP {P U} (m : pmesh P U) : res (pmesh P U) :=
  let* ts := foldM (fun acc poly => let* t := triangulatePoly poly in Ok (acc ++ t)) (polys m) [] in
  Ok (mkP ts (verts m) (uvs m)).

(** ** unionMeshes, simple_polygon_mesh.cpp:941-974 *)
Definition unionMeshes {P U} (ms : list (pmesh P U)) : pmesh P U :=
  let keep := fold_left (fun k m => if hasParam m then k else false) ms true in
  let '(fs, vs, cs) := fold_left (fun st m =>
      let '(fs, vs, cs) := st in
      let offset := length vs in
      (fs ++ map (map (fun i => i + offset)) (polys m), vs ++ verts m, if keep then cs ++ uvs m else cs)) ms ([], [], []) in
  mkP fs vs cs.

(** ** OBJ files, simple_polygon_mesh.cpp:901-939 (write), :80-95 and :167-232 (read). A file is a list of lines; a face
    token is the list of its '/'-separated decimal numbers. Number formatting and parsing are not modelled, except that
    parseFaceIndex reads each number into a 32-bit int, which stream extraction clamps to INT_MAX. *)
Inductive line (P U : Type) := LOther | LV (p : P) | LVt (u : U) | LF (toks : list (list nat)).
Arguments LOther {P U}.
Arguments LV {P U}.
Arguments LVt {P U}.
Arguments LF {P U}.

(** the loop writing one face; [iC] is the running corner counter *)
Fixpoint writeFace (hasUV : bool) (iC : nat) (face : list nat) : list (list nat) * nat :=
  match face with
  | [] => ([], iC)
  | ind :: t =>
    if hasUV then let (ts, iC') := writeFace hasUV (S iC) t in ([ind + 1; iC + 1] :: ts, iC')
    else let (ts, iC') := writeFace hasUV iC t in ([ind + 1] :: ts, iC')
  end.
Fixpoint writeFaces {P U} (hasUV : bool) (iC : nat) (fs : list (list nat)) : list (line P U) :=
  match fs with
  | [] => []
  | f :: t => let (ts, iC') := writeFace hasUV iC f in LF ts :: writeFaces hasUV iC' t
  end.
Definition writeObj {P U} (m : pmesh P U) : list (line P U) :=
  repeat LOther 4 ++ map LV (verts m) ++ map LVt (concat (uvs m)) ++ writeFaces (hasParam m) 0 (polys m).

Definition INT_MAX : Z := 2147483647.
Definition clampInt (n : nat) : Z := Z.min (Z.of_nat n) INT_MAX.
(** parseFaceIndex: indices[3] = {1,1,1}, overwritten by the numbers present, minus one; more than three numbers write
    past the array *)
Definition parseFaceIndex (tok : list nat) : res (Z * Z) :=
  match tok with
  | [] => Ok (0, 0)%Z
  | [a] => Ok (clampInt a - 1, 0)%Z
  | [a; b] => Ok (clampInt a - 1, clampInt b - 1)%Z
  | [a; b; _] => Ok (clampInt a - 1, clampInt b - 1)%Z
  | _ => UB
  end.
(** the loop over the tokens of a face line. A token with position 0 makes the reader fetch another line: that branch is
    not modelled (UB here). Negative uv other than -1 cannot occur since numbers are unsigned. *)
Definition readFace (toks : list (list nat)) : res (list nat * list nat) :=
  foldM (fun st tok =>
      let '(face, inds) := st in
      let* (pos, uv) := parseFaceIndex tok in
      if (pos <? 0)%Z then UB
      else Ok (face ++ [Z.to_nat pos], if (uv =? -1)%Z then inds else inds ++ [Z.to_nat uv])) toks ([], []).
Definition readLine {P U} (st : list P * list U * list (list nat) * list (list nat)) (l : line P U)
  : res (list P * list U * list (list nat) * list (list nat)) :=
  let '(vs, coords, fs, inds) := st in
  match l with
  | LOther => Ok st
  | LV p => Ok (vs ++ [p], coords, fs, inds)
  | LVt u => Ok (vs, coords ++ [u], fs, inds)
  | LF toks =>
      let* (face, fi) := readFace toks in
      Ok (vs, coords, fs ++ [face], match fi with [] => inds | _ => inds ++ [fi] end)
  end.
Definition pickCoords {U} (coords : list U) (fi : list nat) : list U :=
  fold_left (fun acc i => match nth_error coords i with Some c => acc ++ [c] | None => acc end) fi [].
Definition readObj {P U} (ls : list (line P U)) : res (pmesh P U) :=
  let* (vs, coords, fs, inds) := foldM readLine ls ([], [], [], []) in
  Ok (mkP fs vs (map (pickCoords coords) inds)).
