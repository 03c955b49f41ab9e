(** More mutations of the implicit-twin halfedge mesh: removeVertex, triangulate, insertVertex. *)
From Verif Require Import Base MeshModel.
Open Scope Z_scope.

(** membership in an unordered_set *)
Definition memZ (x : Z) (l : list Z) : bool := existsb (Z.eqb x) l.

(** ** removeVertex, manifold_surface_mesh.cpp:1531-1624. [None] = the null Face.
    The two unordered_sets are lists, appended to in the order of insertion. *)
(** first loop, 1556-1560: the edges of the spokes must be distinct; result: uniqueEdges *)
Fixpoint spokes_check (hs es : list Z) : option (list Z) :=
  match hs with
  | [] => Some es
  | h :: t => if memZ (edge h) es then None else spokes_check t (es ++ [edge h])
  end.
(** inner while loop, 1569-1581: result = (uniqueEdges, uniqueVertices, the run in the order of next) *)
Fixpoint run_loop (fuel : nat) (m : mesh) (out cur : Z) (es vs acc : list Z) : res (option (list Z * list Z * list Z)) :=
  match fuel with
  | O => UB
  | S k =>
    if memZ (edge cur) es then Ok None else
    let* t := vertexOf m cur in
    if memZ t vs then Ok None else
    let* n := next m cur in let* n2 := next m n in
    if n2 =? out then Ok (Some (es ++ [edge cur], vs ++ [t], acc ++ [cur]))
    else run_loop k m out n (es ++ [edge cur]) (vs ++ [t]) (acc ++ [cur])
  end.
(** second loop, 1564-1586; each run is reversed in place *)
Fixpoint ring_runs (m : mesh) (hs es vs ring : list Z) : res (option (list Z)) :=
  match hs with
  | [] => Ok (Some ring)
  | h :: t =>
    let* n := next m h in
    let* r := run_loop (loopFuel m) m h n es vs [] in
    match r with
    | None => Ok None
    | Some (es, vs, run) => ring_runs m t es vs (ring ++ rev run)
    end
  end.
(** 1590-1596: heNext[ring[i]] = ring[(i+N-1)%N]; heFace[ring[i]] = keepFace *)
Fixpoint link_back (m : mesh) (r : list Z) (prev f : Z) : res mesh :=
  match r with
  | [] => Ok m
  | x :: t => let* m := setNext m x prev in let* m := setFace m x f in link_back m t x f
  end.
(** 1599-1607 *)
Fixpoint fix_vertices (m : mesh) (hs : list Z) : res mesh :=
  match hs with
  | [] => Ok m
  | h :: t =>
    let* w := vertexOf m (tw h) in let* x := vHe m w in
    let* m := (if x =? tw h then let* n := next m h in setVHe m w n else Ok m) in
    fix_vertices m t
  end.
(** 1613-1620 *)
Fixpoint delete_star (m : mesh) (hs : list Z) (keep : Z) : res mesh :=
  match hs with
  | [] => Ok m
  | h :: t =>
    let* f := faceOf m h in let* m := deleteEdgeBundle m (edge h) in
    let* m := (if f =? keep then Ok m else deleteFace m f) in
    delete_star m t keep
  end.
Definition removeVertex (m : mesh) (v : Z) : res (mesh * option Z) :=
  let* bd := vIsBoundary m v in
  let* _ := guard (negb bd) in
  let* hs := vertHalfedges m v in
  match spokes_check hs [] with
  | None => Ok (m, None)
  | Some es =>
    let* r := ring_runs m hs es [v] [] in
    match r with
    | None => Ok (m, None)
    | Some ring =>
      let* h0 := match hs with [] => UB | h :: _ => Ok h end in
      let* keep := faceOf m h0 in
      let* m := link_back m ring (last ring INVALID) keep in
      let* m := fix_vertices m hs in
      let* first := match ring with [] => UB | x :: _ => Ok x end in
      let* m := setFHe m keep first in
      let* m := delete_star m hs keep in
      let* m := deleteVertex m v in
      Ok (m, Some keep)
    end
  end.

(** ** triangulate, manifold_surface_mesh.cpp:1784-1809; result: the faces of the fan *)
Fixpoint fan_loop (m : mesh) (con : Z) (hs : list Z) (fs : list Z) : res (mesh * list Z) :=
  match hs with
  | [] => Ok (m, fs)
  | h :: t =>
    let* (m, con) := connectVertices m con h in
    let* f := faceOf m (tw con) in fan_loop m con t (fs ++ [f])
  end.
Definition triangulate (m : mesh) (f : Z) : res (mesh * list Z) :=
  let* _ := guard (negb (isLoop m f)) in
  let* t := isTriangle m f in
  if t : bool then Ok (m, [f]) else
  let* hs := faceHalfedges m f in
  let* h := fHe m f in
  (* i = 2 .. size-2: everything but the first two and the last *)
  fan_loop m h (removelast (skipn 2 hs)) [f].

(** ** insertVertex, manifold_surface_mesh.cpp:964-1037 *)
(** 981-994: the faces and leading halfedges; the i-th trailing halfedge is the twin of the (i-1)-th leading one *)
Fixpoint new_spokes (n : nat) (m : mesh) (first : bool) (f : Z) (fs hs : list Z) : res (mesh * list Z * list Z) :=
  match n with
  | O => Ok (m, fs, hs)
  | S k =>
    let* (m, g) := (if first then Ok (m, f) else getNewFace m) in
    let* (m, h) := getNewEdgeTriple m false in
    new_spokes k m false f (fs ++ [g]) (hs ++ [h])
  end.
(** 1004-1032: one inner face per old halfedge; [tr] is this iteration's trailing halfedge *)
Fixpoint hook_spokes (m : mesh) (center tr : Z) (fs ls bs : list Z) : res mesh :=
  match fs, ls, bs with
  | f :: fs, l :: ls, b :: bs =>
    let* m := setFHe m f b in
    let* m := setNext m l tr in
    let* n := next m b in let* w := vertexOf m n in
    let* m := setVertex m l w in let* m := setFace m l f in
    let* m := setNext m tr b in let* m := setVertex m tr center in let* m := setFace m tr f in
    let* m := setNext m b l in let* m := setFace m b f in
    hook_spokes m center (tw l) fs ls bs
  | _, _, _ => Ok m
  end.
Definition insertVertex (m : mesh) (f : Z) : res (mesh * Z) :=
  let (m, c) := getNewVertex m in
  let* hs0 := faceHalfedges m f in
  let* (m, fs, ls) := new_spokes (length hs0) m true f [] [] in
  let* bs := faceHalfedges m f in
  let tr := tw (last ls INVALID) in
  let* m := hook_spokes m c tr fs ls bs in
  let* m := setVHe m c tr in
  Ok (m, c).
