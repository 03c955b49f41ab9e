(** MutationManager, src/surface/mutation_manager.cpp and include/geometrycentral/surface/mutation_manager.h.
    A policy object is a number; the user's policies only observe: what they are told, and the mesh they see, goes to a log.
    Number 0 is the policy the constructor registers (:22-48). Doubles are exact reals. *)
From Coq Require Import Reals.
From Verif Require Import Base MeshModel MeshModel2 DataModel MeshDataModel GeoModel CollapseModel.
Open Scope Z_scope.

(** a call of a policy's virtual function (mutation_manager.h:38-68): the policy, the arguments, the mesh at that moment *)
Inductive event :=
  | BeforeReposition (p v : Z) (off : V3) (m : mesh)
  | BeforeFlip (p e : Z) (m : mesh) | AfterFlip (p e : Z) (m : mesh)
  | BeforeSplit (p e : Z) (t : R) (m : mesh) | AfterSplit (p h1 h2 : Z) (t : R) (m : mesh)
  | BeforeCollapse (p e : Z) (t : R) (m : mesh) | AfterCollapse (p v : Z) (t : R) (m : mesh)
  | BeforeFaceSplit (p f : Z) (b : list R) (m : mesh) | AfterFaceSplit (p v : Z) (b : list R) (m : mesh).

(** mutation_manager.h:91-139, 318-329. A constraint container that is not set has size() 0: [None]. [gCache] is the [data]
    field of the constructor's policy (mutation_manager.ipp:42, SimpleSplitUpdater<T>::data) *)
Record mgr := mkMgr {
  gMesh : mesh; gPos : option (mdata V3);
  gRepos : option (mdata bool); gSplit : option (mdata bool); gColl : option (mdata bool); gFlip : option (mdata bool); gSplitF : option (mdata bool);
  gAll : list Z; pRepos : list Z; pFlip : list Z; pSplit : list Z; pColl : list Z; pFace : list Z;
  gCache : bool * bool * bool; gLog : list event }.
Definition withLog (g : mgr) l := mkMgr (gMesh g) (gPos g) (gRepos g) (gSplit g) (gColl g) (gFlip g) (gSplitF g) (gAll g) (pRepos g) (pFlip g) (pSplit g) (pColl g) (pFace g) (gCache g) l.
Definition withCache (g : mgr) c := mkMgr (gMesh g) (gPos g) (gRepos g) (gSplit g) (gColl g) (gFlip g) (gSplitF g) (gAll g) (pRepos g) (pFlip g) (pSplit g) (pColl g) (pFace g) c (gLog g).
Definition withPos (g : mgr) x := mkMgr (gMesh g) x (gRepos g) (gSplit g) (gColl g) (gFlip g) (gSplitF g) (gAll g) (pRepos g) (pFlip g) (pSplit g) (pColl g) (pFace g) (gCache g) (gLog g).
Definition withEdges (g : mgr) s c f := mkMgr (gMesh g) (gPos g) (gRepos g) s c f (gSplitF g) (gAll g) (pRepos g) (pFlip g) (pSplit g) (pColl g) (pFace g) (gCache g) (gLog g).
Definition withRepos (g : mgr) x := mkMgr (gMesh g) (gPos g) x (gSplit g) (gColl g) (gFlip g) (gSplitF g) (gAll g) (pRepos g) (pFlip g) (pSplit g) (pColl g) (pFace g) (gCache g) (gLog g).
Definition withSplitF (g : mgr) x := mkMgr (gMesh g) (gPos g) (gRepos g) (gSplit g) (gColl g) (gFlip g) x (gAll g) (pRepos g) (pFlip g) (pSplit g) (pColl g) (pFace g) (gCache g) (gLog g).
Definition withPolicies (g : mgr) a r f s c k := mkMgr (gMesh g) (gPos g) (gRepos g) (gSplit g) (gColl g) (gFlip g) (gSplitF g) a r f s c k (gCache g) (gLog g).

(** the mesh was mutated: the manager's containers, registered with it, follow (mesh_data.ipp:83-122) *)
Definition followO {T} (k : ekind) (m m' : mesh) (o : option (mdata T)) : res (option (mdata T)) :=
  match o with None => Ok None | Some d => let* d := follow k m m' d in Ok (Some d) end.
Definition withMesh (g : mgr) (m' : mesh) : res mgr :=
  let m := gMesh g in
  let* x := followO EVertex m m' (gPos g) in let* r := followO EVertex m m' (gRepos g) in
  let* s := followO EEdge m m' (gSplit g) in let* c := followO EEdge m m' (gColl g) in let* f := followO EEdge m m' (gFlip g) in
  let* k := followO EFace m m' (gSplitF g) in
  Ok (mkMgr m' x r s c f k (gAll g) (pRepos g) (pFlip g) (pSplit g) (pColl g) (pFace g) (gCache g) (gLog g)).

(** ** constraints *)
(** size() == 0 || c[i], :54-56, 63, 85, 92 *)
Definition allows (c : option (mdata bool)) (i : Z) : res bool := match c with None => Ok true | Some d => dataAt d i end.
Definition mayRepositionVertex (g : mgr) (v : Z) : res bool := allows (gRepos g) v.
Definition maySplitEdge (g : mgr) (e : Z) : res bool := allows (gSplit g) e.
(** :70-78 *)
Definition mayCollapseEdge (g : mgr) (e : Z) : res bool :=
  let* a := allows (gColl g) e in
  if negb a then Ok false else
  let* v := (match gRepos g with
             | None => Ok true
             | Some d => let* v := vertexOf (gMesh g) (eHe e) in let* x := dataAt d v in
                         if negb x then Ok false else
                         let* w := vertexOf (gMesh g) (tw (eHe e)) in dataAt d w
             end) in
  if negb v then Ok false else allows (gColl g) e.
Definition mayFlipEdge (g : mgr) (e : Z) : res bool := allows (gFlip g) e.
Definition maySplitFace (g : mgr) (f : Z) : res bool := allows (gSplitF g) f.
(** set...(container, defaultValue): a copy, then setDefault; clear...(), :50-92 *)
Definition setConstraint (g : mgr) (k : ekind) (d : mdata bool) (x : bool) : res (option (mdata bool)) :=
  let* els := elements (gMesh g) k in Ok (Some (md_setDefault els x d)).
Definition setRepositionableVertices (g : mgr) d x : res mgr := let* c := setConstraint g EVertex d x in Ok (withRepos g c).
Definition setSplittableEdges (g : mgr) d x : res mgr := let* c := setConstraint g EEdge d x in Ok (withEdges g c (gColl g) (gFlip g)).
Definition setCollapsibleEdges (g : mgr) d x : res mgr := let* c := setConstraint g EEdge d x in Ok (withEdges g (gSplit g) c (gFlip g)).
Definition setFlippableEdges (g : mgr) d x : res mgr := let* c := setConstraint g EEdge d x in Ok (withEdges g (gSplit g) (gColl g) c).
Definition setSplittableFaces (g : mgr) d x : res mgr := let* c := setConstraint g EFace d x in Ok (withSplitF g c).

(** ** policies *)
(** calling a policy that was deleted is a use after free *)
Definition alive (g : mgr) (p : Z) : bool := existsb (Z.eqb p) (gAll g).
Definition call (g : mgr) (p : Z) (ev : event) : res mgr := if alive g p then Ok (withLog g (gLog g ++ [ev])) else UB.
Definition callAll (g : mgr) (ps : list Z) (ev : Z -> event) : res mgr := foldM (fun g p => call g p (ev p)) ps g.
(** which kinds of policy the object is: dynamic_cast, :338-344 *)
Record pkind := mkKind { kRepos : bool; kFlip : bool; kSplit : bool; kColl : bool; kFace : bool }.
Definition pushIf (b : bool) (l : list Z) (p : Z) : list Z := if b then l ++ [p] else l.
(** registerPolicy, :360-382 *)
Definition registerPolicy (g : mgr) (p : Z) (k : pkind) : mgr :=
  withPolicies g (gAll g ++ [p]) (pushIf (kRepos k) (pRepos g) p) (pushIf (kFlip k) (pFlip g) p) (pushIf (kSplit k) (pSplit g) p)
    (pushIf (kColl k) (pColl g) p) (pushIf (kFace k) (pFace g) p).
(** removePolicy, :384-393: the list of face split policies is not touched. removeFromVector, utilities.h:108-111, and
    removeUniquePtrFromVector, :347-355 (the first occurrence) *)
Definition removeFrom (p : Z) (l : list Z) : list Z := filter (fun q => negb (q =? p)) l.
Fixpoint removeFirst (p : Z) (l : list Z) : list Z := match l with [] => [] | q :: t => if q =? p then t else q :: removeFirst p t end.
Definition removePolicy (g : mgr) (p : Z) : mgr :=
  withPolicies g (removeFirst p (gAll g)) (removeFrom p (pRepos g)) (removeFrom p (pFlip g)) (removeFrom p (pSplit g)) (removeFrom p (pColl g)) (pFace g).
(** the constructors, :12-17; the constructor's policy is a SimpleSplitUpdater *)
Definition newManager (m : mesh) (pos : option (mdata V3)) : mgr :=
  registerPolicy (mkMgr m pos None None None None None [] [] [] [] [] [] (false, false, false) []) 0 (mkKind false false true false false).

(** ** mutations *)
(** :98-108; without geometry the null pointer is dereferenced *)
Definition repositionVertex (g : mgr) (v : Z) (off : V3) : res (mgr * bool) :=
  let* a := mayRepositionVertex g v in
  if negb a then Ok (g, false) else
  let* g := callAll g (pRepos g) (fun p => BeforeReposition p v off (gMesh g)) in
  match gPos g with
  | None => UB
  | Some d => let* x := dataAt d v in let* d := setAt d v (add3 x off) in Ok (withPos g (Some d), true)
  end.

(** :111-141; Mesh::flip's second argument defaults to true (surface_mesh.h) *)
Definition flipEdge (g : mgr) (e : Z) : res (mgr * bool) :=
  let* a := mayFlipEdge g e in
  if negb a then Ok (g, false) else
  let* (m1, canFlip) := flip (gMesh g) e true in let* g1 := withMesh g m1 in
  if negb canFlip then Ok (g1, false) else
  let* (m2, _) := flip m1 e true in let* g2 := withMesh g1 m2 in
  let* g3 := callAll g2 (pFlip g2) (fun p => BeforeFlip p e m2) in
  let* (m3, _) := flip m2 e true in let* g4 := withMesh g3 m3 in
  let* g5 := callAll g4 (pFlip g4) (fun p => AfterFlip p e m3) in
  Ok (g5, true).

(** one EdgeSplitPolicy; the constructor's caches the three answers, :24-29, and writes them to both pieces, :30-44 *)
Definition callBeforeSplit (g : mgr) (e : Z) (t : R) (p : Z) : res mgr :=
  if p =? 0 then
    if alive g 0 then let* s := maySplitEdge g e in let* c := mayCollapseEdge g e in let* f := mayFlipEdge g e in Ok (withCache g (s, c, f)) else UB
  else call g p (BeforeSplit p e t (gMesh g)).
Definition setBoth (c : option (mdata bool)) (e1 e2 : Z) (x : bool) : res (option (mdata bool)) :=
  match c with None => Ok None | Some d => let* d := setAt d e1 x in let* d := setAt d e2 x in Ok (Some d) end.
Definition callAfterSplit (g : mgr) (h1 h2 : Z) (t : R) (p : Z) : res mgr :=
  if p =? 0 then
    if alive g 0 then
      let '(s, c, f) := gCache g in
      let* ss := setBoth (gSplit g) (edge h1) (edge h2) s in let* cc := setBoth (gColl g) (edge h1) (edge h2) c in
      let* ff := setBoth (gFlip g) (edge h1) (edge h2) f in Ok (withEdges g ss cc ff)
    else UB
  else call g p (AfterSplit p h1 h2 t (gMesh g)).
Definition setPos (g : mgr) (v : Z) (x : V3) : res mgr :=
  match gPos g with None => Ok g | Some d => let* d := setAt d v x in Ok (withPos g (Some d)) end.

(** :172-197; [None] is the null halfedge *)
Definition splitEdge (g : mgr) (e : Z) (t : R) (x : V3) : res (mgr * option Z) :=
  let* a := maySplitEdge g e in
  if negb a then Ok (g, None) else
  let* g := foldM (fun g p => callBeforeSplit g e t p) (pSplit g) g in
  let* (m', front) := splitEdgeTriangular (gMesh g) e in let* g := withMesh g m' in
  let* v := vertexOf m' front in
  let* g := setPos g v x in
  let* q := prevOrbitFace m' front in let* q := prevOrbitFace m' (tw q) in let back := tw q in
  let* g := foldM (fun g p => callAfterSplit g front back t p) (pSplit g) g in
  Ok (g, Some front).
(** (1 - t) * pos[tail] + t * pos[tip] *)
Definition lerp (t : R) (a b : V3) : V3 := add3 (mul3 a (1 - t)%R) (mul3 b t).
Definition endPositions (g : mgr) (d : mdata V3) (e : Z) : res (V3 * V3) :=
  let* v := vertexOf (gMesh g) (eHe e) in let* a := dataAt d v in let* w := vertexOf (gMesh g) (tw (eHe e)) in let* b := dataAt d w in Ok (a, b).
(** :144-153 *)
Definition splitEdgeAt (g : mgr) (e : Z) (t : R) : res (mgr * option Z) :=
  let* a := maySplitEdge g e in
  if negb a then Ok (g, None) else
  let* x := (match gPos g with None => Ok (mk3 0 0 0) | Some d => let* (a, b) := endPositions g d e in Ok (lerp t a b) end) in
  splitEdge g e t x.
(** :155-170 *)
Definition splitEdgeNear (g : mgr) (e : Z) (x : V3) : res (mgr * option Z) :=
  let* a := maySplitEdge g e in
  if negb a then Ok (g, None) else
  match gPos g with
  | None => Throw
  | Some d => let* (a, b) := endPositions g d e in splitEdge g e (pointLineSegmentNeaestLocation x a b) x
  end.

(** :231-255; [None] is the null vertex *)
Definition collapseEdge (g : mgr) (e : Z) (t : R) (x : V3) : res (mgr * option Z) :=
  let* a := mayCollapseEdge g e in
  if negb a then Ok (g, None) else
  let* g := callAll g (pColl g) (fun p => BeforeCollapse p e t (gMesh g)) in
  let* (m', r) := collapseEdgeTriangular (gMesh g) e in let* g := withMesh g m' in
  match r with
  | None => Ok (g, None)
  | Some v => let* g := setPos g v x in let* g := callAll g (pColl g) (fun p => AfterCollapse p v t m') in Ok (g, Some v)
  end.
(** :201-211 *)
Definition collapseEdgeAt (g : mgr) (e : Z) (t : R) : res (mgr * option Z) :=
  let* a := mayCollapseEdge g e in
  if negb a then Ok (g, None) else
  let* x := (match gPos g with None => Ok (mk3 0 0 0) | Some d => let* (a, b) := endPositions g d e in Ok (lerp t a b) end) in
  collapseEdge g e t x.
(** :213-229: the parameter computed in the inner scope is a new variable; the outer one stays -1 *)
Definition collapseEdgeNear (g : mgr) (e : Z) (x : V3) : res (mgr * option Z) :=
  let* a := mayCollapseEdge g e in
  if negb a then Ok (g, None) else
  match gPos g with
  | None => Throw
  | Some d => let* _ := endPositions g d e in collapseEdge g e (-1)%R x
  end.

(** :283-306 *)
Definition splitFace (g : mgr) (f : Z) (b : list R) (x : V3) : res (mgr * option Z) :=
  let* a := maySplitFace g f in
  if negb a then Ok (g, None) else
  let* g := callAll g (pFace g) (fun p => BeforeFaceSplit p f b (gMesh g)) in
  let* (m', v) := insertVertex (gMesh g) f in let* g := withMesh g m' in
  let* g := setPos g v x in
  let* g := callAll g (pFace g) (fun p => AfterFaceSplit p v b m') in
  Ok (g, Some v).
(** :258-272: bSplit[iV] past the end is undefined *)
Fixpoint combine3 (d : mdata V3) (vs : list Z) (b : list R) (acc : V3) : res V3 :=
  match vs with
  | [] => Ok acc
  | v :: vs => match b with [] => UB | w :: b => let* x := dataAt d v in combine3 d vs b (add3 acc (mul3 x w)) end
  end.
Definition splitFaceAt (g : mgr) (f : Z) (b : list R) : res (mgr * option Z) :=
  let* a := maySplitFace g f in
  if negb a then Ok (g, None) else
  let* x := (match gPos g with
             | None => Ok (mk3 0 0 0)
             | Some d => let* hs := faceHalfedges (gMesh g) f in let* vs := mapM (vertexOf (gMesh g)) hs in combine3 d vs b (mk3 0 0 0)
             end) in
  splitFace g f b x.
(** :274-280 *)
Definition splitFaceNear (g : mgr) (f : Z) (x : V3) : res (mgr * option Z) :=
  let* a := maySplitFace g f in if negb a then Ok (g, None) else Throw.
