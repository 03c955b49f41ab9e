(** What the constraints of a MutationManager mean. Independent of the code of its operations. *)
From Coq Require Import Reals.
From Verif Require Import Base MeshModel MeshSpec MeshOpSpec CollapseSpec DataModel MeshDataModel MeshEvents MeshHistoryModel MeshHistorySpec GeoModel ManagerModel.
Open Scope Z_scope.

(** the constraint on element i: an unset container allows everything *)
Definition says (c : option (mdata bool)) (i : Z) (x : bool) : Prop := match c with None => x = true | Some d => dataAt d i = Ok x end.
Definition forbids c i := says c i false.
(** e may be collapsed: it is not marked, and neither of its end points is fixed *)
Definition collapseOk (g : mgr) (e : Z) : Prop :=
  says (gColl g) e true /\ says (gRepos g) (ve (gMesh g) (eHe e)) true /\ says (gRepos g) (ve (gMesh g) (tw (eHe e))) true.

Definition fitsO {T} (m : mesh) (k : ekind) (c : option (mdata T)) : Prop := match c with None => True | Some d => Fits m k d end.
(** a manager in use: a well-formed mesh, containers that belong to it, only living policies on the lists, and the
    constructor's policy among the split policies *)
Record Good (g : mgr) : Prop := {
  gd_start : Start (gMesh g);
  gd_pos : fitsO (gMesh g) EVertex (gPos g); gd_repos : fitsO (gMesh g) EVertex (gRepos g);
  gd_split : fitsO (gMesh g) EEdge (gSplit g); gd_coll : fitsO (gMesh g) EEdge (gColl g); gd_flip : fitsO (gMesh g) EEdge (gFlip g);
  gd_splitF : fitsO (gMesh g) EFace (gSplitF g);
  gd_alive : forall p, In p (pRepos g ++ pFlip g ++ pSplit g ++ pColl g ++ pFace g) -> In p (gAll g);
  gd_zero : In 0 (pSplit g) }.

(** all elements of kind k that were alive in m keep their entry *)
Definition kept {T} (m : mesh) (k : ekind) (c c' : option (mdata T)) : Prop :=
  match c, c' with
  | None, None => True
  | Some d, Some d' => forall i, liveE m k i -> dataAt d' i = dataAt d i
  | _, _ => False
  end.
(** ... except those on the list *)
Definition keptBut {T} (l : list Z) (m : mesh) (k : ekind) (c c' : option (mdata T)) : Prop :=
  match c, c' with
  | None, None => True
  | Some d, Some d' => forall i, liveE m k i -> ~ In i l -> dataAt d' i = dataAt d i
  | _, _ => False
  end.
(** the policies are the same *)
Definition samePolicies (g g' : mgr) : Prop :=
  gAll g' = gAll g /\ pRepos g' = pRepos g /\ pFlip g' = pFlip g /\ pSplit g' = pSplit g /\ pColl g' = pColl g /\ pFace g' = pFace g.
(** the constraints and positions are the same *)
Definition sameData (g g' : mgr) : Prop :=
  gPos g' = gPos g /\ gRepos g' = gRepos g /\ gSplit g' = gSplit g /\ gColl g' = gColl g /\ gFlip g' = gFlip g /\ gSplitF g' = gSplitF g.
(** the user's policies *)
Definition users (l : list Z) : list Z := filter (fun p => negb (p =? 0)) l.
(** a second edge joins the end points of e *)
Definition parallel (m : mesh) (e : Z) : Prop :=
  exists h, liveH m h /\ edge h <> e /\ ve m h = ve m (eHe e) /\ ve m (tw h) = ve m (tw (eHe e)).

(** a program that uses a manager *)
Inductive mcall :=
  | CFlip (e : Z) | CSplit (e : Z) (t : R) (x : V3) | CSplitAt (e : Z) (t : R) | CSplitNear (e : Z) (x : V3)
  | CReposition (v : Z) (off : V3) | CSplitFace (f : Z) (b : list R) (x : V3)
  | CCollapse (e : Z) (t : R) (x : V3) | CCollapseAt (e : Z) (t : R) | CCollapseNear (e : Z) (x : V3).
Definition runCall (g : mgr) (c : mcall) : res mgr :=
  match c with
  | CFlip e => let* (g, _) := flipEdge g e in Ok g
  | CSplit e t x => let* (g, _) := splitEdge g e t x in Ok g
  | CSplitAt e t => let* (g, _) := splitEdgeAt g e t in Ok g
  | CSplitNear e x => let* (g, _) := splitEdgeNear g e x in Ok g
  | CReposition v off => let* (g, _) := repositionVertex g v off in Ok g
  | CSplitFace f b x => let* (g, _) := splitFace g f b x in Ok g
  | CCollapse e t x => let* (g, _) := collapseEdge g e t x in Ok g
  | CCollapseAt e t => let* (g, _) := collapseEdgeAt g e t in Ok g
  | CCollapseNear e x => let* (g, _) := collapseEdgeNear g e x in Ok g
  end.
Definition runCalls (g : mgr) (l : list mcall) : res mgr := foldM runCall l g.
(** a triangle with two sides on the boundary, the edge being one of them, on the way from the tip: the mesh collapses the
    other one (C17_merges_refuted) *)
Definition earEdge (m : mesh) (e : Z) : Prop := ext m (tw (eHe e)) /\ thin m (eHe e).
(** the arguments of the call exist; the mesh operation is legal *)
Definition CallPre (g : mgr) (c : mcall) : Prop :=
  match c with
  | CFlip e => OpPre (gMesh g) (OFlip e true)
  | CSplit e _ _ | CSplitAt e _ => OpPre (gMesh g) (OSplit e)
  | CSplitNear e _ => OpPre (gMesh g) (OSplit e) /\ gPos g <> None
  | CReposition v _ => liveV (gMesh g) v /\ gPos g <> None
  | CSplitFace f _ _ => liveF (gMesh g) f
  | CCollapse e _ _ | CCollapseAt e _ => OpPre (gMesh g) (OCollapse e) /\ ~ earEdge (gMesh g) e
  | CCollapseNear e _ => OpPre (gMesh g) (OCollapse e) /\ ~ earEdge (gMesh g) e /\ gPos g <> None
  end.
Fixpoint CallsPre (g : mgr) (l : list mcall) : Prop :=
  match l with [] => True | c :: t => CallPre g c /\ forall g', runCall g c = Ok g' -> CallsPre g' t end.
(** vertex v's position, when the manager has a geometry *)
Definition posAt (g : mgr) (v : Z) : option (res V3) := match gPos g with None => None | Some d => Some (dataAt d v) end.
(** between g and g', every edge that may be neither flipped nor split joins the same vertices as before, every fixed vertex
    has not moved, and they are still marked *)
Definition edgesRespected (g g' : mgr) : Prop :=
  (forall e, liveH (gMesh g) (eHe e) -> forbids (gFlip g) e -> forbids (gSplit g) e ->
     liveH (gMesh g') (eHe e) /\ ve (gMesh g') (eHe e) = ve (gMesh g) (eHe e) /\ ve (gMesh g') (tw (eHe e)) = ve (gMesh g) (tw (eHe e)) /\
     forbids (gFlip g') e /\ forbids (gSplit g') e).
Definition verticesRespected (g g' : mgr) : Prop :=
  (forall v, liveV (gMesh g) v -> forbids (gRepos g) v -> liveV (gMesh g') v /\ posAt g' v = posAt g v /\ forbids (gRepos g') v).

Definition respected (g g' : mgr) : Prop := edgesRespected g g' /\ verticesRespected g g'.
(** the call asks for a collapse *)
Definition isCollapse (c : mcall) : Prop := match c with CCollapse _ _ _ | CCollapseAt _ _ | CCollapseNear _ _ => True | _ => False end.

(** edge e of g was split at x, giving g': v is the new vertex, eFill the new edge; c: what both pieces are told about
    collapsing. All entries of the elements of g are kept, except e's mark for collapsing (which becomes c) *)
Record SplitDone (g g' : mgr) (e v : Z) (x : V3) (c : bool) : Prop := {
  sd_good : Good g'; sd_pol : samePolicies g g';
  sd_pos : match gPos g, gPos g' with None, None => True | Some d, Some d' => dataAt d' v = Ok x /\ forall w, liveV (gMesh g) w -> dataAt d' w = dataAt d w | _, _ => False end;
  sd_repos : kept (gMesh g) EVertex (gRepos g) (gRepos g'); sd_face : kept (gMesh g) EFace (gSplitF g) (gSplitF g');
  sd_split : keptBut [] (gMesh g) EEdge (gSplit g) (gSplit g'); sd_flip : keptBut [] (gMesh g) EEdge (gFlip g) (gFlip g');
  sd_coll : keptBut [e] (gMesh g) EEdge (gColl g) (gColl g');
  sd_new : forall b, (says (gSplit g) e b -> says (gSplit g') (eFill (gMesh g)) b) /\ (says (gFlip g) e b -> says (gFlip g') (eFill (gMesh g)) b);
  sd_coll2 : gColl g <> None -> says (gColl g') e c /\ says (gColl g') (eFill (gMesh g)) c;
  sd_c : c = true <-> collapseOk g e }.
