(** C47: MutationManager *)
From Coq Require Import Reals Lra.
From Verif Require Import Base MeshModel MeshModel2 MeshSpec MeshOpSpec MeshCheck MeshExamples DataModel MeshDataModel MeshEvents
  MeshHistoryModel MeshHistorySpec MeshHistory MeshHistoryCheck CollapseSpec CollapseEvents GeoModel CollapseModel ManagerModel ManagerSpec ManagerProofs.
Open Scope Z_scope.

(** Good managers: construction gives one, setting constraints and registering policies keep it (the calls: below) *)
Theorem C47_new m pos : Start m -> fitsO m EVertex pos -> Good (newManager m pos).
Proof. exact (new_good m pos). Qed.
Print Assumptions C47_new.
Theorem C47_register g p k : Good g -> Good (registerPolicy g p k).
Proof. exact (register_good g p k). Qed.
Print Assumptions C47_register.
Theorem C47_set g k d x : Good g -> k <> ELoop -> Fits (gMesh g) k d ->
  exists c, setConstraint g k d x = Ok (Some c) /\ Fits (gMesh g) k c /\ forall i, liveE (gMesh g) k i -> dataAt c i = dataAt d i.
Proof. exact (set_good g k d x). Qed.
Print Assumptions C47_set.
(** a removed policy is on no list any more, if it is not a face split policy *)
Theorem C47_remove g p : Good g -> p <> 0 -> ~ In p (pFace g) -> Good (removePolicy g p) /\
  forall q, In q (pRepos (removePolicy g p) ++ pFlip (removePolicy g p) ++ pSplit (removePolicy g p) ++ pColl (removePolicy g p) ++ pFace (removePolicy g p)) -> q <> p.
Proof. exact (remove_good g p). Qed.
Print Assumptions C47_remove.

(** flipEdge: succeeds exactly when the constraint and the mesh allow it; otherwise nothing changes and nobody is called. On
    success every flip policy is called once before and once after; the edge joins the two opposite corners. The policies
    called "before" see the edge where it was (its two sides exchanged), unless a second edge joins its end points: then
    they see the result. *)
Theorem C47_flip g e : Good g -> OpPre (gMesh g) (OFlip e true) ->
  let m := gMesh g in let a := eHe e in let b := tw a in let c := ve m (nx m (nx m a)) in let d := ve m (nx m (nx m b)) in
  exists g' ok, flipEdge g e = Ok (g', ok) /\ Good g' /\
    (ok = true <-> ~ forbids (gFlip g) e /\ flippable m a /\ ~ joined m c d) /\
    (ok = false -> g' = g) /\
    (ok = true -> let m' := gMesh g' in
      counts m' = counts m /\ same_elements m m' /\
      (ve m' a = c /\ ve m' b = d \/ ve m' a = d /\ ve m' b = c) /\ (forall h, h <> a -> h <> b -> ve m' h = ve m h) /\
      flippable m' a /\ samePolicies g g' /\ sameData g g' /\
      exists mb, gLog g' = gLog g ++ map (fun p => BeforeFlip p e mb) (pFlip g) ++ map (fun p => AfterFlip p e m') (pFlip g) /\
        (~ parallel m e -> Valid mb /\ ve mb a = ve m b /\ ve mb b = ve m a /\ (forall h, h <> a -> h <> b -> ve mb h = ve m h)) /\
        (parallel m e -> mb = m')).
Proof. exact (flip_edge_ok g e). Qed.
Print Assumptions C47_flip.

(** splitEdge: a marked edge is left alone. Otherwise the mesh is split (C14 says what that does), the new vertex gets the
    position, both pieces of the edge have the constraints the edge had, no other entry of a live element changes, and each
    split policy of the user is called once before and once after. The pieces: edge e, and the new edge number eFill. What
    the pieces are told about collapsing is what mayCollapseEdge said of the edge: also whether its end points are fixed. *)
Theorem C47_split g e t x : Good g -> OpPre (gMesh g) (OSplit e) ->
  let m := gMesh g in
  exists r, splitEdge g e t x = Ok r /\
   (forbids (gSplit g) e -> r = (g, None)) /\
   (~ forbids (gSplit g) e -> exists g' c, r = (g', Some (eHe e)) /\ splitEdgeTriangular m e = Ok (gMesh g', eHe e) /\
     SplitDone g g' e (vFill m) x c /\
     gLog g' = gLog g ++ map (fun p => BeforeSplit p e t m) (users (pSplit g)) ++ map (fun p => AfterSplit p (eHe e) (tw (eHe (eFill m))) t (gMesh g')) (users (pSplit g))).
Proof. exact (split_edge_ok g e t x). Qed.
Print Assumptions C47_split.
Theorem C47_split_at g e t : Good g -> liveH (gMesh g) (eHe e) -> exists x, splitEdgeAt g e t = splitEdge g e t x /\
  forall d p q, gPos g = Some d -> dataAt d (ve (gMesh g) (eHe e)) = Ok p -> dataAt d (ve (gMesh g) (tw (eHe e))) = Ok q -> x = add3 (mul3 p (1 - t)%R) (mul3 q t).
Proof. exact (split_at_ok g e t). Qed.
Print Assumptions C47_split_at.
Theorem C47_split_near g e x d : Good g -> liveH (gMesh g) (eHe e) -> gPos g = Some d -> exists p q,
  dataAt d (ve (gMesh g) (eHe e)) = Ok p /\ dataAt d (ve (gMesh g) (tw (eHe e))) = Ok q /\
  splitEdgeNear g e x = splitEdge g e (pointLineSegmentNeaestLocation x p q) x.
Proof. exact (split_near_ok g e x d). Qed.
Print Assumptions C47_split_near.
Theorem C47_split_face g f b x : Good g -> liveF (gMesh g) f ->
  let m := gMesh g in
  exists r, splitFace g f b x = Ok r /\
   (forbids (gSplitF g) f -> r = (g, None)) /\
   (~ forbids (gSplitF g) f -> exists g' v, r = (g', Some v) /\ insertVertex m f = Ok (gMesh g', v) /\ Good g' /\ samePolicies g g' /\
     match gPos g, gPos g' with None, None => True | Some d, Some d' => dataAt d' v = Ok x /\ forall w, liveV m w -> w <> v -> dataAt d' w = dataAt d w | _, _ => False end /\
     kept m EVertex (gRepos g) (gRepos g') /\ kept m EEdge (gSplit g) (gSplit g') /\ kept m EEdge (gColl g) (gColl g') /\ kept m EEdge (gFlip g) (gFlip g') /\ kept m EFace (gSplitF g) (gSplitF g') /\
     gLog g' = gLog g ++ map (fun p => BeforeFaceSplit p f b m) (pFace g) ++ map (fun p => AfterFaceSplit p v b (gMesh g')) (pFace g)).
Proof. exact (split_face_ok g f b x). Qed.
Print Assumptions C47_split_face.
Theorem C47_reposition g v off d : Good g -> liveV (gMesh g) v -> gPos g = Some d -> exists r, repositionVertex g v off = Ok r /\
  (forbids (gRepos g) v -> r = (g, false)) /\
  (~ forbids (gRepos g) v -> exists g' d' x, r = (g', true) /\ Good g' /\ gMesh g' = gMesh g /\ samePolicies g g' /\ dataAt d v = Ok x /\ gPos g' = Some d' /\
     dataAt d' v = Ok (add3 x off) /\ (forall w, liveV (gMesh g) w -> w <> v -> dataAt d' w = dataAt d w) /\
     gRepos g' = gRepos g /\ gSplit g' = gSplit g /\ gColl g' = gColl g /\ gFlip g' = gFlip g /\ gSplitF g' = gSplitF g /\
     gLog g' = gLog g ++ map (fun p => BeforeReposition p v off (gMesh g)) (pRepos g)).
Proof. exact (reposition_ok g v off d). Qed.
Print Assumptions C47_reposition.
(** collapseEdge: an edge that is marked, or that has a fixed end point, is left alone; otherwise the mesh is as
    collapseEdgeTriangular leaves it (C17), the constraints are as they were, the vertex that remains is put at x and no other
    is moved; every collapse policy is called once before, and once after if the mesh did collapse the edge. *)
Theorem C47_collapse g e t x : Good g ->
  (liveH (gMesh g) (eHe e) -> ~ collapseOk g e -> collapseEdge g e t x = Ok (g, None) /\ collapseEdgeAt g e t = Ok (g, None) /\ collapseEdgeNear g e x = Ok (g, None)) /\
  (OpPre (gMesh g) (OCollapse e) -> collapseOk g e -> exists g' r,
    collapseEdge g e t x = Ok (g', r) /\ collapseEdgeTriangular (gMesh g) e = Ok (gMesh g', r) /\ Good g' /\ samePolicies g g' /\
    gRepos g' = gRepos g /\ gSplit g' = gSplit g /\ gColl g' = gColl g /\ gFlip g' = gFlip g /\ gSplitF g' = gSplitF g /\
    gLog g' = gLog g ++ map (fun p => BeforeCollapse p e t (gMesh g)) (pColl g) ++ match r with None => [] | Some v => map (fun p => AfterCollapse p v t (gMesh g')) (pColl g) end /\
    match r with
    | None => gMesh g' = gMesh g /\ gPos g' = gPos g
    | Some v => liveV (gMesh g') v /\ match gPos g, gPos g' with None, None => True | Some d, Some d' => dataAt d' v = Ok x /\ forall w, liveV (gMesh g) w -> w <> v -> dataAt d' w = dataAt d w | _, _ => False end
    end).
Proof. intros G. split; [intros L; apply (collapse_ok g e t x G L)|exact (collapse_done g e t x G)]. Qed.
Print Assumptions C47_collapse.
(** without a position, the vertex is put between the ends of the edge *)
Theorem C47_collapse_at g e t : Good g -> liveH (gMesh g) (eHe e) -> exists x, collapseEdgeAt g e t = collapseEdge g e t x /\
  forall d p q, gPos g = Some d -> dataAt d (ve (gMesh g) (eHe e)) = Ok p -> dataAt d (ve (gMesh g) (tw (eHe e))) = Ok q -> x = add3 (mul3 p (1 - t)%R) (mul3 q t).
Proof. exact (collapse_at_ok g e t). Qed.
Print Assumptions C47_collapse_at.

(** Whatever is called, in whatever order (flips, the three kinds of split, of collapse, face splits, repositioning; no collapse
    of an ear from its tip, see C47_ear_refuted): a fixed vertex is still there and where it was; and without collapses an edge
    that may be neither flipped nor split joins the same vertices in the end. *)
Theorem C47_history g l : Good g -> CallsPre g l -> exists g', runCalls g l = Ok g' /\ Good g' /\ verticesRespected g g' /\
  (Forall (fun c => ~ isCollapse c) l -> edgesRespected g g').
Proof. exact (calls_run l g). Qed.
Print Assumptions C47_history.

(** ** a case: a square of two triangles, with positions, a policy of every kind, and a constraint on edge 0 and vertex 0 *)
Definition sq := quad.
Definition every : pkind := mkKind true true true true true.
Definition unmarked (k : ekind) : mdata bool := newData sq k true.
Definition marked (k : ekind) : mdata bool := match setAt (unmarked k) 0 false with Ok d => d | _ => unmarked k end.
Definition sq_mgr : mgr := registerPolicy (withRepos (withEdges (newManager sq (Some (newData sq EVertex (mk3 0 0 0)))) (Some (marked EEdge)) None (Some (marked EEdge))) (Some (marked EVertex))) 7 every.
Lemma sq_start : Start sq. Proof. apply startb_ok. vm_compute. reflexivity. Qed.
Lemma marked_fits k : k = EEdge \/ k = EVertex -> Fits sq k (marked k).
Proof.
  intros K. destruct (fits_write bool sq k (unmarked k) 0 false quad_valid (fits_new _ _ _ _ quad_valid)) as (d & E & F & _); [destruct K as [-> | ->]; vm_compute; split; congruence|].
  unfold marked. rewrite E. exact F.
Qed.
Lemma sq_good : Good sq_mgr.
Proof.
  apply register_good. pose proof (new_good sq (Some (newData sq EVertex (mk3 0 0 0))) sq_start (fits_new _ _ _ _ quad_valid)) as [S G1 G2 G3 G4 G5 G6 G7 G8].
  split; auto; cbn [withRepos withEdges gMesh gRepos gSplit gColl gFlip gSplitF fitsO]; auto; apply marked_fits; auto.
Qed.
Example C47_case : Good sq_mgr /\ OpPre (gMesh sq_mgr) (OFlip 2 true) /\ OpPre (gMesh sq_mgr) (OSplit 2) /\ OpPre (gMesh sq_mgr) (OSplit 0) /\
  forbids (gSplit sq_mgr) 0 /\ ~ forbids (gSplit sq_mgr) 2 /\ forbids (gFlip sq_mgr) 0 /\ forbids (gRepos sq_mgr) 0 /\ ~ collapseOk sq_mgr 2 /\ liveF (gMesh sq_mgr) 0 /\
  flippable sq (eHe 2) /\ ~ parallel sq 2 /\ users (pSplit sq_mgr) = [7] /\ gPos sq_mgr <> None.
Proof.
  split; [exact sq_good|]. split; [apply opPreb_ok; vm_compute; reflexivity|]. split; [apply opPreb_ok; vm_compute; reflexivity|]. split; [apply opPreb_ok; vm_compute; reflexivity|].
  split; [vm_compute; reflexivity|]. split; [intros K; vm_compute in K; congruence|]. split; [vm_compute; reflexivity|]. split; [vm_compute; reflexivity|]. split; [intros (_ & K & K2); vm_compute in K, K2; congruence|]. split; [conc|]. split; [conc|].
  split; [intros (h & [Lh _] & N & E1 & E2); assert (K : h = 0 \/ h = 1 \/ h = 2 \/ h = 3 \/ h = 4 \/ h = 5 \/ h = 6 \/ h = 7 \/ h = 8 \/ h = 9) by (change (0 <= h < 10) in Lh; lia);
    repeat (destruct K as [K|K]; [subst h; vm_compute in N, E1, E2; congruence|]); subst h; vm_compute in N, E1, E2; congruence|].
  split; [reflexivity|discriminate].
Qed.
Lemma sq_face m v : insertVertex (gMesh sq_mgr) 0 = Ok (m, v) -> OpPre m (OFlip 2 true).
Proof.
  intros I. assert (T : match insertVertex (gMesh sq_mgr) 0 with Ok (m, _) => opPreb m (OFlip 2 true) | _ => false end = true) by (vm_compute; reflexivity).
  rewrite I in T. apply opPreb_ok. exact T.
Qed.
Lemma refused g c l : CallPre g c -> runCall g c = Ok g -> CallsPre g l -> CallsPre g (c :: l).
Proof. intros P E L. split; [exact P|]. intros g' E'. assert (g' = g) by congruence. subst g'. exact L. Qed.
Lemma sq_refused_split : runCall sq_mgr (CSplit 0 (1/2) (mk3 1 0 0)) = Ok sq_mgr.
Proof. destruct (split_edge_ok sq_mgr 0 (1/2) (mk3 1 0 0)%R (proj1 C47_case)) as (r & E & K & _); [apply C47_case|]. cbn [runCall]. rewrite E, K by apply C47_case. reflexivity. Qed.
Lemma sq_refused_reposition : runCall sq_mgr (CReposition 0 (mk3 0 0 1)) = Ok sq_mgr.
Proof.
  destruct (gPos sq_mgr) as [d|] eqn:Ed; [|apply C47_case in Ed; contradiction].
  destruct (reposition_ok sq_mgr 0 (mk3 0 0 1)%R d (proj1 C47_case)) as (r & E & K & _); [conc|exact Ed|]. cbn [runCall]. rewrite E, K by apply C47_case. reflexivity.
Qed.
Lemma sq_refused_flip : runCall sq_mgr (CFlip 0) = Ok sq_mgr.
Proof.
  destruct (flip_edge_ok sq_mgr 0 (proj1 C47_case)) as (g' & ok & E & _ & O & F & _); [apply opPreb_ok; vm_compute; reflexivity|]. cbn [runCall]. rewrite E. cbn [bind].
  destruct ok; [|rewrite F; reflexivity]. exfalso. apply (proj1 (proj1 O eq_refl)). apply C47_case.
Qed.
Lemma face_then g f b x (P : mesh -> Prop) g' : Good g -> liveF (gMesh g) f -> ~ forbids (gSplitF g) f -> (forall m v, insertVertex (gMesh g) f = Ok (m, v) -> P m) ->
  runCall g (CSplitFace f b x) = Ok g' -> P (gMesh g').
Proof.
  intros G L N H E1. destruct (split_face_ok g f b x G L) as (r & E & _ & T). destruct (T N) as (g2 & v & -> & I & _).
  cbn [runCall] in E1. rewrite E in E1. cbn [bind] in E1. injection E1 as <-. exact (H _ _ I).
Qed.
Lemma sq_face_flip g : runCall sq_mgr (CSplitFace 0 [] (mk3 1 1 1)) = Ok g -> CallsPre g [CFlip 2].
Proof.
  intros E. split; [|intros; exact Logic.I]. apply (face_then sq_mgr 0 [] (mk3 1 1 1)%R (fun m => OpPre m (OFlip 2 true)) g (proj1 C47_case)); [apply C47_case| |exact sq_face|exact E].
  assert (Nn : gSplitF sq_mgr = None) by reflexivity. rewrite Nn. discriminate.
Qed.
(** a legal history on it: the first three calls are refused *)
Example C47_history_case : CallsPre sq_mgr [CSplit 0 (1/2) (mk3 1 0 0); CReposition 0 (mk3 0 0 1); CFlip 0; CSplitFace 0 [] (mk3 1 1 1); CFlip 2].
Proof.
  apply refused; [apply C47_case|exact sq_refused_split|]. apply refused; [split; [conc|apply C47_case]|exact sq_refused_reposition|].
  apply refused; [apply opPreb_ok; vm_compute; reflexivity|exact sq_refused_flip|]. split; [apply C47_case|exact sq_face_flip].
Qed.

(** ** Findings *)
(** the policies called before the flip see the flipped mesh when a second edge joins the end points: a tetrahedron with
    edge 0 flipped (both edges 0 and 5 now join vertices 2 and 3), flipped back through a manager *)
Theorem C47_before_flip_refuted : exists m m' g mb ma, flip tet 0 false = Ok (m, true) /\ g = registerPolicy (newManager m None) 7 (mkKind false true false false false) /\ Good g /\
  flipEdge g 0 = Ok (m', true) /\ gLog m' = [BeforeFlip 7 0 mb; AfterFlip 7 0 ma] /\ mb = ma /\
  (ve m (eHe 0), ve m (tw (eHe 0))) = (2, 3) /\ (ve mb (eHe 0), ve mb (tw (eHe 0))) = (1, 0).
Proof.
  eexists. eexists. eexists. eexists. eexists. split; [vm_compute; reflexivity|]. split; [reflexivity|]. split; [apply register_good, new_good; [apply startb_ok; vm_compute; reflexivity|exact I]|].
  split; [vm_compute; reflexivity|]. split; [reflexivity|]. split; [reflexivity|]. split; reflexivity.
Qed.
Print Assumptions C47_before_flip_refuted.

(** the policies called before a collapse are called although the mesh then refuses to collapse the edge (the diagonal
    of a square: the collapse would pinch it), and nothing tells them *)
Definition watcher (k : pkind) (m : mesh) (pos : option (mdata V3)) := registerPolicy (newManager m pos) 7 k.
Lemma failing g e t x : Good g -> liveH (gMesh g) (eHe e) -> collapseOk g e -> collapseEdgeTriangular (gMesh g) e = Ok (gMesh g, None) ->
  collapseEdge g e t x = Ok (withLog g (gLog g ++ map (fun p => BeforeCollapse p e t (gMesh g)) (pColl g)), None).
Proof.
  intros G L O C. destruct (collapse_ok g e t x G L) as [_ K]. pose proof (withMesh_shape g (gMesh g) eq_refl) as W. assert (P : putMesh g (gMesh g) = g) by (destruct g; reflexivity). rewrite P in W.
  destruct (K O _ _ C _ W G) as [K1 _]. exact (K1 eq_refl).
Qed.
Definition sq_watched := watcher (mkKind false false false true false) sq None.
Theorem C47_before_collapse_refuted : Good sq_watched /\ exists g', collapseEdge sq_watched 2 (1/2) (mk3 0 0 0) = Ok (g', None) /\ gMesh g' = sq /\ gLog g' = [BeforeCollapse 7 2 (1/2) sq].
Proof.
  assert (Gd : Good sq_watched) by (apply register_good, new_good; [apply startb_ok; vm_compute; reflexivity|exact I]). split; [exact Gd|].
  eexists. split; [apply (failing sq_watched 2 (1/2)%R (mk3 0 0 0)%R Gd)|]; [conc|split; [|split]; exact eq_refl|vm_compute; reflexivity|]. split; reflexivity.
Qed.
Print Assumptions C47_before_collapse_refuted.

(** collapseEdge(e, position) tells the policies that the edge is collapsed at parameter -1, wherever the position is *)
Theorem C47_collapse_parameter_refuted g e x : Good g -> liveH (gMesh g) (eHe e) -> gPos g <> None -> collapseEdgeNear g e x = collapseEdge g e (-1)%R x.
Proof. exact (collapse_near_ok g e x). Qed.
Print Assumptions C47_collapse_parameter_refuted.

(** a face split policy that was removed is still called: a use after free at the next split of a face *)
Theorem C47_removed_policy_refuted g p k f b x : Good g -> liveF (gMesh g) f -> ~ In p (gAll g) -> ~ forbids (gSplitF g) f -> kFace k = true ->
  splitFace (removePolicy (registerPolicy g p k) p) f b x = UB.
Proof.
  intros G L Np Nf Kf. unfold splitFace, maySplitFace, registerPolicy. cbn [removePolicy withPolicies gSplitF].
  destruct (allows_ex _ _ _ f (sr_valid _ (gd_start _ G)) (gd_splitF _ G) L) as (a & Ea). rewrite Ea. cbn [bind]. destruct a; [|apply says_allows in Ea; contradiction]. cbn [negb].
  cbn [removePolicy withPolicies pFace gMesh]. rewrite Kf. cbn [pushIf].
  assert (Ap : alive (removePolicy (registerPolicy g p k) p) p = false).
  { unfold alive. cbn [registerPolicy removePolicy withPolicies gAll]. apply Bool.not_true_iff_false. intros H. apply existsb_exists in H as (q & Hq & E). apply Z.eqb_eq in E. subst q.
    revert Hq. clear -Np. revert Np. generalize (gAll g). intros l. induction l as [|y t IH]; cbn; intros N H; [rewrite Z.eqb_refl in H; exact H|].
    destruct (Z.eqb_spec y p) as [->|D]; [apply N; auto|]. destruct H as [H|H]; [apply N; auto|]. apply IH; auto. }
  unfold registerPolicy in Ap. rewrite Kf in Ap. cbn [pushIf] in Ap.
  assert (W : forall ps ev g0, alive g0 p = false -> callAll g0 (ps ++ [p]) ev = UB).
  { clear. intros ps ev. unfold callAll. induction ps as [|q t IH]; intros g0 A; cbn [app foldM].
    - unfold call at 1. rewrite A. reflexivity.
    - unfold call at 1. destruct (alive g0 q); [|reflexivity]. cbn [bind]. apply IH. exact A. }
  rewrite W by exact Ap. reflexivity.
Qed.
Print Assumptions C47_removed_policy_refuted.
Example C47_refuted_case : Good sq_mgr /\ liveH (gMesh sq_mgr) (eHe 2) /\ gPos sq_mgr <> None /\ liveF (gMesh sq_mgr) 0 /\ ~ In 9 (gAll sq_mgr) /\ kFace every = true.
Proof. split; [exact sq_good|]. split; [conc|]. split; [discriminate|]. split; [conc|]. split; [|reflexivity]. cbn. lia. Qed.

(** collapses that succeed: an octahedron, vertex 5 fixed *)
Definition octa := built [[0;2;4];[2;1;4];[1;3;4];[3;0;4];[2;0;5];[1;2;5];[3;1;5];[0;3;5]].
Definition octa_fix : mdata bool := match setAt (newData octa EVertex true) 5 false with Ok d => d | _ => newData octa EVertex true end.
Definition octa_mgr : mgr := withRepos (watcher every octa (Some (newData octa EVertex (mk3 0 0 0)))) (Some octa_fix).
Lemma octa_start : Start octa. Proof. apply startb_ok. vm_compute. reflexivity. Qed.
Lemma octa_good : Good octa_mgr.
Proof.
  assert (G : Good (watcher every octa (Some (newData octa EVertex (mk3 0 0 0))))) by (apply register_good, new_good; [exact octa_start|apply fits_new, octa_start]).
  destruct G as [G0 G1 G2 G3 G4 G5 G6 G7 G8]. split; auto. cbn [octa_mgr withRepos gRepos gMesh fitsO].
  destruct (fits_write bool octa EVertex (newData octa EVertex true) 5 false (sr_valid _ octa_start) (fits_new _ _ _ _ (sr_valid _ octa_start))) as (d & E & F & _); [vm_compute; split; congruence|].
  unfold octa_fix. change (gMesh (watcher every octa (Some (newData octa EVertex (mk3 0 0 0))))) with octa. rewrite E. exact F.
Qed.
Lemma run_collapse g e t x : runCall g (CCollapse e t x) = let* (g, _) := collapseEdge g e t x in Ok g. Proof. reflexivity. Qed.
Lemma run_collapse_at g e t : runCall g (CCollapseAt e t) = let* (g, _) := collapseEdgeAt g e t in Ok g. Proof. reflexivity. Qed.
Lemma calls_cons g c l : CallsPre g (c :: l) = (CallPre g c /\ forall g', runCall g c = Ok g' -> CallsPre g' l). Proof. reflexivity. Qed.
Lemma octa_mesh : gMesh octa_mgr = octa. Proof. unfold octa_mgr. cbn [withRepos watcher registerPolicy withPolicies newManager gMesh]. reflexivity. Qed.
Lemma octa_pre : OpPre octa (OCollapse 1). Proof. apply opPreb_ok. vm_compute. reflexivity. Qed.
Lemma octa_not_ear : ~ earEdge octa 1.
Proof. assert (N0 : (fFill octa <=? fa octa (tw (eHe 1))) = false) by (vm_compute; reflexivity). intros [X _]. unfold ext in X. lia. Qed.
Lemma octa_ok : collapseOk octa_mgr 1.
Proof. unfold collapseOk. rewrite octa_mesh. split; [unfold octa_mgr; cbn [withRepos watcher registerPolicy withPolicies newManager gColl]; exact eq_refl|]. unfold octa_mgr. cbn [withRepos gRepos says]. split; vm_compute; reflexivity. Qed.
Lemma octa_fixed : forbids (gRepos octa_mgr) 5. Proof. unfold octa_mgr. cbn [withRepos gRepos]. vm_compute. reflexivity. Qed.
Lemma octa_one : match collapseEdgeTriangular octa 1 with Ok (m, Some v) => v = 4 /\ nVertices m = 5 | _ => False end. Proof. vm_compute. auto. Qed.
Lemma octa_test : match collapseEdgeTriangular octa 1 with Ok (m, _) => opPreb m (OCollapse 2) && negb (fFill m <=? fa m (tw (eHe 2))) && opPreb m (OFlip 8 true) &&
    match collapseEdgeTriangular m 2 with Ok (m2, _) => opPreb m2 (OFlip 8 true) | _ => false end | _ => false end = true.
Proof. vm_compute. reflexivity. Qed.
Example C47_collapse_case : Good octa_mgr /\ OpPre (gMesh octa_mgr) (OCollapse 1) /\ collapseOk octa_mgr 1 /\ ~ earEdge (gMesh octa_mgr) 1 /\
  match collapseEdgeTriangular (gMesh octa_mgr) 1 with Ok (m, Some v) => v = 4 /\ nVertices m = 5 | _ => False end /\
  forbids (gRepos octa_mgr) 5 /\ liveV (gMesh octa_mgr) 5 /\
  CallsPre octa_mgr [CCollapse 1 0 (mk3 1 2 3); CCollapseAt 2 (1/2); CFlip 8].
Proof.
  rewrite octa_mesh. split; [exact octa_good|]. split; [exact octa_pre|]. split; [exact octa_ok|]. split; [exact octa_not_ear|]. split; [exact octa_one|]. split; [exact octa_fixed|]. split; [conc|].
  generalize octa_good octa_ok octa_mesh. generalize octa_mgr as g. intros g GG O1 EM.
  rewrite calls_cons. split; [split; rewrite EM; [exact octa_pre|exact octa_not_ear]|]. intros g1 E1. rewrite run_collapse in E1.
  destruct (collapse_done g 1 0%R (mk3 1 2 3)%R GG (eq_ind_r (fun m => OpPre m (OCollapse 1)) octa_pre EM) O1) as (g' & r & E & M1 & G1 & _). rewrite E in E1. cbn [bind] in E1. injection E1 as <-.
  pose proof octa_test as T. rewrite EM in M1. rewrite M1 in T. rewrite !andb_true_iff, !negb_true_iff in T. destruct T as (((T1 & T2) & T3) & T5). apply opPreb_ok in T1.
  rewrite calls_cons. split; [split; [exact T1|intros [X _]; unfold ext in X; clear -X T2; lia]|]. intros g2 E2. rewrite run_collapse_at in E2.
  destruct (collapse_at_ok g' 2 (1/2)%R G1 (proj1 (proj2 (proj2 T1)))) as (x & Ex & _). rewrite Ex in E2.
  destruct (mayCollapse_ok g' 2 G1 (proj1 (proj2 (proj2 T1)))) as (c & Ec & Hc). destruct c.
  - destruct (collapse_done g' 2 (1/2)%R x G1 T1 (proj1 Hc eq_refl)) as (g3 & r3 & E3 & M3 & _). rewrite E3 in E2. cbn [bind] in E2. injection E2 as <-. rewrite M3 in T5.
    split; [apply opPreb_ok; exact T5|intros; exact Logic.I].
  - unfold collapseEdge in E2. rewrite Ec in E2. cbn [bind negb] in E2. injection E2 as <-.
    split; [apply opPreb_ok; exact T3|intros; exact Logic.I].
Qed.

(** Finding: collapsing an edge that may be collapsed, in an ear, collapses another one although it is marked, and removes a
    vertex although it is fixed (C17_merges_refuted): two triangles 1,0,2 and 0,3,2; the call is for the edge 1-0 *)
Definition ear := built [[1;0;2];[0;3;2]].
Definition put1 (k : ekind) (i : Z) : mdata bool := match setAt (newData ear k true) i false with Ok d => d | _ => newData ear k true end.
Lemma put1_fits k i : 0 <= i < fillOf ear k -> Fits ear k (put1 k i) /\ dataAt (put1 k i) i = Ok false.
Proof.
  assert (V : Valid ear) by (apply validb_Valid; vm_compute; reflexivity). intros K.
  destruct (fits_write bool ear k (newData ear k true) i false V (fits_new _ _ _ _ V) K) as (d & E & F & _ & A & _). unfold put1. rewrite E. auto.
Qed.
Definition ear_mgr := withRepos (withEdges (newManager ear None) None (Some (put1 EEdge 2)) None) (Some (put1 EVertex 2)).
Theorem C47_ear_refuted : exists g e e2 w g' v, Good g /\ OpPre (gMesh g) (OCollapse e) /\ collapseOk g e /\
  liveH (gMesh g) (eHe e2) /\ forbids (gColl g) e2 /\ liveV (gMesh g) w /\ forbids (gRepos g) w /\
  (forall t x, collapseEdge g e t x = Ok (g', Some v)) /\ ~ liveH (gMesh g') (eHe e2) /\ ~ liveV (gMesh g') w.
Proof.
  destruct (collapseEdgeTriangular ear 0) as [[m' [v|]]| |] eqn:E; try (vm_compute in E; discriminate).
  exists ear_mgr, 0, 2, 2. eexists. exists v. split.
  { pose proof (new_good ear None) as G. destruct G as [G0 G1 G2 G3 G4 G5 G6 G7 G8]; [apply startb_ok; vm_compute; reflexivity|exact I|].
    split; auto; cbn [ear_mgr withRepos withEdges gMesh gRepos gSplit gColl gFlip gSplitF fitsO]; auto; apply put1_fits; vm_compute; split; congruence. }
  split; [apply opPreb_ok; vm_compute; reflexivity|]. split; [split; [vm_compute; reflexivity|split; vm_compute; reflexivity]|]. split; [conc|]. split; [vm_compute; reflexivity|]. split; [conc|]. split; [vm_compute; reflexivity|].
  split; [intros t x; unfold collapseEdge; assert (MC : mayCollapseEdge ear_mgr 0 = Ok true) by (vm_compute; reflexivity); rewrite MC; cbn [bind negb];
    change (pColl ear_mgr) with (@nil Z); cbn [callAll foldM bind]; change (gMesh ear_mgr) with ear; rewrite E; cbn [bind];
    rewrite (withMesh_shape ear_mgr m' (proj1 (shape_collapse _ _ _ _ E))); cbn [bind setPos putMesh gPos ear_mgr withRepos withEdges newManager registerPolicy withPolicies pColl foldM callAll]; reflexivity|].
  vm_compute in E. injection E as <- <-. split; [intros [_ K]; vm_compute in K; congruence|intros [_ K]; vm_compute in K; congruence].
Qed.
Print Assumptions C47_ear_refuted.
