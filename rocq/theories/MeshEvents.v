(** What every mutation does to the containers registered with the mesh, and to the isCompressed flag *)
From Verif Require Import Base MeshModel MeshModel2 MeshCompressModel MeshSpec MeshOpSpec MeshBase MeshAlloc DataModel DataProofs MeshDataModel.
Open Scope Z_scope.

(** slots a container may have: it was created with elementCapacity<E>() entries and grew with the mesh since *)
Definition maxSize (m : mesh) (k : ekind) : Z :=
  match k with EVertex => vCap m | EHalfedge | ECorner => heCap m | EEdge => eCap m | EFace | ELoop => fCap m end.
(** a container of the mesh: it covers every slot that can come into use before the next growth, and the slots not in use
    hold the default value *)
Record Fits {T} (m : mesh) (k : ekind) (d : mdata T) : Prop := {
  ft_size : capacity m k <= Z.of_nat (length (dat d)) <= maxSize m k;
  ft_free : forall i, (Z.to_nat (fillOf m k) <= i < length (dat d))%nat -> nth_error (dat d) i = Some (dflt d);
  ft_nn : 0 <= fFill m /\ 0 <= bFill m }.

Definition fills m := (heFill m, eFill m, vFill m, fFill m, bFill m).
Record Ev (m m' : mesh) : Prop := {
  ev_fill : heFill m <= heFill m' /\ eFill m <= eFill m' /\ vFill m <= vFill m' /\ fFill m <= fFill m' /\ bFill m <= bFill m';
  ev_flag : compressed m' = compressed m /\ counts m' = counts m /\ fills m' = fills m \/ compressed m' = false;
  ev_cbs : exists cbs, cblog m' = rev cbs ++ cblog m /\ forall T k (d : mdata T), Fits m k d ->
     exists d', receives k cbs d = Ok d' /\ Fits m' k d' /\ dflt d' = dflt d /\ (length (dat d) <= length (dat d'))%nat /\
       (forall i, (i < length (dat d))%nat -> nth_error (dat d') i = nth_error (dat d) i) /\
       (forall i, (length (dat d) <= i < length (dat d'))%nat -> nth_error (dat d') i = Some (dflt d)) }.

Definition shape m := (cblog m, heCap m, eCap m, vCap m, fCap m, fills m).
Lemma ev_shape m m' : shape m' = shape m -> compressed m' = compressed m /\ counts m' = counts m \/ compressed m' = false -> Ev m m'.
Proof.
  unfold shape, fills. intros E F. injection E as E1 E2 E3 E4 E5 E6 E7 E8 E9 E10. split.
  - lia.
  - unfold fills. rewrite E6, E7, E8, E9, E10. tauto.
  - exists []. split; [exact E1|]. intros T k d [H1 H2 H3]. exists d. split; [reflexivity|]. split; [|split; [auto|split; [lia|split; [auto|intros; lia]]]]. split.
    + unfold capacity, maxSize in *. rewrite E2, E3, E4, E5, E9, E10. exact H1.
    + unfold fillOf in *. rewrite E6, E7, E8, E9, E10. exact H2.
    + lia.
Qed.
Lemma ev_refl m : Ev m m.
Proof. apply ev_shape; auto. Qed.
Lemma ev_trans a b c : Ev a b -> Ev b c -> Ev a c.
Proof.
  intros [F1 G1 (l1 & L1 & C1)] [F2 G2 (l2 & L2 & C2)]. split.
  - lia.
  - destruct G2 as [(G2 & G3 & G4)|G2]; auto. destruct G1 as [(G5 & G6 & G7)|G5]; [left|right]; rewrite ?G2, ?G3, ?G4; auto.
  - exists (l1 ++ l2). split; [rewrite L2, L1, rev_app_distr, app_assoc; auto|]. intros T k d H. destruct (C1 T k d H) as (d1 & R1 & H1 & D1 & K1 & N1 & P1).
    destruct (C2 T k d1 H1) as (d2 & R2 & H2 & D2 & K2 & N2 & P2). exists d2. unfold receives in *. rewrite foldM_app, R1. cbn [bind]. split; auto. split; auto. split; [congruence|].
    split; [lia|]. split; [intros i Hi; rewrite N2, N1; auto; lia|].
    intros i Hi. destruct (Nat.lt_ge_cases i (length (dat d1))) as [X|X]; [rewrite N2 by auto; apply P1; lia|rewrite <- D1; apply P2; lia].
Qed.

Lemma ev_expand m m' c n : cblog m' = CbExpand c n :: cblog m -> fills m' = fills m -> compressed m' = compressed m -> counts m' = counts m ->
  (forall k, 0 <= fFill m -> 0 <= bFill m -> 0 <= maxSize m k -> if hearsExpand k c then maxSize m k <= n /\ capacity m' k <= n <= maxSize m' k
             else capacity m' k = capacity m k /\ maxSize m' k = maxSize m k) -> Ev m m'.
Proof.
  intros L F C N H. pose proof F as F'. unfold fills in F'. injection F' as F1 F2 F3 F4 F5. split; [lia|auto|]. exists [CbExpand c n]. split; [exact L|].
  intros T k d [S1 S2 S3]. specialize (H k ltac:(lia) ltac:(lia) ltac:(lia)). unfold receives. cbn [foldM receive]. assert (E : fillOf m' k = fillOf m k) by (destruct k; cbn; auto).
  destruct (hearsExpand k c).
  - destruct (md_expand_ok (Z.to_nat n) d) as (d' & E1 & L1 & D1 & N1 & N2); [lia|]. exists d'. rewrite E1. cbn [bind]. split; auto. split; [|split; [auto|split; [lia|split; [auto|intros i Hi; apply N2; lia]]]].
    split; [lia| |lia]. intros i Hi. rewrite E in Hi. rewrite D1. destruct (Nat.lt_ge_cases i (length (dat d))) as [K|K]; [rewrite N1 by auto; apply S2; lia|apply N2; lia].
  - exists d. cbn [bind]. split; auto. split; [|split; [auto|split; [lia|split; [auto|intros; lia]]]]. destruct H as [H1 H2]. split; [rewrite H1, H2; auto| |lia]. rewrite E. auto.
Qed.
(** slots taken into use *)
Lemma ev_take m m' : cblog m' = cblog m -> compressed m' = false ->
  (heCap m', eCap m', vCap m', fCap m') = (heCap m, eCap m, vCap m, fCap m) ->
  heFill m <= heFill m' /\ eFill m <= eFill m' /\ vFill m <= vFill m' /\ fFill m <= fFill m' /\ bFill m <= bFill m' -> Ev m m'.
Proof.
  intros L C E F. injection E as E1 E2 E3 E4. split; auto. exists []. split; [exact L|]. intros T k d [S1 S2 S3]. exists d. split; [reflexivity|]. split; [|split; [auto|split; [lia|split; [auto|intros; lia]]]]. split.
  - destruct k; cbn in *; lia.
  - intros i Hi. apply S2. destruct k; cbn in *; lia.
  - lia.
Qed.

(** ** primitives *)
Lemma bindE {A B} (r : res A) (f : A -> res B) y : bind r f = Ok y -> exists x, r = Ok x /\ f x = Ok y.
Proof. destruct r; cbn; intros; try discriminate. eauto. Qed.
Ltac shp H := apply bindE in H as (l & _ & H); injection H as <-; apply ev_shape; auto.
Lemma ev_setNext m h x m' : setNext m h x = Ok m' -> Ev m m'. Proof. intros H. shp H. Qed.
Lemma ev_setVertex m h x m' : setVertex m h x = Ok m' -> Ev m m'. Proof. intros H. shp H. Qed.
Lemma ev_setFace m h x m' : setFace m h x = Ok m' -> Ev m m'. Proof. intros H. shp H. Qed.
Lemma ev_setVHe m h x m' : setVHe m h x = Ok m' -> Ev m m'. Proof. intros H. shp H. Qed.
Lemma ev_setFHe m h x m' : setFHe m h x = Ok m' -> Ev m m'. Proof. intros H. shp H. Qed.

Lemma ev_getNewVertex m m' v : getNewVertex m = (m', v) -> Ev m m'.
Proof.
  unfold getNewVertex. intros H. injection H as <- _. eapply ev_trans with (growVertices m).
  - unfold growVertices. destruct (_ <? _); [apply ev_refl|]. apply (ev_expand m _ KVertex (vCap m * 2)); auto.
    intros []; cbn; lia.
  - apply ev_take; pj; auto. lia.
Qed.
Lemma ev_growEdges m m' : growEdges m = Ok m' -> Ev m m'.
Proof.
  unfold growEdges. destruct (_ <? _).
  - intros H. apply bindE in H as (? & _ & H). injection H as <-. apply ev_refl.
  - intros H. injection H as <-. set (nh := Z.max _ _). set (ne := Z.max _ 1).
    apply ev_trans with (mkMesh (heNext m) (heVertex m) (heFace m) (vHalfedge m) (fHalfedge m)
      (nHalfedges m) (nInterior m) (nEdges m) (nVertices m) (nFaces m) (nLoops m)
      (heFill m) (eFill m) (vFill m) (fFill m) (bFill m) nh (eCap m) (vCap m) (fCap m) (compressed m) (CbExpand KHalfedge nh :: cblog m)).
    + apply (ev_expand m _ KHalfedge nh); auto. intros []; cbn; lia.
    + apply (ev_expand _ _ KEdge ne); auto. intros []; cbn; lia.
Qed.
Lemma ev_getNewEdgeTriple m b m' h : getNewEdgeTriple m b = Ok (m', h) -> Ev m m'.
Proof.
  unfold getNewEdgeTriple. intros H. apply bindE in H as (m1 & H1 & H). apply ev_growEdges in H1. injection H as <- _.
  eapply ev_trans; [exact H1|]. apply ev_take; pj; auto. lia.
Qed.
Lemma ev_expandFace m m' : expandFaceStorage m = Ok m' -> Ev m m'.
Proof.
  unfold expandFaceStorage. intros H. apply bindE in H as (l & _ & H). apply bindE in H as (l2 & _ & H). injection H as <-.
  apply (ev_expand m _ KFace (fCap m * 2)); auto. intros []; cbn; lia.
Qed.
Lemma ev_getNewFace m m' f : getNewFace m = Ok (m', f) -> Ev m m'.
Proof.
  unfold getNewFace. intros H. apply bindE in H as (m1 & H1 & H). injection H as <- _. eapply ev_trans with m1; [|apply ev_take; pj; auto; lia].
  destruct (_ <? _); [injection H1 as <-; apply ev_refl|apply ev_expandFace; auto].
Qed.
Lemma ev_getNewBoundaryLoop m m' f : getNewBoundaryLoop m = Ok (m', f) -> Ev m m'.
Proof.
  unfold getNewBoundaryLoop. intros H. apply bindE in H as (m1 & H1 & H). injection H as <- _. eapply ev_trans with m1; [|apply ev_take; pj; auto; lia].
  destruct (_ <? _); [injection H1 as <-; apply ev_refl|apply ev_expandFace; auto].
Qed.
Lemma shape_deleteHalfedge m i m' : deleteHalfedge m i = Ok m' -> shape m' = shape m.
Proof.
  unfold deleteHalfedge, setNext, setVertex, setFace. intros H. repeat (apply bindE in H as (? & ? & H)). injection H as <-.
  repeat match goal with K : bind _ _ = Ok _ |- _ => apply bindE in K as (? & ? & K); injection K as <- end. reflexivity.
Qed.
Lemma ev_deleteEdgeBundle m e m' : deleteEdgeBundle m e = Ok m' -> Ev m m'.
Proof.
  unfold deleteEdgeBundle. intros H. apply bindE in H as (m1 & H1 & H). apply bindE in H as (m2 & H2 & H). injection H as <-.
  apply ev_shape; [|auto]. apply shape_deleteHalfedge in H1, H2. unfold shape, fills in *. pj. congruence.
Qed.
Lemma ev_deleteVertex m v m' : deleteVertex m v = Ok m' -> Ev m m'.
Proof. unfold deleteVertex. intros H. apply bindE in H as (m1 & H1 & H). eapply ev_trans; [eapply ev_setVHe; eauto|]. injection H as <-. apply ev_shape; auto. Qed.
Lemma ev_deleteFace m v m' : deleteFace m v = Ok m' -> Ev m m'.
Proof. unfold deleteFace. intros H. apply bindE in H as (m1 & H1 & H). eapply ev_trans; [eapply ev_setFHe; eauto|]. injection H as <-. apply ev_shape; auto. Qed.
Lemma ev_deleteLoop m v m' : deleteLoop m v = Ok m' -> Ev m m'.
Proof. unfold deleteLoop. intros H. apply bindE in H as (m1 & H1 & H). eapply ev_trans; [eapply ev_setFHe; eauto|]. injection H as <-. apply ev_shape; auto. Qed.

(** ** walking through an operation *)
Ltac ev_known H :=
  lazymatch type of H with
  | setNext _ _ _ = Ok _ => apply ev_setNext in H
  | setVertex _ _ _ = Ok _ => apply ev_setVertex in H
  | setFace _ _ _ = Ok _ => apply ev_setFace in H
  | setVHe _ _ _ = Ok _ => apply ev_setVHe in H
  | setFHe _ _ _ = Ok _ => apply ev_setFHe in H
  | getNewVertex _ = _ => apply ev_getNewVertex in H
  | getNewEdgeTriple _ _ = Ok _ => apply ev_getNewEdgeTriple in H
  | getNewFace _ = Ok _ => apply ev_getNewFace in H
  | getNewBoundaryLoop _ = Ok _ => apply ev_getNewBoundaryLoop in H
  | deleteEdgeBundle _ _ = Ok _ => apply ev_deleteEdgeBundle in H
  | deleteVertex _ _ = Ok _ => apply ev_deleteVertex in H
  | deleteFace _ _ = Ok _ => apply ev_deleteFace in H
  | deleteLoop _ _ = Ok _ => apply ev_deleteLoop in H
  end.
Ltac ev_step := match goal with
  | H : bind _ _ = Ok _ |- _ => let x := fresh "x" in let E := fresh "E" in apply bindE in H as (x & E & H); try ev_known E
  | H : (let (_, _) := ?p in _) = Ok _ |- _ => let a := fresh "a" in let b := fresh "b" in let E := fresh "E" in destruct p as [a b] eqn:E; try ev_known E
  | H : (if ?b then _ else _) = Ok _ |- _ => destruct b
  | H : match ?o with Some _ => _ | None => _ end = Ok _ |- _ => destruct o
  | H : Ok _ = Ok _ |- _ => injection H as H; subst
  | H : UB = Ok _ |- _ => discriminate
  | H : Throw = Ok _ |- _ => discriminate
  | H : _ |- _ => ev_known H
  end.
Ltac ev_done := repeat match goal with
  | |- Ev ?a ?a => apply ev_refl
  | H : Ev ?b ?c |- Ev ?a ?c => apply ev_trans with b; [|exact H]; clear H
  end.
Ltac ev := repeat ev_step; ev_done.
Lemma ev_flip m e p m' b : flip m e p = Ok (m', b) -> Ev m m'.
Proof. unfold flip. intros H. ev. Qed.
Lemma ev_insertVertexAlongEdge m e m' h : insertVertexAlongEdge m e = Ok (m', h) -> Ev m m'.
Proof. unfold insertVertexAlongEdge. intros H. ev. Qed.
Lemma ev_relabelFace k : forall m a b f m', relabelFace k m a b f = Ok m' -> Ev m m'.
Proof. induction k as [|k IH]; intros m a b f m' H; cbn [relabelFace] in H; repeat ev_step; ev_done. apply IH in H. ev_done. Qed.
Ltac evx L := repeat match goal with H : _ = Ok _ |- _ => apply L in H end.
Lemma ev_connectVertices m a b m' h : connectVertices m a b = Ok (m', h) -> Ev m m'.
Proof. unfold connectVertices. intros H. repeat ev_step. evx ev_relabelFace. ev_done. Qed.
Lemma ev_splitEdgeTriangular m e m' h : splitEdgeTriangular m e = Ok (m', h) -> Ev m m'.
Proof. unfold splitEdgeTriangular. intros H. repeat ev_step; evx ev_insertVertexAlongEdge; evx ev_connectVertices; ev_done. Qed.
Lemma ev_switchHalfedgeSides m e m' : switchHalfedgeSides m e = Ok m' -> Ev m m'.
Proof. unfold switchHalfedgeSides. intros H. ev. Qed.
Lemma ev_link_ring r : forall m a f m', link_ring m r a f = Ok m' -> Ev m m'.
Proof. induction r as [|x t IH]; intros m a f m' H; cbn [link_ring] in H; repeat ev_step; evx IH; ev_done. Qed.
Lemma ev_removeEdge m e m' h : removeEdge m e = Ok (m', h) -> Ev m m'.
Proof. unfold removeEdge. intros H. repeat ev_step; evx ev_link_ring; ev_done. Qed.
Lemma ev_link_back r : forall m a f m', link_back m r a f = Ok m' -> Ev m m'.
Proof. induction r as [|x t IH]; intros m a f m' H; cbn [link_back] in H; repeat ev_step; evx IH; ev_done. Qed.
Lemma ev_fix_vertices r : forall m m', fix_vertices m r = Ok m' -> Ev m m'.
Proof. induction r as [|x t IH]; intros m m' H; cbn [fix_vertices] in H; repeat ev_step; evx IH; ev_done. Qed.
Lemma ev_delete_star r : forall m f m', delete_star m r f = Ok m' -> Ev m m'.
Proof. induction r as [|x t IH]; intros m f m' H; cbn [delete_star] in H; repeat ev_step; evx IH; ev_done. Qed.
Lemma ev_removeVertex m v m' h : removeVertex m v = Ok (m', h) -> Ev m m'.
Proof. unfold removeVertex. intros H. repeat ev_step; evx ev_link_back; evx ev_fix_vertices; evx ev_delete_star; ev_done. Qed.
Lemma ev_fan_loop r : forall m c fs m' fs', fan_loop m c r fs = Ok (m', fs') -> Ev m m'.
Proof. induction r as [|x t IH]; intros m c fs m' fs' H; cbn [fan_loop] in H; repeat ev_step; evx ev_connectVertices; evx IH; ev_done. Qed.
Lemma ev_triangulate m f m' fs : triangulate m f = Ok (m', fs) -> Ev m m'.
Proof. unfold triangulate. intros H. repeat ev_step; evx ev_fan_loop; ev_done. Qed.
Lemma ev_new_spokes n : forall m b f fs hs m' fs' hs', new_spokes n m b f fs hs = Ok (m', fs', hs') -> Ev m m'.
Proof. induction n as [|n IH]; intros m b f fs hs m' fs' hs' H; cbn [new_spokes] in H; repeat ev_step; evx IH; ev_done. Qed.
Lemma ev_hook_spokes fs : forall m c t ls bs m', hook_spokes m c t fs ls bs = Ok m' -> Ev m m'.
Proof. induction fs as [|f fs IH]; intros m c t [|l ls] [|b bs] m' H; cbn [hook_spokes] in H; repeat ev_step; evx IH; ev_done. Qed.
Lemma ev_insertVertex m f m' v : insertVertex m f = Ok (m', v) -> Ev m m'.
Proof. unfold insertVertex. intros H. repeat ev_step; evx ev_new_spokes; evx ev_hook_spokes; ev_done. Qed.
