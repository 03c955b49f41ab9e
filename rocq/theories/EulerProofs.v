(** Every call that returns leaves V - E + F + (boundary loops) and the number of boundary loops as they were, whatever the mesh and the arguments *)
From Verif Require Import Base MeshModel MeshModel2 MeshCompressModel MeshSpec MeshOpSpec MeshBase MeshOrbit MeshAlloc MeshRemoveVertex MeshExamples MeshEvents CollapseModel MeshHistoryModel.
Open Scope Z_scope.

(** counts of vertices, edges and faces change by v, e, f *)
Definition By (m m' : mesh) (v e f : Z) : Prop := nVertices m' = nVertices m + v /\ nEdges m' = nEdges m + e /\ nFaces m' = nFaces m + f /\ nLoops m' = nLoops m.
Lemma by_0 m : By m m 0 0 0. Proof. unfold By. lia. Qed.
Lemma by_t a b c v e f v' e' f' : By a b v e f -> By b c v' e' f' -> By a c (v + v') (e + e') (f + f').
Proof. unfold By. lia. Qed.
Lemma by_eq m m' v e f v' e' f' : By m m' v e f -> v = v' -> e = e' -> f = f' -> By m m' v' e' f'.
Proof. intros H -> -> ->. exact H. Qed.
Lemma by_cnt m m' : nVertices m' = nVertices m -> nEdges m' = nEdges m -> nFaces m' = nFaces m -> nLoops m' = nLoops m -> By m m' 0 0 0.
Proof. unfold By. lia. Qed.
Ltac b0 H := apply bindE in H as (? & _ & H); injection H as <-; apply by_cnt; reflexivity.
Lemma by_setNext m h x m' : setNext m h x = Ok m' -> By m m' 0 0 0. Proof. intros H. b0 H. Qed.
Lemma by_setVertex m h x m' : setVertex m h x = Ok m' -> By m m' 0 0 0. Proof. intros H. b0 H. Qed.
Lemma by_setFace m h x m' : setFace m h x = Ok m' -> By m m' 0 0 0. Proof. intros H. b0 H. Qed.
Lemma by_setVHe m h x m' : setVHe m h x = Ok m' -> By m m' 0 0 0. Proof. intros H. b0 H. Qed.
Lemma by_setFHe m h x m' : setFHe m h x = Ok m' -> By m m' 0 0 0. Proof. intros H. b0 H. Qed.
Lemma by_newVertex m m' v : getNewVertex m = (m', v) -> By m m' 1 0 0.
Proof. unfold getNewVertex, growVertices. intros H. injection H as <- _. destruct (_ <? _); unfold By; pj; lia. Qed.
Lemma by_newEdge m b m' h : getNewEdgeTriple m b = Ok (m', h) -> By m m' 0 1 0.
Proof.
  unfold getNewEdgeTriple, growEdges. intros H. apply bindE in H as (m1 & H1 & H). injection H as <- _. destruct (_ <? _).
  - apply bindE in H1 as (? & _ & H1). injection H1 as <-. unfold By; pj; lia.
  - injection H1 as <-. unfold By; pj; lia.
Qed.
Lemma by_newFace m m' f : getNewFace m = Ok (m', f) -> By m m' 0 0 1.
Proof.
  unfold getNewFace, expandFaceStorage. intros H. apply bindE in H as (m1 & H1 & H). injection H as <- _. destruct (_ <? _).
  - injection H1 as <-. unfold By; pj; lia.
  - apply bindE in H1 as (? & _ & H1). apply bindE in H1 as (? & _ & H1). injection H1 as <-. unfold By; pj; lia.
Qed.
Lemma by_delH m i m' : deleteHalfedge m i = Ok m' -> By m m' 0 0 0.
Proof.
  unfold deleteHalfedge. intros H. apply bindE in H as (b & _ & H). apply bindE in H as (m1 & H1 & H). apply bindE in H as (m2 & H2 & H). apply bindE in H as (m3 & H3 & H). injection H as <-.
  apply by_setNext in H1. apply by_setVertex in H2. apply by_setFace in H3. unfold By in *. pj. lia.
Qed.
Lemma by_delEdge m e m' : deleteEdgeBundle m e = Ok m' -> By m m' 0 (-1) 0.
Proof. unfold deleteEdgeBundle. intros H. apply bindE in H as (m1 & H1 & H). apply bindE in H as (m2 & H2 & H). apply by_delH in H1, H2. injection H as <-. unfold By in *. pj. lia. Qed.
Lemma by_delVertex m v m' : deleteVertex m v = Ok m' -> By m m' (-1) 0 0.
Proof. unfold deleteVertex. intros H. apply bindE in H as (m1 & H1 & H). apply by_setVHe in H1. injection H as <-. unfold By in *. pj. lia. Qed.
Lemma by_delFace m v m' : deleteFace m v = Ok m' -> By m m' 0 0 (-1).
Proof. unfold deleteFace. intros H. apply bindE in H as (m1 & H1 & H). apply by_setFHe in H1. injection H as <-. unfold By in *. pj. lia. Qed.
Lemma by_if (b : bool) m v h m' : (if b then setVHe m v h else Ok m) = Ok m' -> By m m' 0 0 0.
Proof. destruct b; intros H; [apply by_setVHe in H; auto|injection H as <-; apply by_0]. Qed.

Ltac byk H :=
  lazymatch type of H with
  | setNext _ _ _ = Ok _ => apply by_setNext in H
  | setVertex _ _ _ = Ok _ => apply by_setVertex in H
  | setFace _ _ _ = Ok _ => apply by_setFace in H
  | setVHe _ _ _ = Ok _ => apply by_setVHe in H
  | setFHe _ _ _ = Ok _ => apply by_setFHe in H
  | getNewVertex _ = _ => apply by_newVertex in H
  | getNewEdgeTriple _ _ = Ok _ => apply by_newEdge in H
  | getNewFace _ = Ok _ => apply by_newFace in H
  | deleteEdgeBundle _ _ = Ok _ => apply by_delEdge in H
  | deleteVertex _ _ = Ok _ => apply by_delVertex in H
  | deleteFace _ _ = Ok _ => apply by_delFace in H
  | (if _ then setVHe _ _ _ else Ok _) = Ok _ => apply by_if in H
  end.
(* collects the changes in one hypothesis about the first and the last mesh *)
Ltac join := match goal with H : By ?a ?b _ _ _, K : By ?b ?c _ _ _ |- _ => pose proof (by_t _ _ _ _ _ _ _ _ _ H K); clear H K end.
Ltac bst H k :=
  lazymatch type of H with
  | bind _ _ = Ok _ => let x := fresh "x" in let E := fresh "E" in apply bindE in H as (x & E & H); lazymatch type of x with (_ * _)%type => destruct x; cbv iota in H | _ => idtac end; first [byk E | k E | clear E]; try join
  | (let (_, _) := ?p in _) = Ok _ => let a := fresh "a" in let b := fresh "b" in let E := fresh "E" in destruct p as [a b] eqn:E; first [byk E | k E | clear E | idtac]; try join
  | (if ?b then _ else _) = Ok _ => destruct b
  | match ?o with Some _ => _ | None => _ end = Ok _ => destruct o
  end.
Ltac bfin := match goal with H : By ?a ?b _ _ _ |- By ?a ?b _ _ _ => eapply by_eq; [exact H|reflexivity|reflexivity|reflexivity] | |- By ?a ?a _ _ _ => apply by_0 end.
Ltac none E := fail.
Ltac run H k := repeat bst H k; try (injection H as <- <-).

Lemma by_flip m e p m' b : flip m e p = Ok (m', b) -> By m m' 0 0 0.
Proof. unfold flip. intros H. run H ltac:(none); bfin. Qed.
Lemma by_insertAlong m e m' h : insertVertexAlongEdge m e = Ok (m', h) -> By m m' 1 1 0.
Proof. unfold insertVertexAlongEdge. intros H. run H ltac:(none); bfin. Qed.
Lemma by_relabel k : forall m a b f m', relabelFace k m a b f = Ok m' -> By m m' 0 0 0.
Proof. induction k as [|k IH]; intros m a b f m' H; cbn [relabelFace] in H; destruct (a =? b); try discriminate; try (injection H as <-; apply by_0). repeat bst H ltac:(none). apply IH in H. join. bfin. Qed.
Lemma by_connect m a b m' h : connectVertices m a b = Ok (m', h) -> By m m' 0 1 1.
Proof. unfold connectVertices. intros H. run H ltac:(fun E => lazymatch type of E with relabelFace _ _ _ _ _ = _ => apply by_relabel in E end). bfin. Qed.
Lemma by_split m e m' h : splitEdgeTriangular m e = Ok (m', h) -> By m m' 1 2 1 \/ By m m' 1 3 2.
Proof.
  unfold splitEdgeTriangular. intros H.
  repeat lazymatch type of H with
  | bind (insertVertexAlongEdge _ _) _ = Ok _ => apply bindE in H as ([m1 he] & E1 & H); apply by_insertAlong in E1
  | bind (connectVertices _ _ _) _ = Ok _ => apply bindE in H as ([m2 c] & E2 & H); apply by_connect in E2
  | bind (if ?b then _ else _) (fun m => Ok _) = Ok _ => apply bindE in H as (m3 & E3 & H); injection H as <- <-
  | bind _ _ = Ok _ => let x := fresh "x" in let E := fresh "E" in apply bindE in H as (x & E & H); clear E
  end.
  pose proof (by_t _ _ _ _ _ _ _ _ _ E1 E2) as K. match type of E3 with (if ?b then _ else _) = _ => destruct b end.
  - right. repeat lazymatch type of E3 with
      | bind (connectVertices _ _ _) _ = Ok _ => apply bindE in E3 as ([m4 d] & E4 & E3); apply by_connect in E4
      | bind _ _ = Ok _ => let x := fresh "x" in let E := fresh "E" in apply bindE in E3 as (x & E & E3); clear E
      end. injection E3 as ->. exact (by_t _ _ _ _ _ _ _ _ _ K E4).
  - left. injection E3 as ->. exact K.
Qed.
Lemma by_switch m e m' : switchHalfedgeSides m e = Ok m' -> By m m' 0 0 0.
Proof. unfold switchHalfedgeSides. intros H. repeat bst H ltac:(none). injection H as <-. bfin. Qed.
Lemma by_link_ring r : forall m a f m', link_ring m r a f = Ok m' -> By m m' 0 0 0.
Proof. induction r as [|x t IH]; intros m a f m' H; cbn [link_ring] in H; [injection H as <-; apply by_0|]. repeat bst H ltac:(none). apply IH in H. join. bfin. Qed.
Lemma by_removeEdge m e m' f : removeEdge m e = Ok (m', f) -> m' = m \/ By m m' 0 (-1) (-1).
Proof.
  unfold removeEdge. intros H. run H ltac:(fun E => lazymatch type of E with link_ring _ _ _ _ = _ => apply by_link_ring in E end); first [left; reflexivity | right; bfin].
Qed.
Lemma by_fan r : forall m c fs m' fs', fan_loop m c r fs = Ok (m', fs') -> By m m' 0 (Z.of_nat (length r)) (Z.of_nat (length r)).
Proof.
  induction r as [|x t IH]; intros m c fs m' fs' H; cbn [fan_loop] in H; [injection H as <- <-; apply by_0|].
  apply bindE in H as ([m1 c1] & E1 & H). apply bindE in H as (f & _ & H). apply by_connect in E1. apply IH in H. join. eapply by_eq; [eassumption|cbn [length]; lia..].
Qed.
Lemma by_triangulate m f m' fs : triangulate m f = Ok (m', fs) -> exists n, By m m' 0 n n.
Proof. unfold triangulate. intros H. repeat bst H ltac:(none); [injection H as <- <-; exists 0; apply by_0|]. eexists. eapply by_fan; eauto. Qed.
Lemma by_spokes n : forall m (b : bool) f fs hs m' fs' hs', new_spokes n m b f fs hs = Ok (m', fs', hs') -> By m m' 0 (Z.of_nat n) (Z.of_nat n - (if b && negb (Nat.eqb n 0) then 1 else 0)).
Proof.
  induction n as [|n IH]; intros m b f fs hs m' fs' hs' H; cbn [new_spokes] in H; [injection H as <- <- <-; destruct b; apply by_0|].
  apply bindE in H as ([m1 g] & E1 & H). apply bindE in H as ([m2 h] & E2 & H). apply by_newEdge in E2. apply IH in H. pose proof (by_t _ _ _ _ _ _ _ _ _ E2 H) as K. destruct b.
  - injection E1 as -> ->. eapply by_eq; [exact K|cbn [andb negb Nat.eqb]; lia..].
  - apply by_newFace in E1. eapply by_eq; [exact (by_t _ _ _ _ _ _ _ _ _ E1 K)|cbn [andb negb Nat.eqb]; lia..].
Qed.
Lemma by_hook fs : forall m c t ls bs m', hook_spokes m c t fs ls bs = Ok m' -> By m m' 0 0 0.
Proof.
  induction fs as [|f fs IH]; intros m c t [|l ls] [|b bs] m' H; cbn [hook_spokes] in H; try (injection H as <-; apply by_0).
  repeat bst H ltac:(none). apply IH in H. join. bfin.
Qed.
Lemma orbit_some n st s c l : orbit_loop n st s c = Ok l -> l <> [].
Proof. destruct n; cbn [orbit_loop]; [discriminate|]. intros H. apply bindE in H as (x & _ & H). destruct (x =? s); [injection H as <-; discriminate|]. apply bindE in H as (y & _ & H). injection H as <-. discriminate. Qed.
Lemma by_insertVertex m f m' v : insertVertex m f = Ok (m', v) -> exists n, By m m' 1 n (n - 1).
Proof.
  unfold insertVertex. intros H. destruct (getNewVertex m) as [m1 c] eqn:E1. apply by_newVertex in E1. apply bindE in H as (hs0 & E2 & H). apply bindE in H as ([[m2 fs] ls] & E3 & H).
  assert (N : hs0 <> []) by (unfold faceHalfedges in E2; apply bindE in E2 as (h & _ & E2); eapply orbit_some; eauto).
  apply bindE in H as (bs & _ & H). cbv zeta in H. apply bindE in H as (m3 & E4 & H). apply bindE in H as (m4 & E5 & H). injection H as <- <-.
  apply by_spokes in E3. apply by_hook in E4. apply by_setVHe in E5. do 3 join. exists (Z.of_nat (length hs0)). destruct hs0; [congruence|]. eapply by_eq; [eassumption|cbn [length andb negb Nat.eqb]; lia..].
Qed.
Lemma by_move l : forall m v m', foldM (fun m h => setVertex m h v) l m = Ok m' -> By m m' 0 0 0.
Proof. induction l as [|h l IH]; intros m v m' H; cbn [foldM] in H; [injection H as <-; apply by_0|]. apply bindE in H as (m1 & H1 & H). apply IH in H. apply by_setVertex in H1. join. bfin. Qed.
Lemma by_moveVertex m a b m' : moveVertex m a b = Ok m' -> By m m' 0 0 0.
Proof. unfold moveVertex. intros H. apply bindE in H as (l & _ & H). apply by_move in H. auto. Qed.
Lemma by_unless m v h m' : setVHeUnlessBoundary m v h = Ok m' -> By m m' 0 0 0.
Proof. unfold setVHeUnlessBoundary. intros H. apply bindE in H as (b & _ & H). destruct b; [injection H as <-; apply by_0|]. apply by_setVHe in H. auto. Qed.
Ltac kc E := lazymatch type of E with moveVertex _ _ _ = _ => apply by_moveVertex in E | setVHeUnlessBoundary _ _ _ = _ => apply by_unless in E end.
Lemma by_collapse m e m' r : collapseEdgeTriangular m e = Ok (m', r) -> m' = m \/ By m m' (-1) (-2) (-1) \/ By m m' (-1) (-3) (-2).
Proof.
  unfold collapseEdgeTriangular. intros H. repeat bst H ltac:(none).
  - clear -H. unfold collapseBoundary in H. repeat bst H ltac:(kc); try (left; congruence). injection H as <- <-. right. left. bfin.
  - left. congruence.
  - left. congruence.
  - clear -H. unfold collapseInterior in H. repeat bst H ltac:(kc). injection H as <- <-. right. right. bfin.
  - clear -H. unfold collapseDegree3 in H. repeat bst H ltac:(kc). injection H as <- <-. right. right. bfin.
  - discriminate.
Qed.
Lemma by_compress m m' : compress m = Ok m' -> By m m' 0 0 0.
Proof.
  unfold compress. intros H. destruct (compressed m); [injection H as <-; apply by_0|].
  apply bindE in H as (m1 & H1 & H). apply bindE in H as (m2 & H2 & H). apply bindE in H as (m3 & H3 & H). injection H as <-.
  unfold compressHalfedges in H1. unfold compressFaces in H2. unfold compressVertices in H3.
  apply bindE in H1 as ([o1 n1] & _ & H1). repeat (apply bindE in H1 as (? & _ & H1)). injection H1 as <-.
  apply bindE in H2 as ([o2 n2] & _ & H2). repeat (apply bindE in H2 as (? & _ & H2)). injection H2 as <-.
  apply bindE in H3 as ([o3 n3] & _ & H3). repeat (apply bindE in H3 as (? & _ & H3)). injection H3 as <-.
  unfold By. pj. lia.
Qed.
Lemma by_removeVertex m v m' f : Valid m -> liveV m v -> removeVertex m v = Ok (m', f) -> m' = m \/ exists n, By m m' (-1) (- n) (1 - n).
Proof.
  intros V L E. destruct (remove_vertex_spec m v V L) as (K0 & K1 & K2).
  destruct (Bool.bool_dec (existsb (fun h => negb (nx m h =? -1) && (ve m h =? v) && (fFill m <=? fa m h)) (zseq (heFill m))) true) as [B|B].
  - apply existsb_exists in B as (h & B1 & B2). rewrite K0 in E; [discriminate|]. apply zseq_In in B1. exists h. unfold liveH, ext. lia.
  - assert (X : forall h, liveH m h -> ve m h = v -> ~ ext m h).
    { intros h Lh Eh Xh. apply B. apply existsb_exists. exists h. split; [apply zseq_In; apply Lh|]. destruct Lh as [_ Lh]. unfold ext in Xh. lia. }
    destruct (simpleStar_dec m v) as [S|S].
    + destruct (vertHalfedges_ok m V v L) as (hs & _ & A1 & A2 & A3 & A4). destruct (K2 X S hs A3 A4) as (m2 & E2 & _ & C1 & C2 & C3 & C4 & C5 & C6 & _). rewrite E2 in E. injection E as -> _.
      right. exists (Z.of_nat (length hs)). unfold By. lia.
    + left. rewrite (K1 X S) in E. congruence.
Qed.
Lemma euler_call m o m' : applyOp m o = Ok m' -> (forall v, o = ORemoveVertex v -> Valid m /\ liveV m v) ->
  eulerCharacteristic m' = eulerCharacteristic m /\ genus m' = genus m /\ nLoops m' = nLoops m.
Proof.
  intros H PV. assert (K : nVertices m' - nEdges m' + nFaces m' = nVertices m - nEdges m + nFaces m /\ nLoops m' = nLoops m).
  { destruct o; cbn [applyOp] in H; try (apply bindE in H as ([m1 r] & H & E); injection E as ->).
    - apply by_flip in H. unfold By in H. lia.
    - apply by_insertAlong in H. unfold By in H. lia.
    - apply by_connect in H. unfold By in H. lia.
    - apply by_split in H. unfold By in H. lia.
    - apply by_insertVertex in H as (n & H). unfold By in H. lia.
    - apply by_removeEdge in H as [->|H]; [lia|]. unfold By in H. lia.
    - destruct (PV v eq_refl) as [V L]. apply by_removeVertex in H as [->|(n & H)]; auto. unfold By in H. lia.
    - apply by_triangulate in H as (n & H). unfold By in H. lia.
    - apply by_switch in H. unfold By in H. lia.
    - apply by_collapse in H as [->|H]; [lia|]. unfold By in H. lia.
    - apply by_compress in H. unfold By in H. lia. }
  unfold genus, eulerCharacteristic. destruct K as [K1 K2]. rewrite K2. replace (nVertices m' - nEdges m' + (nFaces m' + nLoops m)) with (nVertices m - nEdges m + (nFaces m + nLoops m)) by lia. auto.
Qed.
