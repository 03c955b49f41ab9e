(** A collapse allocates nothing: fills, capacities and the callback log stay as they are, and isCompressed() is given up *)
From Verif Require Import Base MeshModel MeshModel2 MeshSpec MeshOpSpec DataModel MeshDataModel MeshAlloc MeshEvents CollapseModel.
Open Scope Z_scope.

Lemma shape_one m m' h x : setNext m h x = Ok m' \/ setVertex m h x = Ok m' \/ setFace m h x = Ok m' \/ setVHe m h x = Ok m' \/ setFHe m h x = Ok m' -> shape m' = shape m.
Proof. intros [H|[H|[H|[H|H]]]]; apply bindE in H as (l & _ & H); injection H as <-; reflexivity. Qed.
Lemma shape_deleteEdge m e m' : deleteEdgeBundle m e = Ok m' -> shape m' = shape m.
Proof.
  unfold deleteEdgeBundle. intros H. apply bindE in H as (m1 & H1 & H). apply bindE in H as (m2 & H2 & H). injection H as <-.
  apply shape_deleteHalfedge in H1, H2. unfold shape, fills in *. pj. congruence.
Qed.
Lemma shape_deleteVertex m v m' : deleteVertex m v = Ok m' -> shape m' = shape m.
Proof. unfold deleteVertex. intros H. apply bindE in H as (m1 & H1 & H). apply (fun E => shape_one m m1 v INVALID (or_intror (or_intror (or_intror (or_introl E))))) in H1. injection H as <-. rewrite <- H1. reflexivity. Qed.
Lemma shape_deleteFace m v m' : deleteFace m v = Ok m' -> shape m' = shape m.
Proof. unfold deleteFace. intros H. apply bindE in H as (m1 & H1 & H). apply (fun E => shape_one m m1 v INVALID (or_intror (or_intror (or_intror (or_intror E))))) in H1. injection H as <-. rewrite <- H1. reflexivity. Qed.
Lemma shape_move l : forall m v m', foldM (fun m h => setVertex m h v) l m = Ok m' -> shape m' = shape m.
Proof. induction l as [|h l IH]; intros m v m' H; cbn [foldM] in H; [congruence|]. apply bindE in H as (m1 & H1 & H). apply IH in H. rewrite H. apply (shape_one m m1 h v). auto. Qed.
Lemma shape_moveVertex m a b m' : moveVertex m a b = Ok m' -> shape m' = shape m.
Proof. unfold moveVertex. intros H. apply bindE in H as (l & _ & H). apply shape_move in H. auto. Qed.
Lemma shape_unless m v h m' : setVHeUnlessBoundary m v h = Ok m' -> shape m' = shape m.
Proof. unfold setVHeUnlessBoundary. intros H. apply bindE in H as (b & _ & H). destruct b; [congruence|]. apply (shape_one m m' v h). auto. Qed.
Ltac sc_known H :=
  lazymatch type of H with
  | setNext _ _ _ = Ok _ => apply (fun E => shape_one _ _ _ _ (or_introl E)) in H
  | setFace _ _ _ = Ok _ => apply (fun E => shape_one _ _ _ _ (or_intror (or_intror (or_introl E)))) in H
  | setFHe _ _ _ = Ok _ => apply (fun E => shape_one _ _ _ _ (or_intror (or_intror (or_intror (or_intror E))))) in H
  | moveVertex _ _ _ = Ok _ => apply shape_moveVertex in H
  | setVHeUnlessBoundary _ _ _ = Ok _ => apply shape_unless in H
  | deleteEdgeBundle _ _ = Ok _ => apply shape_deleteEdge in H
  | deleteVertex _ _ = Ok _ => apply shape_deleteVertex in H
  | deleteFace _ _ = Ok _ => apply shape_deleteFace in H
  | _ => clear H
  end.
Ltac sc_step H := lazymatch type of H with bind _ _ = Ok _ => let x := fresh "x" in let E := fresh "E" in apply bindE in H as (x & E & H); sc_known E end.
Ltac sc H := repeat first [sc_step H | match type of H with (if ?b then _ else _) = Ok _ => destruct b end].
Lemma deleteFace_flag m f m' : deleteFace m f = Ok m' -> compressed m' = false.
Proof. unfold deleteFace. intros H. apply bindE in H as (m1 & _ & H). injection H as <-. reflexivity. Qed.
Ltac last_face H := repeat match type of H with
  | bind (deleteFace _ _) (fun m => Ok _) = Ok _ => let x := fresh "x" in let E := fresh "E" in apply bindE in H as (x & E & H); apply deleteFace_flag in E; injection H as <- <-; intros _; exact E
  | bind _ _ = Ok _ => let x := fresh "x" in let E := fresh "E" in apply bindE in H as (x & E & H); clear E
  | (if ?b then _ else _) = Ok _ => destruct b
  end.
Lemma shape_collapse m e m' r : collapseEdgeTriangular m e = Ok (m', r) -> shape m' = shape m /\ (r <> None -> compressed m' = false).
Proof.
  unfold collapseEdgeTriangular. intros H. sc H.
  - clear -H. unfold collapseBoundary in H. split.
    + sc H; injection H as <- <-; congruence.
    + last_face H; injection H as <- <-; intros N; congruence.
  - injection H as <- <-. split; [auto|congruence].
  - injection H as <- <-. split; [auto|congruence].
  - clear -H. unfold collapseInterior in H. split; [sc H; injection H as <- <-; congruence|last_face H].
  - clear -H. unfold collapseDegree3 in H. split; [sc H; injection H as <- <-; congruence|last_face H].
  - discriminate.
Qed.
Lemma collapse_none m e m' : collapseEdgeTriangular m e = Ok (m', None) -> m' = m.
Proof.
  unfold collapseEdgeTriangular. intros H. sc H.
  - clear -H. unfold collapseBoundary in H. sc H; congruence.
  - congruence.
  - congruence.
  - clear -H. unfold collapseInterior in H. sc H. congruence.
  - clear -H. unfold collapseDegree3 in H. sc H. congruence.
  - discriminate.
Qed.
