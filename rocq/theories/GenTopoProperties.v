(** C76: separating nonmanifold vertices. C50: connected components of a general mesh *)
From Coq Require Import Permutation.
From Verif Require Import Base MeshModel MeshSpec MeshBase GenModel GenSpec GenOpsModel GenSepSpec GenBuild5 GenBuild6 GenTopoModel GenTopoSpec GenTopo3 GenTopo4 GenProperties GenOpsProperties GenDupProperties.
Open Scope Z_scope.

(** separateNonmanifoldVertices() refuses a mesh with an edge of three or more halfedges *)
Theorem C76_refuses m : GValid m -> ~ TwoPerEdge m -> gSeparateNonmanifoldVertices m = Throw.
Proof. exact (separateVertices_throw m). Qed.
Print Assumptions C76_refuses.

(** otherwise two corners end up at the same vertex exactly if they are linked across edges *)
Theorem C76_separated m : GValid m -> TwoPerEdge m ->
  exists m' parents, gSeparateNonmanifoldVertices m = Ok (m', parents) /\ GValid m' /\ zlen parents = gVCap m' /\ VerticesSplit m m' (getZ parents).
Proof. exact (separateVertices_ok m). Qed.
Print Assumptions C76_separated.

(** a second call changes no vertex *)
Theorem C76_twice m m' parents m2 parents2 : GValid m -> gSeparateNonmanifoldVertices m = Ok (m', parents) -> gSeparateNonmanifoldVertices m' = Ok (m2, parents2) ->
  gVFill m2 = gVFill m' /\ forall h, inH m h -> gTailOf m2 h = gTailOf m' h.
Proof. exact (separateVertices_again m m' parents m2 parents2). Qed.
Print Assumptions C76_twice.

(** two triangles that touch in a vertex, and a third one glued to the first *)
Definition bowPolys : list (list Z) := [[0;1;2];[0;3;4];[1;2;5]].
Definition bowMesh : gmesh := getG (gBuild insertionOrder bowPolys).
Lemma bow_built : gBuild insertionOrder bowPolys = Ok bowMesh /\ GValid bowMesh.
Proof.
  destruct (build_ok insertionOrder bowPolys) as (m & E & B); [intros d; apply Permutation_refl|repeat constructor; lia| |unfold bowMesh; rewrite E; split; [reflexivity|apply (bt_valid _ _ B)]].
  split; [repeat constructor|]. intros v Hv. change (fold_left _ bowPolys 0) with 5 in Hv. assert (v = 0 \/ v = 1 \/ v = 2 \/ v = 3 \/ v = 4 \/ v = 5) as C by lia. simpl. intuition.
Qed.
Example C76_case : GValid bowMesh /\ TwoPerEdge bowMesh /\ gTailOf bowMesh 0 = gTailOf bowMesh 3 /\
  (let* (m', parents) := gSeparateNonmanifoldVertices bowMesh in let* l := gFaceVertexList m' in
   Ok (gVFill bowMesh, gVFill m', parents, l, map (gTailOf m') [0; 3])) = Ok (6, 7, [0; 1; 2; 3; 4; 5; 0; -1; -1; -1; -1; -1], [[0;1;2];[6;3;4];[1;2;5]], [0; 6]) /\
  GValid fanMesh /\ ~ TwoPerEdge fanMesh.
Proof.
  split; [apply bow_built|]. split.
  { assert (C : forallb (fun h => ev bowMesh ASib (ev bowMesh ASib h) =? h) (zseq (gHeFill bowMesh)) = true) by (vm_compute; reflexivity).
    intros h Hh. rewrite forallb_forall in C. specialize (C h (proj2 (zseq_In _ _) Hh)). apply Z.eqb_eq in C. exact C. }
  split; [vm_compute; reflexivity|]. split; [vm_compute; reflexivity|]. split; [exact fan_valid|].
  intros Q. specialize (Q 0 ltac:(vm_compute; split; congruence)). vm_compute in Q. discriminate.
Qed.

(** C50 on a general mesh: right if every edge has two faces that run along it in opposite directions ... *)
Theorem C50_general_partial m : GValid m -> ClosedOriented m -> exists n, gConnectedComponents m = Ok n /\ gComponents m n.
Proof. exact (gComponents_ok m). Qed.
Print Assumptions C50_general_partial.

(** ... but wrong otherwise: twin() of a boundary halfedge of a general mesh is the halfedge itself. A single triangle has three components *)
Definition oneMesh : gmesh := getG (gBuild insertionOrder [[0;1;2]]).
Theorem C50_general_refuted : exists m, gBuild insertionOrder [[0;1;2]] = Ok m /\ GValid m /\ gConnectedComponents m = Ok 3%nat /\ gComponents m 1 /\ ~ gComponents m 3.
Proof.
  assert (L : forall a b, 0 <= a < 3 -> 0 <= b < 3 -> gLinked oneMesh a b).
  { assert (S : forall a, 0 <= a < 3 -> gLinked oneMesh a 0).
    { intros a Ha. assert (a = 0 \/ a = 1 \/ a = 2) as [->|[->| ->]] by lia; [apply rst_refl|apply rst_sym, rst_step; exists 0|apply rst_step; exists 2];
        (split; [vm_compute; split; congruence|split; vm_compute; reflexivity]). }
    intros a b Ha Hb. eapply rst_trans; [apply S; auto|apply rst_sym, S; auto]. }
  assert (F : gVFill oneMesh = 3) by (vm_compute; reflexivity). exists oneMesh.
  destruct (build_ok insertionOrder [[0;1;2]]) as (m & E & B); [intros d; apply Permutation_refl|repeat constructor; lia| |].
  { split; [repeat constructor|]. intros v Hv. change (fold_left _ [[0;1;2]] 0) with 2 in Hv. assert (v = 0 \/ v = 1 \/ v = 2) as C by lia. simpl. intuition. }
  split; [unfold oneMesh; rewrite E; reflexivity|]. split; [unfold oneMesh; rewrite E; apply (bt_valid _ _ B)|]. split; [vm_compute; reflexivity|]. split.
  - exists [0]. split; [reflexivity|]. split; [repeat constructor; simpl; tauto|]. rewrite F. split; [intros r [<-|[]]; lia|]. split.
    + intros v Hv. exists 0. split; [left; auto|]. apply L; lia.
    + intros r r' [<-|[]] [<-|[]] _. reflexivity.
  - intros (reps & Lr & ND & R & _ & U). destruct reps as [|a [|b t]]; [discriminate Lr|discriminate Lr|]. rewrite F in R.
    assert (Q : a = b) by (apply U; [left; auto|right; left; auto|apply L; apply R; [left|right; left]; auto]). inversion ND as [|? ? N _]. apply N. left. auto.
Qed.
Print Assumptions C50_general_refuted.

(** a closed mesh: a tetrahedron *)
Definition gTetPolys : list (list Z) := [[0;1;2];[0;2;3];[0;3;1];[1;3;2]].
Definition gTetMesh : gmesh := getG (gBuild insertionOrder gTetPolys).
Example C50_general_case : GValid gTetMesh /\ ClosedOriented gTetMesh /\ gConnectedComponents gTetMesh = Ok 1%nat.
Proof.
  split.
  { destruct (build_ok insertionOrder gTetPolys) as (m & E & B); [intros d; apply Permutation_refl|repeat constructor; lia| |unfold gTetMesh; rewrite E; apply (bt_valid _ _ B)].
    split; [repeat constructor|]. intros v Hv. change (fold_left _ gTetPolys 0) with 3 in Hv. assert (v = 0 \/ v = 1 \/ v = 2 \/ v = 3) as C by lia. simpl. intuition. }
  split; [|vm_compute; reflexivity].
  assert (C : forallb (fun e => negb (ev gTetMesh AOri (ev gTetMesh ASib (ev gTetMesh AEHe e)) =? ev gTetMesh AOri (ev gTetMesh AEHe e))) (zseq (gEFill gTetMesh)) = true) by (vm_compute; reflexivity).
  intros e He Q. rewrite forallb_forall in C. specialize (C e (proj2 (zseq_In _ _) He)). rewrite Q, Z.eqb_refl in C. discriminate.
Qed.
