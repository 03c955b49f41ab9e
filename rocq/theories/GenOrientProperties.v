(** C78: greedilyOrientFaces *)
From Coq Require Import Permutation.
From Verif Require Import Base MeshModel MeshSpec MeshBase GenModel GenSpec GenOpsModel GenSepSpec GenBuild5 GenTopoModel GenOrientSpec GenOrient1 GenProperties GenOpsProperties GenDupProperties.
Open Scope Z_scope.

(** The function always returns. It turns whole faces round and does nothing else, and on every set of faces closed under crossing
    two-sided edges that can be oriented at all, neighbouring faces agree afterwards. *)
Theorem C78_oriented m : GValid m -> exists m' T, gGreedilyOrientFaces m = Ok m' /\ GValid m' /\ Turned m m' T /\
  forall C s, ClosedSet m C -> orientedBy m C s -> forall a b, Twins m a b -> C (ev m AFace a) -> ev m' AOri a <> ev m' AOri b.
Proof. exact (orient_all m). Qed.
Print Assumptions C78_oriented.

(** a tetrahedron with two faces the wrong way round *)
Definition mixPolys : list (list Z) := [[0;1;2];[0;3;2];[0;3;1];[1;2;3]].
Definition mixMesh : gmesh := getG (gBuild insertionOrder mixPolys).
Definition mixWrong (f : Z) : bool := (f =? 1) || (f =? 3).
(** a Moebius strip of five triangles: it cannot be oriented *)
Definition moebPolys : list (list Z) := [[0;1;2];[1;2;3];[2;3;4];[3;4;0];[4;0;1]].
Definition moebMesh : gmesh := getG (gBuild insertionOrder moebPolys).
Lemma built_valid l : Forall (fun v => 0 <= v) (concat l) -> accepted l -> GValid (getG (gBuild insertionOrder l)).
Proof. intros NN GP. destruct (build_ok insertionOrder l) as (m & E & B); [intros d; apply Permutation_refl|exact NN|exact GP|]. rewrite E. apply (bt_valid _ _ B). Qed.

Example C78_case : GValid mixMesh /\ ClosedSet mixMesh (fun _ => True) /\ orientedBy mixMesh (fun _ => True) mixWrong /\
  Twins mixMesh 2 5 /\ ev mixMesh AOri 2 = ev mixMesh AOri 5 /\
  (let* m' := gGreedilyOrientFaces mixMesh in gFaceVertexList m') = Ok [[0;1;2];[3;0;2];[0;3;1];[2;1;3]] /\
  GValid moebMesh /\ (let* m' := gGreedilyOrientFaces moebMesh in gFaceVertexList m') = Ok [[0;1;2];[2;1;3];[2;3;4];[4;3;0];[0;4;1]].
Proof.
  split.
  { apply built_valid; [repeat constructor; lia|]. split; [repeat constructor|]. intros v Hv. change (fold_left _ mixPolys 0) with 3 in Hv. assert (v = 0 \/ v = 1 \/ v = 2 \/ v = 3) as C by lia. simpl. intuition. }
  split; [intros a b _ _; exact Logic.I|]. split.
  { assert (C : forallb (fun a => xorb (xorb (ev mixMesh AOri a =? 1) (mixWrong (ev mixMesh AFace a))) (xorb (ev mixMesh AOri (ev mixMesh ASib a) =? 1) (mixWrong (ev mixMesh AFace (ev mixMesh ASib a))))) (zseq (gHeFill mixMesh)) = true) by (vm_compute; reflexivity).
    intros a b (Ha & _ & _ & E & _) _ K. rewrite forallb_forall in C. specialize (C a (proj2 (zseq_In _ _) Ha)). rewrite E, K, Bool.xorb_nilpotent in C. discriminate C. }
  split; [split; [vm_compute; split; congruence|split; [vm_compute; split; congruence|split; [lia|split; vm_compute; reflexivity]]]|].
  split; [vm_compute; reflexivity|]. split; [vm_compute; reflexivity|]. split; [|vm_compute; reflexivity].
  apply built_valid; [repeat constructor; lia|]. split; [repeat constructor|]. intros v Hv. change (fold_left _ moebPolys 0) with 4 in Hv. assert (v = 0 \/ v = 1 \/ v = 2 \/ v = 3 \/ v = 4) as C by lia. simpl. intuition.
Qed.
