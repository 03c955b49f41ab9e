(** C74, C77: inverting a face and flipping an edge of a general mesh *)
From Verif Require Import Base MeshModel MeshSpec GenModel GenSpec GenBuild5 GenBuild6 GenOpsModel GenOpsSpec GenOps5 GenOps6 GenProperties.
From Coq Require Import Permutation.
Open Scope Z_scope.

(** invertOrientation always succeeds; the halfedges of the face run the other way, nothing else moves *)
Theorem C74_inverted m f : GValid m -> 0 <= f < gFFill m ->
  exists m', gInvertOrientation m f = Ok m' /\ GValid m' /\ Inverted m m' f /\ gComp m' = gComp m.
Proof. exact (inverted_all m f). Qed.
Print Assumptions C74_inverted.
(** doing it twice restores the mesh, up to the order of the lists around vertices *)
Theorem C74_twice m f : GValid m -> 0 <= f < gFFill m ->
  exists m1 m2, gInvertOrientation m f = Ok m1 /\ gInvertOrientation m1 f = Ok m2 /\ sameConnectivity m m2.
Proof. exact (inverted_twice m f). Qed.
Print Assumptions C74_twice.
Lemma fan_valid : GValid fanMesh.
Proof.
  destruct (build_ok (@rev _) fanPolys) as (m & E & B); [intros d; apply Permutation_sym, Permutation_rev|repeat constructor; lia|exact fan_accepted|].
  unfold fanMesh. rewrite E. apply (bt_valid _ _ B).
Qed.
Example C74_case : GValid fanMesh /\ 0 <= 2 < gFFill fanMesh /\ gFaceVertexList (getG (gInvertOrientation fanMesh 2)) = Ok [[0;1;2];[1;0;3];[1;0;4];[5;6;0;7]] /\
  map (ev (getG (gInvertOrientation fanMesh 2)) AOri) [0; 6; 3] = [1; 0; 0].
Proof. split; [exact fan_valid|]. split; [vm_compute; split; congruence|]. split; vm_compute; reflexivity. Qed.

(** flip(e, preventSelfEdges) succeeds on every mesh without one-sided faces. It returns true exactly when the edge has two
    halfedges, in two distinct triangles, however they are oriented, and, if asked, the opposite corners are not joined yet.
    It changes nothing when it returns false. The recursion of the code is never deeper than 2. *)
Theorem C77_flip depth m e prevent : (2 <= depth)%nat -> GValid m -> NoMonogon m -> 0 <= e < gEFill m ->
  exists m' r, gFlip depth m e prevent = Ok (m', r) /\ GValid m' /\ NoMonogon m' /\
    (r = true <-> exists a b, TwoTriangles m e a b /\ (prevent = true -> ~ Joined m (gTipOf m (ev m ANext a)) (gTipOf m (ev m ANext b)))) /\
    (r = false -> sameConnectivity m m') /\
    (r = true -> forall a b, TwoTriangles m e a b -> Flipped m m' e a b).
Proof. exact (flip_ok depth m e prevent). Qed.
Print Assumptions C77_flip.
(** the meshes the constructor makes have no one-sided face *)
Theorem C77_built order polys m : (forall d, Permutation (order d) d) -> Forall (fun v => 0 <= v) (concat polys) ->
  gBuild order polys = Ok m -> GValid m /\ NoMonogon m.
Proof. exact (built_noMono order polys m). Qed.
Print Assumptions C77_built.
(** two triangles that run the same way along edge 0, so that the code inverts one of them and back *)
Definition twoPolys : list (list Z) := [[0;1;2];[0;1;3]].
Definition insertionOrder (d : history) : history := d.
Definition twoMesh : gmesh := getG (gBuild insertionOrder twoPolys).
Lemma two_nn : Forall (fun v => 0 <= v) (concat twoPolys).
Proof. simpl. repeat (apply Forall_cons; [lia|]). apply Forall_nil. Qed.
Example C77_case : gBuild insertionOrder twoPolys = Ok twoMesh /\ GValid twoMesh /\ NoMonogon twoMesh /\ 0 <= 0 < gEFill twoMesh /\ TwoTriangles twoMesh 0 0 3 /\
  (let* (m', r) := gFlip 2 twoMesh 0 true in let* l := gFaceVertexList m' in Ok (r, l)) = Ok (true, [[3;2;0];[3;2;1]]) /\
  (let* (m', r) := gFlip 2 fanMesh 0 true in Ok r) = Ok false.
Proof.
  assert (E : gBuild insertionOrder twoPolys = Ok twoMesh).
  { destruct (build_ok insertionOrder twoPolys) as (m & E & B); [intros d; apply Permutation_refl|exact two_nn| |unfold twoMesh; rewrite E; reflexivity].
    split; [repeat constructor|]. intros v Hv. change (fold_left _ twoPolys 0) with 3 in Hv. assert (v = 0 \/ v = 1 \/ v = 2 \/ v = 3) as C by lia. simpl. intuition. }
  split; [exact E|]. destruct (built_noMono insertionOrder twoPolys twoMesh) as [V N]; [intros d; apply Permutation_refl|exact two_nn|exact E|].
  split; [exact V|]. split; [exact N|]. split; [vm_compute; split; congruence|].
  split; [split; [vm_compute; reflexivity|]; split; [vm_compute; reflexivity|]; split; [congruence|]; split; [vm_compute; reflexivity|]; split; [vm_compute; congruence|]; intros h [-> | ->]; vm_compute; reflexivity|].
  split; vm_compute; reflexivity.
Qed.
