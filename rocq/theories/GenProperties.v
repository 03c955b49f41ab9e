(** C49: the constructor of the general mesh *)
From Verif Require Import Base MeshModel MeshSpec GenModel GenSpec GenBuild5 GenBuild6.
From Coq Require Import Permutation.
Open Scope Z_scope.

(** whatever the order in which the hash table of edges is traversed: one halfedge per side of a polygon, with its tail,
    its tip and its face; two halfedges share an edge exactly when they join the same two vertices; the flag of a halfedge
    says whether it runs like the first halfedge of its edge; and reading the polygons back gives the input *)
Theorem C49_built order polys : (forall d, Permutation (order d) d) -> Forall (fun v => 0 <= v) (concat polys) -> accepted polys ->
  exists m, gBuild order polys = Ok m /\ GValid m /\ gComp m = true /\
    gHeFill m = zlen (concat polys) /\ gFFill m = Z.of_nat (length polys) /\ (forall v, 0 <= v < gVFill m <-> In v (concat polys)) /\
    (forall h f j, Corner polys h f j -> gTailOf m h = getZ (nth f polys []) j /\
       gTipOf m h = getZ (nth f polys []) ((j + 1) mod zlen (nth f polys [])) /\ ev m AFace h = Z.of_nat f) /\
    (forall a b, inH m a -> inH m b -> (ev m AEdge a = ev m AEdge b <-> sameEnds (gTailOf m a) (gTipOf m a) (gTailOf m b) (gTipOf m b))) /\
    (forall h, inH m h -> (ev m AOri h = 1 <-> gTailOf m h = gTailOf m (ev m AEHe (ev m AEdge h)))) /\
    gFaceVertexList m = Ok polys.
Proof. exact (built_all order polys). Qed.
Print Assumptions C49_built.

(** everything else is refused with an exception: a polygon with fewer than three corners, or a gap in the numbering *)
Theorem C49_rejected order polys : Forall (fun v => 0 <= v) (concat polys) -> ~ accepted polys -> gBuild order polys = Throw.
Proof. exact (build_reject order polys). Qed.
Print Assumptions C49_rejected.

(** the loops around a face, along an edge, out of and into a vertex end, and visit each incident halfedge once *)
Theorem C49_circulators m : GValid m ->
  (forall f, 0 <= f < gFFill m -> exists l, gFaceHes m f = Ok l /\ NoDup l /\ forall h, In h l <-> inH m h /\ ev m AFace h = f) /\
  (forall e, 0 <= e < gEFill m -> exists l, gEdgeHes m e = Ok l /\ NoDup l /\ forall h, In h l <-> inH m h /\ ev m AEdge h = e) /\
  (forall v, 0 <= v < gVFill m -> exists l, gOutHes m v = Ok l /\ NoDup l /\ forall h, In h l <-> inH m h /\ gTailOf m h = v) /\
  (forall v, 0 <= v < gVFill m -> exists l, gInHes m v = Ok l /\ NoDup l /\ forall h, In h l <-> inH m h /\ gTipOf m h = v).
Proof. exact (circulators_all m). Qed.
Print Assumptions C49_circulators.

(** three triangles on one edge, two of them running the same way along it, and a quad that touches them in one vertex *)
Definition fanPolys : list (list Z) := [[0;1;2];[1;0;3];[0;1;4];[5;6;0;7]].
Definition getG (r : res gmesh) : gmesh := match r with Ok m => m | _ => gStart [] end.
Definition fanMesh : gmesh := getG (gBuild (@rev _) fanPolys).
Lemma fan_accepted : accepted fanPolys.
Proof.
  split; [repeat constructor|]. intros v Hv. change (fold_left _ fanPolys 0) with 7 in Hv.
  assert (v = 0 \/ v = 1 \/ v = 2 \/ v = 3 \/ v = 4 \/ v = 5 \/ v = 6 \/ v = 7) as C by lia. simpl. intuition.
Qed.
Example C49_case : (forall d : history, Permutation (rev d) d) /\ Forall (fun v => 0 <= v) (concat fanPolys) /\ accepted fanPolys /\
  GValid fanMesh /\ gEdgeHes fanMesh 0 = Ok [0; 6; 3] /\ map (ev fanMesh AOri) [0; 6; 3] = [1; 1; 0] /\
  gOutHes fanMesh 0 = Ok [11; 0; 4; 6] /\ gInHes fanMesh 0 = Ok [10; 2; 3; 8] /\ gFaceVertexList fanMesh = Ok fanPolys /\
  ~ accepted [[0;1]] /\ gBuild (@rev _) [[0;1]] = Throw /\ gBuild (@rev _) [[0;1;3]] = Throw.
Proof.
  split; [intros d; apply Permutation_sym, Permutation_rev|]. split; [repeat constructor; lia|]. split; [exact fan_accepted|].
  split.
  { destruct (build_ok (@rev _) fanPolys) as (m & E & B); [intros d; apply Permutation_sym, Permutation_rev|repeat constructor; lia|exact fan_accepted|].
    unfold fanMesh. rewrite E. apply (bt_valid _ _ B). }
  split; [vm_compute; reflexivity|]. split; [vm_compute; reflexivity|]. split; [vm_compute; reflexivity|]. split; [vm_compute; reflexivity|].
  split; [vm_compute; reflexivity|]. split; [intros [F _]; apply Forall_inv in F; simpl in F; lia|]. split; vm_compute; reflexivity.
Qed.
