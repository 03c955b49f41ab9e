(** C21: compress() is a renumbering *)
From Verif Require Import Base MeshModel MeshModel2 MeshCompressModel MeshSpec MeshBase MeshOpSpec MeshCheck MeshBuildModel MeshExamples MeshCompress.
Open Scope Z_scope.

(** C21. newH, newE, newV, newF, newL give the new index of an element: the number of live elements of that kind with a
    smaller index. [Renumbered] says that they map the live elements of m onto those of m', keeping twin, edge, next,
    vertex, face or boundary loop, and the stored representatives; [Compact] that m' has no dead slot and no spare
    capacity. The permutations handed to the containers are the inverse maps; for boundary loops see
    C06_loop_data_refuted. *)
Theorem C21_compress m : Valid m -> 0 < heFill m -> compressed m = false ->
  exists m', compress m = Ok m' /\ Valid m' /\ Compact m' /\ compressed m' = true /\ counts m' = counts m /\ Renumbered m m' /\
  exists ph pe pv pf pl,
    cblog m' = CbPermute KVertex pv :: CbPermute KLoop pl :: CbPermute KFace pf :: CbPermute KEdge pe :: CbPermute KHalfedge ph :: cblog m /\
    zlen ph = nHalfedges m /\ zlen pe = nEdges m /\ zlen pv = nVertices m /\ zlen pf = nFaces m /\ zlen pl = nLoops m /\
    (forall h, liveH m h -> getZ ph (newH m h) = h) /\
    (forall e, liveH m (2 * e) -> getZ pe (newE m e) = e) /\
    (forall v, liveV m v -> getZ pv (newV m v) = v) /\
    (forall f, liveF m f -> getZ pf (newF m f) = f) /\
    (forall i, liveBL m i -> getZ pl (nLoops m - 1 - newL m i) = i).
Proof. intros V P N. exact (compress_spec m V P N). Qed.
Print Assumptions C21_compress.
(** the renumbering keeps the order of the elements, so no two get the same index *)
Theorem C21_monotone m : Valid m ->
  (forall h g, liveH m h -> liveH m g -> h < g -> newH m h < newH m g) /\
  (forall v w, liveV m v -> liveV m w -> v < w -> newV m v < newV m w) /\
  (forall f g, liveF m f -> liveF m g -> f < g -> newF m f < newF m g) /\
  (forall i j, liveBL m i -> liveBL m j -> i < j -> newL m i < newL m j).
Proof. exact (fun _ => newIndex_monotone m). Qed.
Print Assumptions C21_monotone.
Theorem C21_idempotent m : compressed m = true -> compress m = Ok m.
Proof. exact (compress_compressed m). Qed.
Print Assumptions C21_idempotent.

(** a ring of four squares and a separate pair of triangles; a vertex inserted into a square and removed again, and the
    edge between the triangles removed: dead vertices, edges and faces in the middle of the arrays, three boundary loops *)
Definition ring := built [[0;1;5;4];[1;2;6;5];[2;3;7;6];[3;0;4;7];[8;9;10];[8;10;11]].
Definition holed : mesh :=
  match (let* (m, v) := insertVertex ring 0 in let* (m, _) := removeVertex m v in let* (m, _) := removeEdge m 14 in insertVertex m 1) with
  | Ok (m, _) => m | _ => emptyMesh end.
Lemma holed_valid : Valid holed. Proof. apply validb_Valid. vm_compute. reflexivity. Qed.
Example C21_witness : Valid holed /\ 0 < heFill holed /\ compressed holed = false /\
  counts holed = (40, 28, 20, 13, 8, 3) /\ (heFill holed, eFill holed, vFill holed, fFill holed, bFill holed, fCap holed) = (50, 25, 14, 12, 3, 18) /\
  exists m', compress holed = Ok m' /\ (heFill m', eFill m', vFill m', fFill m', bFill m', fCap m') = (40, 20, 13, 8, 3, 11) /\ newH holed 49 = 39 /\ newV holed 13 = 12 /\ newF holed 10 = 6.
Proof. split; [exact holed_valid|]. split; [conc|]. split; [conc|]. split; [conc|]. split; [conc|]. eexists. split; [vm_compute; reflexivity|]. conc. Qed.
