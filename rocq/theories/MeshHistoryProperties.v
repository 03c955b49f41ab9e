(** C05, C06, C08, C19, C20, C21, C55, C58, C60: histories of mutations, and the containers registered with the mesh *)
From Coq Require Import Sorted.
From Verif Require Import Base MeshModel MeshModel2 MeshCompressModel MeshSpec MeshOpSpec MeshCheck MeshBuildModel MeshExamples MeshCompressProperties DataModel MeshDataModel
  MeshEvents MeshHistoryModel MeshHistorySpec MeshHistory MeshHistoryCheck EulerProofs.
Open Scope Z_scope.

(** C19. [Start m] (valid, at least one vertex, no dead boundary loop, isCompressed() truthful) is what construction gives,
    and it holds again after every legal history; whatever duplicate-free list enumerates the live elements of a kind, its length is the reported count. *)
Theorem C19_counts_partial m l : Start m -> OpsPre m l -> exists m', runOps m l = Ok m' /\ Start m' /\
  (forall k ls, NoDup ls -> (forall i, In i ls <-> liveE m' k i) -> Z.of_nat (length ls) = nElements m' k) /\
  (forall ls, NoDup ls -> (forall h, In h ls <-> liveH m' h /\ ext m' h) -> Z.of_nat (length ls) = nExterior m').
Proof.
  intros S P. destruct (start_history m l S P) as (m' & E & S' & _). exists m'. split; [exact E|]. split; [exact S'|]. split.
  - intros k ls. exact (live_count m' k ls (sr_valid _ S')).
  - intros ls. exact (ext_count m' ls (sr_valid _ S')).
Qed.
Print Assumptions C19_counts_partial.
(** C20. Whatever the mesh and the arguments (removeVertex: a valid mesh and one of its vertices): a call that returns, with
    or without having done anything, leaves the Euler characteristic, the genus and the number of boundary loops as reported
    before. *)
Theorem C20_call m o m' : applyOp m o = Ok m' -> (forall v, o = ORemoveVertex v -> Valid m /\ liveV m v) ->
  eulerCharacteristic m' = eulerCharacteristic m /\ genus m' = genus m /\ nLoops m' = nLoops m.
Proof. exact (euler_call m o m'). Qed.
Print Assumptions C20_call.
(** ... and the calls of a legal history do return *)
Theorem C20_euler m l : Start m -> OpsPre m l -> exists m', runOps m l = Ok m' /\
  eulerCharacteristic m' = eulerCharacteristic m /\ genus m' = genus m /\ nLoops m' = nLoops m.
Proof. intros S P. destruct (start_history m l S P) as (m' & E & _ & R). exists m'. split; [exact E|exact R]. Qed.
Print Assumptions C20_euler.
(** C21: isCompressed() is reported only when every slot is in use by a live element *)
Theorem C21_flag m l : Start m -> OpsPre m l -> exists m', runOps m l = Ok m' /\
  (compressed m' = true -> forall k i, 0 <= i < fillOf m' k -> k <> ECorner -> liveE m' k i).
Proof. intros S P. destruct (start_history m l S P) as (m' & E & S' & _). exists m'. split; [exact E|]. exact (flag_live m' S'). Qed.
Print Assumptions C21_flag.
(** C08. Iterating over the elements of a mesh visits the live ones once each, in index order, as many as the count says. *)
Theorem C08_mesh m k : Valid m -> exists l, elements m k = Ok l /\ StronglySorted lt l /\ NoDup l /\ Z.of_nat (length l) = nElements m k /\
  forall i, In i l <-> liveE m k (Z.of_nat i).
Proof. exact (iterate_mesh m k). Qed.
Print Assumptions C08_mesh.


(** two squares sharing an edge, and a history that uses every mutation *)
Definition strip := built [[0;1;2;3];[3;2;4;5]].
Definition strip_ops : list mop :=
  [OInsertVertex 0; OTriangulate 1; OFlip 2 false; OSplit 9; OSplit 3; OSwitch 2; ORemoveEdge 2; ORemoveVertex 7; OConnect 17 30; OInsertAlong 0; OCompress; OInsertVertex 2].
Lemma strip_start : Start strip. Proof. apply startb_ok. vm_compute. reflexivity. Qed.
Lemma strip_legal : OpsPre strip strip_ops. Proof. apply opsPreb_ok. vm_compute. reflexivity. Qed.
Example C19_witness : Start strip /\ OpsPre strip strip_ops /\
  exists m', runOps strip strip_ops = Ok m' /\ counts m' = (32, 24, 16, 10, 7, 1) /\ eulerCharacteristic m' = 2 /\ compressed m' = false.
Proof. split; [exact strip_start|]. split; [exact strip_legal|]. eexists. split; [vm_compute; reflexivity|]. conc. Qed.

(** collapses, in an octahedron *)
Definition octa := built [[0;2;4];[2;1;4];[1;3;4];[3;0;4];[2;0;5];[1;2;5];[3;1;5];[0;3;5]].
Definition octa_ops : list mop := [OCollapse 1; OSplit 2; OCollapse 5; OCompress; OFlip 3 true; OCollapse 3].
Example C19_collapse_witness : Start octa /\ OpsPre octa octa_ops /\
  exists m', runOps octa octa_ops = Ok m' /\ counts m' = (12, 12, 6, 4, 4, 0) /\ eulerCharacteristic m' = 2.
Proof. split; [apply startb_ok; vm_compute; reflexivity|]. split; [apply opsPreb_ok; vm_compute; reflexivity|]. eexists. split; [vm_compute; reflexivity|]. conc. Qed.

(** C05. A container of kind k registered with the mesh, through one mutation other than compress(): no slot in use loses
    its value, and the elements the mutation creates read the default value. ([Fits] holds when the container is created
    and is kept by every step. Corners: the corner at i is created together with halfedge i.) *)
Theorem C05_mutation T m o k (d : mdata T) : Start m -> OpPre m o -> o <> OCompress -> Fits m k d ->
  exists m' d', applyD k (m, d) (DMesh o) = Ok (m', d') /\ Start m' /\ Fits m' k d' /\ dflt d' = dflt d /\
    (forall i, liveE m k i -> dataAt d' i = dataAt d i) /\
    (forall i, k <> ECorner -> liveE m' k i -> ~ liveE m k i -> dataAt d' i = Ok (dflt d)) /\
    (forall i, k = ECorner -> liveE m' k i -> ~ liveH m i -> dataAt d' i = Ok (dflt d)).
Proof. exact (mutation_data T m o k d). Qed.
Print Assumptions C05_mutation.
Theorem C05_created T m k (x : T) : Valid m -> Fits m k (newData m k x) /\ forall i, liveE m k i -> dataAt (newData m k x) i = Ok x.
Proof. exact (created_data T m k x). Qed.
Print Assumptions C05_created.
(** C05, C06, C55 over histories of mutations, compressions, writes and changes of the default: an element that is alive all
    along ends up with the value last written to it, at its current index. (Loop containers: without compress(), see
    C06_loop_data_refuted.) *)
Theorem C05_history T k l m i x j y (d : mdata T) : follows k m l i x j y -> Start m -> Fits m k d -> (k = ELoop -> ~ In (DMesh OCompress) l) -> dataAt d i = Ok x ->
  exists m' d', runD k (m, d) l = Ok (m', d') /\ Start m' /\ Fits m' k d' /\ liveE m' k j /\ dataAt d' j = Ok y.
Proof. exact (follows_run T k l m i x j y d). Qed.
Print Assumptions C05_history.
(** a vertex inserted into each square; the second one is written, and the compression moves it from index 7 to index 6 *)
Example C05_witness_mesh : exists m, runOps strip [OInsertVertex 0; OInsertVertex 1] = Ok m /\ let d := newData m EVertex 7 in
  Start m /\ Fits m EVertex d /\ dataAt d 7 = Ok 7 /\
  follows EVertex m [DWrite 7 8; DMesh (OFlip 2 false); DMesh (ORemoveVertex 6); DDefault 9; DMesh OCompress; DMesh (OInsertVertex 0); DWrite 7 3] 7 7 6 8.
Proof.
  eexists. split; [vm_compute; reflexivity|]. match goal with |- let d := newData ?m _ _ in _ => assert (S : Start m) by (apply startb_ok; vm_compute; reflexivity) end.
  cbn zeta. split; [exact S|]. split; [apply fits_new, S|]. split; [reflexivity|].
  eapply fo_write; [conc|conc|].
  eapply fo_mesh; [conc|apply opPreb_ok; vm_compute; reflexivity|vm_compute; reflexivity|].
  eapply fo_mesh; [conc|apply opPreb_ok; vm_compute; reflexivity|vm_compute; reflexivity|].
  eapply fo_default; [conc|conc|].
  eapply fo_mesh; [conc|exact I|vm_compute; reflexivity|].
  eapply fo_mesh; [conc|apply opPreb_ok; vm_compute; reflexivity|vm_compute; reflexivity|].
  eapply fo_write; [conc|conc|].
  apply fo_end. conc.
Qed.

(** C06. After compress() every live element has the value it had, at its new index. *)
Theorem C06_compress T m k (d : mdata T) : Start m -> compressed m = false -> Fits m k d -> k <> ELoop \/ nLoops m <= 1 ->
  exists m' d', compress m = Ok m' /\ follow k m m' d = Ok d' /\ Fits m' k d' /\ dflt d' = dflt d /\
    forall i, liveE m k i -> liveE m' k (newIndex m k i) /\ dataAt d' (newIndex m k i) = dataAt d i.
Proof. exact (compress_data T m k d). Qed.
Print Assumptions C06_compress.
Example C06_witness : Start holed /\ compressed holed = false /\ Fits holed EFace (newData holed EFace 0) /\ liveE holed EFace 10 /\ newIndex holed EFace 10 = 6.
Proof. split; [apply startb_ok; vm_compute; reflexivity|]. split; [reflexivity|]. split; [apply fits_new, holed_valid|]. conc. Qed.
(** Finding: with two or more boundary loops the permutation given to BoundaryLoopData is reversed; here loop 0 keeps its
    index and gets the value of loop 2 *)
Theorem C06_loop_data_refuted : exists m (d : mdata nat) i m' d', Start m /\ compressed m = false /\ Fits m ELoop d /\ liveE m ELoop i /\ compress m = Ok m' /\
  follow ELoop m m' d = Ok d' /\ newIndex m ELoop i = i /\ dataAt d i = Ok 0%nat /\ dataAt d' i = Ok 2%nat.
Proof.
  destruct (fits_write nat holed ELoop (newData holed ELoop 0%nat) 2 2%nat holed_valid (fits_new _ _ _ _ holed_valid)) as (d & E & F & _); [conc|].
  vm_compute in E. injection E as <-.
  exists holed. eexists. exists 0. do 2 eexists. split; [apply startb_ok; vm_compute; reflexivity|]. split; [reflexivity|]. split; [exact F|]. split; [conc|].
  split; [vm_compute; reflexivity|]. split; [vm_compute; reflexivity|]. conc.
Qed.
Print Assumptions C06_loop_data_refuted.

(** C55 on meshes: setDefault changes no live element's value; the elements created later read the new default (C05_mutation
    applied to the container it leaves) *)
Theorem C55_mesh T m k (d : mdata T) x : Start m -> Fits m k d -> 0 < fillOf m k ->
  exists d', applyD k (m, d) (DDefault x) = Ok (m, d') /\ Fits m k d' /\ dflt d' = x /\ forall i, liveE m k i -> dataAt d' i = dataAt d i.
Proof. exact (default_data T m k d x). Qed.
Print Assumptions C55_mesh.
(** every kind but boundary loops has a slot in use *)
Theorem C55_applies m k : Start m -> k <> ELoop -> 0 < fillOf m k.
Proof. exact (start_fill m k). Qed.
Print Assumptions C55_applies.

(** C58 on meshes, for vertices, halfedges, corners and edges: containers that went through any history can be combined *)
Theorem C58_mesh A B C (op : A -> B -> C) x m k (l : mdata A) (r : mdata B) : Valid m -> Fits m k l -> Fits m k r -> k <> EFace -> k <> ELoop ->
  exists d, md_binop op x (Z.to_nat (capacity m k)) l r = Ok d /\
    forall i a b, liveE m k i -> dataAt l i = Ok a -> dataAt r i = Ok b -> dataAt d i = Ok (op a b).
Proof. exact (binop_mesh A B C op x m k l r). Qed.
Print Assumptions C58_mesh.
Example C58_mesh_witness : Valid strip /\ Fits strip EVertex (newData strip EVertex 1) /\ Fits strip EVertex (newData strip EVertex 2).
Proof. split; [apply strip_start|]. split; apply fits_new, strip_start. Qed.
(** Finding: face storage is shared with the boundary loops; a FaceData that has grown is longer than elementCapacity<Face>(),
    and combining it with itself writes past the end of the result *)
Theorem C58_face_refuted : exists m d, applyD EFace (strip, newData strip EFace 1) (DMesh (OInsertVertex 0)) = Ok (m, d) /\ Start m /\ Fits m EFace d /\
  md_binop Z.add 0 (Z.to_nat (capacity m EFace)) d d = UB.
Proof.
  destruct (mutation_data Z strip (OInsertVertex 0) EFace (newData strip EFace 1) strip_start) as (m & d & E & S & F & _);
    [apply opPreb_ok; vm_compute; reflexivity|discriminate|apply fits_new, strip_start|].
  exists m, d. split; [exact E|]. split; [exact S|]. split; [exact F|]. clear S F. vm_compute in E. injection E as <- <-. vm_compute. reflexivity.
Qed.
Print Assumptions C58_face_refuted.

(** C60. On a surface with V - E + F = 2 - 2g - b, genus() is g when there is no boundary... *)
Theorem C60_closed_partial m g : nLoops m = 0 -> euler m = 2 - 2 * g - nLoops m -> genus m = g.
Proof. exact (genus_closed m g). Qed.
Print Assumptions C60_closed_partial.
(** ... but boundary loops are counted as faces in eulerCharacteristic() and subtracted again in genus(): an annulus has
    genus -1 *)
Definition annulus := built [[0;1;5;4];[1;2;6;5];[2;3;7;6];[3;0;4;7]].
Theorem C60_genus_refuted : Start annulus /\ nLoops annulus = 2 /\ euler annulus = 2 - 2 * 0 - nLoops annulus /\ genus annulus = -1.
Proof. split; [apply startb_ok; vm_compute; reflexivity|]. conc. Qed.
Print Assumptions C60_genus_refuted.
