(** C25: meshes written to rich ply files *)
From Verif Require Import Base DataModel DataSpec MeshModel MeshCompressModel MeshSpec MeshBase MeshExec MeshCheck MeshOpSpec MeshCompress MeshDataModel MeshBuildModel MeshExamples MeshCompressProperties
  GenModel GenSpec GenProperties GenOpsProperties GenDupProperties RichModel RichSpec Rich1 Rich2.
Open Scope Z_scope.

(** Every mesh of fewer than 2^32 - 1 halfedges, vertices and faces is read back as it was written, with dead elements and all,
    provided there is no unused room between its faces and its boundary loops or it has no boundary. *)
Theorem C25_connectivity_partial m : Valid m -> Fits m -> fCap m = fFill m + bFill m \/ bFill m = 0 ->
  exists p m', writeConn m = Ok p /\ readConn p = Ok m' /\ Valid m' /\ SameMesh m m'.
Proof. exact (rich_ok m). Qed.
Print Assumptions C25_connectivity_partial.
(** after compress() there is no such room *)
Theorem C25_compressed m : Valid m -> 0 < heFill m -> compressed m = false ->
  exists m', compress m = Ok m' /\ Valid m' /\ fCap m' = fFill m' + bFill m' /\ heFill m' <= heFill m /\ vFill m' <= vFill m /\ fCap m' <= fCap m.
Proof.
  intros V H0 C. destruct (compress_spec m V H0 C) as (m' & E & V' & CO & _ & CT & _). exists m'. split; [exact E|]. split; [exact V'|]. destruct CO as [P1 P2 P3 P4 _ _ _ _].
  unfold counts in CT. injection CT as Q1 Q2 Q3 Q4 Q5 Q6. pose proof (va_ct m V) as [T1 T2 T3 T4 T5 T6]. pose proof (va_st m V) as [S1 S2 S3 S4 S5 S6 S7 S8 S9].
  pose proof (countb_le (liveHb m) (heFill m)). pose proof (countb_le (liveVb m) (vFill m)). pose proof (countb_le (liveFb m) (fFill m)). pose proof (countb_le (fun i => liveFb m (fCap m - 1 - i)) (bFill m)).
  split; [apply P4|]. lia.
Qed.
Print Assumptions C25_compressed.
(** properties of the elements come back on the same elements; [d0] is the default value of the type *)
Theorem C25_properties m m' T (k : ekind) (d : mdata T) (d0 : T) : Valid m -> Valid m' -> SameMesh m m' -> length (dat d) = Z.to_nat (capacity m k) ->
  exists v d', addProperty m k d = Ok v /\ getProperty m' k d0 v = Ok d' /\ elements m' k = elements m k /\
    forall els i, elements m k = Ok els -> In i els -> md_get d' i = md_get d i.
Proof.
  intros V V' SM L. apply (property_ok m V T k d d0 m' V' SM). intros i Hi. apply filter_In in Hi as [Hi _]. apply in_seq in Hi. rewrite L.
  pose proof (va_st m V) as [W1 W2 W3 W4 W5 W6 W7 W8 W9]. destruct k; cbn [fillOf capacity] in *; lia.
Qed.
Print Assumptions C25_properties.
(** a stored property with another number of entries than the mesh has elements is refused *)
Theorem C25_property_size m T (k : ekind) (d0 : T) (v : list T) : Z.of_nat (length v) <> nElements m k -> getProperty m k d0 v = Throw.
Proof. intros N. unfold getProperty. rewrite (proj2 (Z.eqb_neq _ _) N). reflexivity. Qed.
Print Assumptions C25_property_size.
Example C25_property_size_witness : getProperty quad EFace 0 [5; 6; 7] = Throw /\ (let* d := getProperty quad EFace 0 [5; 6] in Ok (firstn 2 (dat d))) = Ok [5; 6].
Proof. split; vm_compute; reflexivity. Qed.

(** general meshes *)
Theorem C25_general m : GValid m -> GFits m -> exists p m', gWriteConn m = Ok p /\ gReadConn p = Ok m' /\ GValid m' /\ SameGMesh m m'.
Proof. exact (rich_gen m). Qed.
Print Assumptions C25_general.

(** A valid mesh with boundary and unused room is written and read without an error, but the result is not a mesh: the faces of
    boundary halfedges are out of range. addMeshConnectivity says "I _think_ the code below does not require compressed". *)
Theorem C25_uncompressed_refuted : exists m p m', Valid m /\ Fits m /\ compressed m = false /\ writeConn m = Ok p /\ readConn p = Ok m' /\
  ~ Valid m' /\ exists h, liveH m' h /\ ~ liveFL m' (fa m' h) /\ zlen (fHalfedge m') <= fa m' h.
Proof.
  exists holed. do 2 eexists. split; [exact holed_valid|]. split; [conc|]. split; [conc|]. split; [vm_compute; reflexivity|]. split; [vm_compute; reflexivity|].
  match goal with |- ~ Valid ?x /\ _ => set (m' := x) end.
  assert (K : exists h, liveH m' h /\ ~ liveFL m' (fa m' h) /\ zlen (fHalfedge m') <= fa m' h).
  { assert (Q : existsb (fun h => (liveHb m' h) && (fCap m' <=? fa m' h) && (zlen (fHalfedge m') <=? fa m' h) && (fFill m' <=? fa m' h)) (zseq (heFill m')) = true) by (vm_compute; reflexivity).
    apply existsb_exists in Q as (h & Hh & Q). apply zseq_In in Hh. rewrite !Bool.andb_true_iff in Q. destruct Q as (((Q1 & Q2) & Q3) & Q4). apply Z.leb_le in Q2, Q3, Q4. unfold liveHb in Q1. apply Bool.negb_true_iff, Z.eqb_neq in Q1.
    exists h. split; [split; auto|]. split; [|exact Q3]. intros [[K _]|[K _]]; clear - K Q2 Q4; lia. }
  split; [|exact K]. destruct K as (h & K1 & K2 & _). intros V. apply K2. apply (cn_fa m' (va_cn m' V)). exact K1.
Qed.
Print Assumptions C25_uncompressed_refuted.

(** a mesh with three boundary loops; it is compressed first. A mesh with dead elements and no boundary *)
Definition packed : mesh := match compress holed with Ok m => m | _ => emptyMesh end.
Example C25_case : Valid packed /\ Fits packed /\ fCap packed = fFill packed + bFill packed /\ bFill packed = 3 /\
  (let* p := writeConn packed in let* m' := readConn p in Ok (counts m')) = Ok (counts packed) /\
  (let* p := writeConn packed in let* m' := readConn p in let* v := addProperty packed ELoop (mkMD 0 [7; 8; 9]) in let* d := getProperty m' ELoop 0 v in Ok (dat d)) = Ok [7; 8; 9] /\
  GValid fanMesh /\ GFits fanMesh /\
  (let* p := gWriteConn fanMesh in let* m' := gReadConn p in Ok (ga m' ASib)) = Ok (firstn (Z.to_nat (gHeFill fanMesh)) (ga fanMesh ASib)).
Proof.
  split; [apply validb_Valid; vm_compute; reflexivity|]. split; [conc|]. split; [conc|]. split; [conc|]. split; [vm_compute; reflexivity|]. split; [vm_compute; reflexivity|].
  split; [exact fan_valid|]. split; [conc|]. vm_compute. reflexivity.
Qed.
