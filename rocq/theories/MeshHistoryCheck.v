(** Executable test for legal histories; used for the concrete cases beside the theorems *)
From Verif Require Import Base MeshModel MeshModel2 MeshCompressModel MeshSpec MeshBase MeshOpSpec MeshCheck MeshExamples CollapseSpec DataModel MeshDataModel MeshHistoryModel MeshHistorySpec.
Open Scope Z_scope.

Definition neb (a b : Z) : bool := negb (a =? b).
Definition extb m h := fFill m <=? fa m h.
Definition inF m f := (0 <=? f) && (f <? fFill m) && liveFb m f.
Lemma inF_live m f : inF m f = true <-> liveF m f.
Proof. unfold inF, liveF, liveFb. lia. Qed.
Definition opPreb (m : mesh) (o : mop) : bool :=
  match o with
  | OFlip e _ => inH m (eHe e) && neb (nx m (eHe e)) (eHe e) && neb (nx m (tw (eHe e))) (tw (eHe e))
  | OInsertAlong e => inH m (eHe e) && neb (nx m (tw (eHe e))) (eHe e)
  | OConnect a b => inH m a && inH m b && (fa m a =? fa m b) && negb (extb m a) && neb a b && neb (nx m a) b && neb (nx m b) a
  | OSplit e => triangularb m && inH m (eHe e) && neb (nx m (eHe e)) (tw (eHe e)) && neb (nx m (tw (eHe e))) (eHe e)
  | OInsertVertex f => inF m f
  | ORemoveEdge e => inH m (eHe e) && negb (extb m (tw (eHe e))) && negb ((nx m (eHe e) =? eHe e) && (nx m (tw (eHe e)) =? tw (eHe e)))
  | ORemoveVertex v => inV m v && allb (fun h => negb (inH m h) || neb (ve m h) v || negb (extb m h)) (heFill m)
  | OTriangulate f => inF m f && neb (nx m (fh m f)) (fh m f) && neb (nx m (nx m (fh m f))) (fh m f)
  | OSwitch e => inH m (eHe e) && neb (nx m (eHe e)) (eHe e) && neb (nx m (eHe e)) (tw (eHe e)) && neb (nx m (tw (eHe e))) (eHe e) && neb (nx m (tw (eHe e))) (tw (eHe e)) && negb (extb m (tw (eHe e)))
  | OCollapse e => triangularb m && allb (fun h => negb (inH m h) || neb (ve m h) (ve m (tw h))) (heFill m) && inH m (eHe e) && (extb m (tw (eHe e)) || neb (nx m (tw (eHe e))) (tw (nx m (nx m (eHe e)))) && neb (nx m (tw (tw (eHe e)))) (tw (nx m (nx m (tw (eHe e))))))
  | OCompress => true
  end.
Ltac tauto_lia := repeat match goal with K : _ /\ _ |- _ => destruct K end; repeat match goal with |- _ /\ _ => split end; try assumption; lia.
Lemma opPreb_ok m o : opPreb m o = true -> OpPre m o.
Proof.
  destruct o; cbn [opPreb OpPre]; unfold plainEdge, ext, neb, extb; rewrite ?andb_true_iff, ?negb_true_iff, ?inH_live, ?inV_live, ?inF_live; intros H.
  - tauto_lia.
  - tauto_lia.
  - tauto_lia.
  - destruct H as [[[H0 H1] H2] H3]. split; [apply triangularb_ok; auto|]. tauto_lia.
  - auto.
  - tauto_lia.
  - destruct H as [H1 H2]. split; auto. intros h L E. rewrite allb_ok in H2. pose proof L as [R _]. specialize (H2 h R). apply inH_live in L. rewrite L in H2. cbn in H2. lia.
  - tauto_lia.
  - tauto_lia.
  - destruct H as (((H1 & H2) & H3) & H4). split; [apply triangularb_ok; auto|]. split; [|split; [auto|intros X; unfold thin; lia]].
    intros h L E. rewrite allb_ok in H2. specialize (H2 h (proj1 L)). rewrite (proj2 (inH_live m h) L), E, Z.eqb_refl in H2. discriminate.
  - auto.
Qed.
Fixpoint opsPreb (m : mesh) (l : list mop) : bool :=
  match l with [] => true | o :: t => opPreb m o && match applyOp m o with Ok m' => opsPreb m' t | _ => true end end.
Lemma opsPreb_ok l : forall m, opsPreb m l = true -> OpsPre m l.
Proof.
  induction l as [|o t IH]; intros m H; cbn [opsPreb OpsPre] in *; auto. apply andb_prop in H as [H1 H2]. split; [apply opPreb_ok; auto|]. intros m' E. rewrite E in H2. auto.
Qed.
Definition startb (m : mesh) : bool :=
  validb m && (nLoops m =? bFill m) && inV m 0 && (negb (compressed m) || (nHalfedges m =? heFill m) && (nEdges m =? eFill m) && (nVertices m =? vFill m) && (nFaces m =? fFill m)).
Lemma startb_ok m : startb m = true -> Start m.
Proof.
  unfold startb. rewrite !andb_true_iff, orb_true_iff. intros (((V & D) & L) & F). split; [apply validb_Valid; auto|apply Z.eqb_eq; auto|exists 0; apply inV_live; auto|].
  intros K. rewrite K in F. cbn in F. lia.
Qed.
