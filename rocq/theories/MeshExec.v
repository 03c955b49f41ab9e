(** Symbolic execution of array programs on the mesh record: each successful write is a [with_*] layer whose effect on the
    incidence functions is given by a rewrite rule. *)
From Verif Require Import Base MeshModel MeshSpec MeshBase.
Open Scope Z_scope.

Definition with_next (m : mesh) (i x : Z) : mesh := set_heNext m (updZ (heNext m) i x).
Definition with_vertex (m : mesh) (i x : Z) : mesh := set_heVertex m (updZ (heVertex m) i x).
Definition with_face (m : mesh) (i x : Z) : mesh := set_heFace m (updZ (heFace m) i x).
Definition with_vhe (m : mesh) (i x : Z) : mesh := set_vHalfedge m (updZ (vHalfedge m) i x).
Definition with_fhe (m : mesh) (i x : Z) : mesh := set_fHalfedge m (updZ (fHalfedge m) i x).
Lemma setNext_ok m i x : 0 <= i < zlen (heNext m) -> setNext m i x = Ok (with_next m i x).
Proof. intros H. unfold setNext. rewrite wrZ_ok by exact H. reflexivity. Qed.
Lemma setVertex_ok m i x : 0 <= i < zlen (heVertex m) -> setVertex m i x = Ok (with_vertex m i x).
Proof. intros H. unfold setVertex. rewrite wrZ_ok by exact H. reflexivity. Qed.
Lemma setFace_ok m i x : 0 <= i < zlen (heFace m) -> setFace m i x = Ok (with_face m i x).
Proof. intros H. unfold setFace. rewrite wrZ_ok by exact H. reflexivity. Qed.
Lemma setVHe_ok m i x : 0 <= i < zlen (vHalfedge m) -> setVHe m i x = Ok (with_vhe m i x).
Proof. intros H. unfold setVHe. rewrite wrZ_ok by exact H. reflexivity. Qed.
Lemma setFHe_ok m i x : 0 <= i < zlen (fHalfedge m) -> setFHe m i x = Ok (with_fhe m i x).
Proof. intros H. unfold setFHe. rewrite wrZ_ok by exact H. reflexivity. Qed.
Lemma next_ok m i : 0 <= i < zlen (heNext m) -> next m i = Ok (nx m i).
Proof. apply rdZ_ok. Qed.
Lemma vertexOf_ok m i : 0 <= i < zlen (heVertex m) -> vertexOf m i = Ok (ve m i).
Proof. apply rdZ_ok. Qed.
Lemma faceOf_ok m i : 0 <= i < zlen (heFace m) -> faceOf m i = Ok (fa m i).
Proof. apply rdZ_ok. Qed.
Lemma vHe_ok m i : 0 <= i < zlen (vHalfedge m) -> vHe m i = Ok (vh m i).
Proof. apply rdZ_ok. Qed.
Lemma fHe_ok m i : 0 <= i < zlen (fHalfedge m) -> fHe m i = Ok (fh m i).
Proof. apply rdZ_ok. Qed.
Lemma nx_wnext m i x j : 0 <= i < zlen (heNext m) -> nx (with_next m i x) j = if j =? i then x else nx m j.
Proof. apply getZ_updZ. Qed.
Lemma ve_wnext m i x j : ve (with_next m i x) j = ve m j.
Proof. reflexivity. Qed.
Lemma fa_wnext m i x j : fa (with_next m i x) j = fa m j.
Proof. reflexivity. Qed.
Lemma vh_wnext m i x j : vh (with_next m i x) j = vh m j.
Proof. reflexivity. Qed.
Lemma fh_wnext m i x j : fh (with_next m i x) j = fh m j.
Proof. reflexivity. Qed.
Lemma nx_wvertex m i x j : nx (with_vertex m i x) j = nx m j.
Proof. reflexivity. Qed.
Lemma ve_wvertex m i x j : 0 <= i < zlen (heVertex m) -> ve (with_vertex m i x) j = if j =? i then x else ve m j.
Proof. apply getZ_updZ. Qed.
Lemma fa_wvertex m i x j : fa (with_vertex m i x) j = fa m j.
Proof. reflexivity. Qed.
Lemma vh_wvertex m i x j : vh (with_vertex m i x) j = vh m j.
Proof. reflexivity. Qed.
Lemma fh_wvertex m i x j : fh (with_vertex m i x) j = fh m j.
Proof. reflexivity. Qed.
Lemma nx_wface m i x j : nx (with_face m i x) j = nx m j.
Proof. reflexivity. Qed.
Lemma ve_wface m i x j : ve (with_face m i x) j = ve m j.
Proof. reflexivity. Qed.
Lemma fa_wface m i x j : 0 <= i < zlen (heFace m) -> fa (with_face m i x) j = if j =? i then x else fa m j.
Proof. apply getZ_updZ. Qed.
Lemma vh_wface m i x j : vh (with_face m i x) j = vh m j.
Proof. reflexivity. Qed.
Lemma fh_wface m i x j : fh (with_face m i x) j = fh m j.
Proof. reflexivity. Qed.
Lemma nx_wvhe m i x j : nx (with_vhe m i x) j = nx m j.
Proof. reflexivity. Qed.
Lemma ve_wvhe m i x j : ve (with_vhe m i x) j = ve m j.
Proof. reflexivity. Qed.
Lemma fa_wvhe m i x j : fa (with_vhe m i x) j = fa m j.
Proof. reflexivity. Qed.
Lemma vh_wvhe m i x j : 0 <= i < zlen (vHalfedge m) -> vh (with_vhe m i x) j = if j =? i then x else vh m j.
Proof. apply getZ_updZ. Qed.
Lemma fh_wvhe m i x j : fh (with_vhe m i x) j = fh m j.
Proof. reflexivity. Qed.
Lemma nx_wfhe m i x j : nx (with_fhe m i x) j = nx m j.
Proof. reflexivity. Qed.
Lemma ve_wfhe m i x j : ve (with_fhe m i x) j = ve m j.
Proof. reflexivity. Qed.
Lemma fa_wfhe m i x j : fa (with_fhe m i x) j = fa m j.
Proof. reflexivity. Qed.
Lemma vh_wfhe m i x j : vh (with_fhe m i x) j = vh m j.
Proof. reflexivity. Qed.
Lemma fh_wfhe m i x j : 0 <= i < zlen (fHalfedge m) -> fh (with_fhe m i x) j = if j =? i then x else fh m j.
Proof. apply getZ_updZ. Qed.
(** conditional write to a vertex representative *)
Definition with_vhe_if (b : bool) (m : mesh) (i x : Z) : mesh := set_vHalfedge m (if b then updZ (vHalfedge m) i x else vHalfedge m).
Lemma zlen_if (b : bool) l i x : zlen (if b then updZ l i x else l) = zlen l.
Proof. destruct b; auto. apply zlen_updZ. Qed.
Lemma setVHe_if_ok (b : bool) m i x : (b = true -> 0 <= i < zlen (vHalfedge m)) ->
  (if b then setVHe m i x else Ok m) = Ok (with_vhe_if b m i x).
Proof. intros H. destruct b; [rewrite setVHe_ok by auto; reflexivity|]. destruct m; reflexivity. Qed.
Lemma vh_wvi b m i x j : 0 <= i < zlen (vHalfedge m) ->
  vh (with_vhe_if b m i x) j = if b && (j =? i) then x else vh m j.
Proof. intros H. unfold vh, with_vhe_if. cbn. destruct b; simpl; auto. apply getZ_updZ; auto. Qed.
Lemma nx_wvi b m i x j : nx (with_vhe_if b m i x) j = nx m j.
Proof. reflexivity. Qed.
Lemma ve_wvi b m i x j : ve (with_vhe_if b m i x) j = ve m j.
Proof. reflexivity. Qed.
Lemma fa_wvi b m i x j : fa (with_vhe_if b m i x) j = fa m j.
Proof. reflexivity. Qed.
Lemma fh_wvi b m i x j : fh (with_vhe_if b m i x) j = fh m j.
Proof. reflexivity. Qed.
(** lia without the disequalities between unknowns, on which it would branch *)
Ltac li := repeat match goal with
  | H : ?x <> ?y |- _ => lazymatch y with -1 => fail | _ => clear H end
  | H : ~ (ext _ _) |- _ => clear H
  | H : ?T |- _ => lazymatch T with _ <> _ => fail | ~ _ => fail | forall _, _ => clear H end
  end; lia.
Ltac proj := cbn [heNext heVertex heFace vHalfedge fHalfedge nHalfedges nInterior nEdges nVertices nFaces nLoops heFill eFill vFill fFill bFill heCap eCap vCap fCap compressed cblog with_next set_heNext with_vertex set_heVertex with_face set_heFace with_vhe set_vHalfedge with_fhe set_fHalfedge with_vhe_if].
Ltac proj_in H := cbn [heNext heVertex heFace vHalfedge fHalfedge nHalfedges nInterior nEdges nVertices nFaces nLoops heFill eFill vFill fFill bFill heCap eCap vCap fCap compressed cblog with_next set_heNext with_vertex set_heVertex with_face set_heFace with_vhe set_vHalfedge with_fhe set_fHalfedge with_vhe_if] in H.
Ltac bnd := proj; repeat first [rewrite zlen_updZ | rewrite zlen_if]; li.
Ltac view1 := first [ rewrite nx_wnext by bnd | rewrite ve_wnext | rewrite fa_wnext | rewrite vh_wnext | rewrite fh_wnext | rewrite nx_wvertex | rewrite ve_wvertex by bnd | rewrite fa_wvertex | rewrite vh_wvertex | rewrite fh_wvertex | rewrite nx_wface | rewrite ve_wface | rewrite fa_wface by bnd | rewrite vh_wface | rewrite fh_wface | rewrite nx_wvhe | rewrite ve_wvhe | rewrite fa_wvhe | rewrite vh_wvhe by bnd | rewrite fh_wvhe | rewrite nx_wfhe | rewrite ve_wfhe | rewrite fa_wfhe | rewrite vh_wfhe | rewrite fh_wfhe by bnd | rewrite vh_wvi by bnd | rewrite nx_wvi | rewrite ve_wvi | rewrite fa_wvi | rewrite fh_wvi ].
Ltac view := repeat view1.
(** one step of execution *)
Ltac step :=
  first
  [ rewrite next_ok by bnd | rewrite vertexOf_ok by bnd | rewrite faceOf_ok by bnd | rewrite vHe_ok by bnd | rewrite fHe_ok by bnd
  | rewrite setNext_ok by bnd | rewrite setVertex_ok by bnd | rewrite setFace_ok by bnd
  | rewrite setVHe_ok by bnd | rewrite setFHe_ok by bnd
  | rewrite setVHe_if_ok by bnd ]; cbn [bind].

(** everything but the array contents *)
Definition scal (m : mesh) := (nHalfedges m, nInterior m, nEdges m, nVertices m, nFaces m, nLoops m,
  (heFill m, eFill m, vFill m, fFill m, bFill m), (heCap m, eCap m, vCap m, fCap m)).
Definition lens (m : mesh) := (zlen (heNext m), zlen (heVertex m), zlen (heFace m), zlen (vHalfedge m), zlen (fHalfedge m)).

