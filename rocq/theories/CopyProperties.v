(** C24: copies are equal and independent *)
From Verif Require Import Base MeshModel MeshModel2 MeshCompressModel MeshSpec MeshOpSpec MeshCheck MeshBuildModel MeshExamples DataModel MeshDataModel
  MeshEvents MeshHistoryModel MeshHistorySpec MeshHistory MeshHistoryCheck DataProofs CopyModel CopySpec CopyProofs.
Open Scope Z_scope.

(** The copy has the same elements, indices, connectivity, counts and capacities, and every operation does to it what it would have done to the original. *)
Theorem C24_equal m : Copied m (copyMesh m) /\ (Start m -> Start (copyMesh m)) /\ forall l, runOps (copyMesh m) l = runOps m l.
Proof. split; [exact (copy_copied m)|]. rewrite copy_same. auto. Qed.
Print Assumptions C24_equal.
(** Whatever is done to other meshes and their containers, and whatever copies are made, mesh i and its containers stay as they are. *)
Theorem C24_independent T (w w' : world T) l i : wrun w l = Ok w' -> avoids i w l ->
  (forall m, nth_error (meshes w) i = Some m -> nth_error (meshes w') i = Some m) /\
  (forall b d, nth_error (containers w) b = Some d -> cMesh d = i -> nth_error (containers w') b = Some d).
Proof. exact (run_apart T i l w w'). Qed.
Print Assumptions C24_independent.
(** Work on one mesh has the same effect before and after work on another. *)
Theorem C24_commute T (w w' : world T) i j c1 c2 : concerns w i c1 -> concerns w j c2 -> i <> j -> wrun w [c1; c2] = Ok w' -> wrun w [c2; c1] = Ok w'.
Proof. exact (commute T w w' i j c1 c2). Qed.
Print Assumptions C24_commute.
(** A container stays attached to the mesh it was created for. *)
Theorem C24_attached T (w w' : world T) l b d : wrun w l = Ok w' -> nth_error (containers w) b = Some d ->
  exists d', nth_error (containers w') b = Some d' /\ cMesh d' = cMesh d /\ cKind d' = cKind d.
Proof. exact (run_owner T l w w' b d). Qed.
Print Assumptions C24_attached.
(** Every legal history on any number of meshes and copies runs, leaves every mesh valid and every container fitting its mesh. *)
Theorem C24_history T (w : world T) l : Sound w -> CallsPre w l -> exists w', wrun w l = Ok w' /\ Sound w'.
Proof. exact (sound_run T l w). Qed.
Print Assumptions C24_history.
(** reinterpretTo a copy gives a container of the copy with the same values; the copy's container then lives its own life (C24_independent). *)
Theorem C24_reinterpret T (w : world T) b i d m t : nth_error (containers w) b = Some d -> nth_error (meshes w) (cMesh d) = Some m -> nth_error (meshes w) i = Some t -> Copied m t ->
  exists e, wstep w (WReinterpret b i) = Ok (mkW (meshes w) (containers w ++ [e])) /\ cMesh e = i /\ cKind e = cKind d /\ dflt (cData e) = dflt (cData d) /\
    forall j, dataAt (cData e) j = dataAt (cData d) j.
Proof. exact (reinterpret_ok T w b i d m t). Qed.
Print Assumptions C24_reinterpret.

(** two squares with a vertex inserted; a container; a copy with its own container; then the copy is compressed and refined while the original's container is written *)
Definition two : mesh := Eval vm_compute in match runOps (built [[0;1;2;3];[3;2;4;5]]) [OInsertVertex 0; ORemoveVertex 6] with Ok m => m | _ => emptyMesh end.
Definition w0 : world Z := mkW [two] [].
Definition h0 : list (wcall Z) := [WNew 0 EVertex 7; WSet 0 2 9; WCopy 0; WReinterpret 0 1].
Definition h1 : list (wcall Z) := [WOp 1 OCompress; WOp 1 (OInsertVertex 0); WSet 1 2 5; WDup 1].
Lemma sound0 : Sound w0.
Proof.
  split; cbn [meshes containers w0].
  - intros [|[|i]] m E; cbn in E; try discriminate. injection E as <-. apply startb_ok. vm_compute. reflexivity.
  - intros [|b] d E; discriminate.
Qed.
Lemma legal0 : CallsPre w0 (h0 ++ h1).
Proof.
  assert (S : forall w (c : wcall Z) t, CallPre w c -> (match wstep w c with Ok w' => CallsPre w' t | _ => True end) -> CallsPre w (c :: t)).
  { intros w c t P Q. split; auto. intros w' E. rewrite E in Q. auto. }
  assert (G : forall w (c : wcall Z) t w', wstep w c = Ok w' -> CallPre w c -> CallsPre w' t -> CallsPre w (c :: t)).
  { intros w c t w' E P Q. apply S; auto. rewrite E. auto. }
  unfold h0, h1. cbn [app].
  eapply G; [vm_compute; reflexivity|cbn; lia|].
  eapply G; [vm_compute; reflexivity|cbn; do 2 eexists; split; [reflexivity|split; [reflexivity|]]; cbn [cKind liveE]; conc|].
  eapply G; [vm_compute; reflexivity|cbn; lia|].
  eapply G; [vm_compute; reflexivity|cbn; do 3 eexists; split; [reflexivity|split; [reflexivity|split; [reflexivity|apply copied_refl]]]|].
  eapply G; [vm_compute; reflexivity|cbn; eexists; split; [reflexivity|exact I]|].
  eapply G; [vm_compute; reflexivity|cbn [CallPre]; eexists; split; [cbn; reflexivity|apply opPreb_ok; vm_compute; reflexivity]|].
  eapply G; [vm_compute; reflexivity|cbn [CallPre]; do 2 eexists; split; [cbn; reflexivity|split; [cbn; reflexivity|]]; cbn [cKind liveE]; conc|].
  eapply G; [vm_compute; reflexivity|cbn; lia|].
  exact I.
Qed.
Example C24_case : Sound w0 /\ CallsPre w0 (h0 ++ h1) /\ compressed two = false /\
  exists w1 w2, wrun w0 h0 = Ok w1 /\ avoids 0 w1 h1 /\ wrun w1 h1 = Ok w2 /\ length (containers w2) = 3%nat /\
    map nVertices (meshes w2) = [6; 7] /\ map (fun c => dataAt (cData c) 2) (containers w2) = [Ok 9; Ok 5; Ok 5].
Proof.
  split; [exact sound0|]. split; [exact legal0|]. split; [reflexivity|].
  assert (E : exists w1, wrun w0 h0 = Ok w1 /\ map (fun c => cMesh c) (containers w1) = [0%nat; 1%nat]) by (eexists; split; vm_compute; reflexivity).
  destruct E as (w1 & E1 & Ow). exists w1.
  assert (E2 : match wrun w0 (h0 ++ h1) with Ok w2 => (length (containers w2), map nVertices (meshes w2), map (fun c => dataAt (cData c) 2) (containers w2)) = (3%nat, [6; 7], [Ok 9; Ok 5; Ok 5]) | _ => False end)
    by (vm_compute; reflexivity).
  assert (E3 : exists w2, wrun w1 h1 = Ok w2 /\ wrun w0 (h0 ++ h1) = Ok w2).
  { destruct (C24_history Z w0 (h0 ++ h1) sound0 legal0) as (w2 & E3 & _). exists w2. split; [|exact E3]. clear E2 Ow. generalize dependent w0. intros w0 E1 E3. unfold wrun in *. rewrite foldM_app, E1 in E3. exact E3. }
  destruct E3 as (w2 & E3 & E4). exists w2. rewrite E4 in E2. split; [exact E1|]. clear E1 E4. split; [|split; [exact E3|]]; clear E3.
  - assert (O : forall l (w : world Z), nth_error (containers w) 1 <> None -> (forall d, nth_error (containers w) 1 = Some d -> cMesh d = 1%nat) ->
      Forall (fun c => match c with WOp j _ => j = 1%nat | WSet b _ _ => b = 1%nat | _ => True end) l -> avoids 0 w l).
    { induction l as [|c t IH]; intros w N1 N2 F; cbn [avoids]; auto. inversion F as [|? ? Fc Ft]; subst. split.
      - destruct c; cbn [concerns]; try tauto; try (subst; discriminate). subst. intros (d & Nd & Od). rewrite (N2 d Nd) in Od. discriminate.
      - intros w' E. destruct (nth_error (containers w) 1) as [d|] eqn:Q; [|exfalso; auto]. destruct (step_owner _ _ _ _ _ _ E Q) as (d' & Nd & Od & _). apply IH; auto; rewrite Nd; [discriminate|].
        intros d2 X. injection X as <-. rewrite Od. auto. }
    apply O.
    + destruct (containers w1) as [|? [|? ?]]; discriminate.
    + destruct (containers w1) as [|? [|? ?]]; try discriminate. cbn in Ow |- *. injection Ow as _ ? _. intros d X. injection X as <-. auto.
    + repeat constructor.
  - injection E2 as A B C. auto.
Qed.
