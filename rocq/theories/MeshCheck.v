(** A decision procedure for Valid, used to show that concrete meshes meet the hypotheses of the theorems. *)
From Verif Require Import Base MeshModel MeshSpec MeshBase.
Open Scope Z_scope.

Fixpoint orbitb (n : nat) (f : Z -> Z) (a b : Z) : bool :=
  (a =? b) || match n with O => false | S k => orbitb k f (f a) b end.
Lemma orbitb_reach n f a b : orbitb n f a b = true -> reach f a b.
Proof.
  revert a; induction n as [|n IH]; intros a H; cbn in H; apply orb_prop in H as [H|H].
  - exists 0%nat. cbn. lia.
  - discriminate.
  - exists 0%nat. cbn. lia.
  - apply IH in H as (k & K). exists (S k). rewrite <- K. clear. induction k; cbn; auto. cbn in IHk. rewrite IHk. reflexivity.
Qed.

Definition inH m h := (0 <=? h) && (h <? heFill m) && liveHb m h.
Definition inV m v := (0 <=? v) && (v <? vFill m) && liveVb m v.
Definition inFL m f := ((0 <=? f) && (f <? fFill m) || (fCap m - bFill m <=? f) && (f <? fCap m)) && liveFb m f.
Lemma inH_live m h : inH m h = true <-> liveH m h.
Proof. unfold inH, liveHb, liveH. lia. Qed.
Lemma inV_live m h : inV m h = true <-> liveV m h.
Proof. unfold inV, liveVb, liveV. lia. Qed.
Lemma inFL_live m h : inFL m h = true <-> liveFL m h.
Proof. unfold inFL, liveFb, liveFL, liveF, liveL. lia. Qed.

Definition allb (p : Z -> bool) (n : Z) := forallb p (zseq n).
Lemma allb_ok p n : allb p n = true <-> forall i, 0 <= i < n -> p i = true.
Proof.
  unfold allb. rewrite forallb_forall. split; intros H i Hi; apply H.
  - apply zseq_In. auto.
  - apply zseq_In in Hi. auto.
Qed.

Definition storedb m :=
  (heCap m <=? zlen (heNext m)) && (heCap m <=? zlen (heVertex m)) && (heCap m <=? zlen (heFace m)) && (zlen (vHalfedge m) =? vCap m) &&
  (zlen (fHalfedge m) =? fCap m) && (0 <=? heFill m) && (heFill m <=? heCap m) && (heFill m =? 2 * eFill m) && (heCap m =? 2 * eCap m) &&
  (0 <=? vFill m) && (vFill m <=? vCap m) && (0 <=? fFill m) && (0 <=? bFill m) && (fFill m + bFill m <=? fCap m).
Definition countedb m :=
  (nHalfedges m =? countb (liveHb m) (heFill m)) && (nInterior m =? countb (intHb m) (heFill m)) &&
  (nEdges m =? countb (fun e => liveHb m (2 * e)) (eFill m)) && (nVertices m =? countb (liveVb m) (vFill m)) &&
  (nFaces m =? countb (liveFb m) (fFill m)) && (nLoops m =? countb (fun i => liveFb m (fCap m - 1 - i)) (bFill m)).
Definition heb m h :=
  negb (inH m h) ||
  (inH m (tw h) && inH m (nx m h) && inV m (ve m h) && inFL m (fa m h) && (ve m (nx m h) =? ve m (tw h)) && (fa m (nx m h) =? fa m h) &&
   (negb (h mod 2 =? 0) || negb (fFill m <=? fa m h)) && (negb (fFill m <=? fa m (tw h)) || (vh m (ve m h) =? h)) &&
   allb (fun b => negb (inH m b) || (negb (nx m h =? nx m b) || (h =? b)) &&
        (negb (fa m h =? fa m b) || orbitb (Z.to_nat (heFill m)) (nx m) h b) &&
        (negb (ve m h =? ve m b) || orbitb (Z.to_nat (heFill m)) (ro m) h b)) (heFill m)).
Definition connectedb m :=
  allb (heb m) (heFill m) &&
  allb (fun v => negb (inV m v) || inH m (vh m v) && (ve m (vh m v) =? v)) (vFill m) &&
  allb (fun f => negb (inFL m f) || inH m (fh m f) && (fa m (fh m f) =? f)) (fCap m).
Definition slotsb m :=
  allb (fun v => (v <? vFill m) || (-1 <=? vh m v) && (vh m v <? Z.max 1 (heFill m))) (vCap m) &&
  allb (fun f => (f <? fFill m) || (fCap m - bFill m <=? f) || (-1 <=? fh m f) && (fh m f <? Z.max 1 (heFill m))) (fCap m).
Definition validb m := storedb m && countedb m && connectedb m && slotsb m.

Ltac ands H := repeat match type of H with (_ && _ = true) => apply andb_prop in H; let K := fresh "K" in destruct H as [H K] end.
Lemma validb_Valid m : validb m = true -> Valid m.
Proof.
  unfold validb. intros H. apply andb_prop in H as [H HG]. apply andb_prop in H as [H HC]. apply andb_prop in H as [HS HN].
  assert (ST : Stored m) by (unfold storedb in HS; split; lia).
  assert (CT : Counted m) by (unfold countedb in HN; split; lia).
  split; auto; [|unfold slotsb in HG; apply andb_prop in HG as [G1 G2]; rewrite allb_ok in G1, G2; destruct ST;
    split; [intros v Hv; specialize (G1 v)|intros f Hf; specialize (G2 f)]; lia]. clear HS HN CT HG. unfold connectedb in HC. apply andb_prop in HC as [HC C3]. apply andb_prop in HC as [C1 C2].
  rewrite allb_ok in C1, C2, C3.
  assert (G : forall h, liveH m h -> inH m (tw h) = true /\ inH m (nx m h) = true /\ inV m (ve m h) = true /\ inFL m (fa m h) = true /\
     ve m (nx m h) = ve m (tw h) /\ fa m (nx m h) = fa m h /\ (h mod 2 = 0 -> ~ ext m h) /\ (ext m (tw h) -> vh m (ve m h) = h) /\
     forall b, liveH m b -> (nx m h = nx m b -> h = b) /\ (fa m h = fa m b -> reach (nx m) h b) /\ (ve m h = ve m b -> reach (ro m) h b)).
  { intros h Hh. specialize (C1 h (proj1 Hh)). unfold heb in C1. apply inH_live in Hh. rewrite Hh in C1. cbn [negb orb] in C1.
    apply andb_prop in C1 as [C1 A9]. apply andb_prop in C1 as [C1 A8]. apply andb_prop in C1 as [C1 A7]. apply andb_prop in C1 as [C1 A6].
    apply andb_prop in C1 as [C1 A5]. apply andb_prop in C1 as [C1 A4]. apply andb_prop in C1 as [C1 A3]. apply andb_prop in C1 as [A1 A2].
    split; [exact A1|]. split; [exact A2|]. split; [exact A3|]. split; [exact A4|]. split; [lia|]. split; [lia|]. unfold ext.
    split; [intros E1; clear -A7 E1; lia|]. split; [intros E1; clear -A8 E1; lia|].
    intros b Hb. rewrite allb_ok in A9. specialize (A9 b (proj1 Hb)). apply inH_live in Hb. rewrite Hb in A9. cbn [negb orb] in A9.
    apply andb_prop in A9 as [A9 B3]. apply andb_prop in A9 as [B1 B2]. split; [intros E; clear -B1 E; lia|].
    split; intros E; eapply orbitb_reach.
    - apply orb_prop in B2 as [B2|B2]; [exfalso; clear -B2 E; lia|exact B2].
    - apply orb_prop in B3 as [B3|B3]; [exfalso; clear -B3 E; lia|exact B3]. }
  split.
  - intros h H. apply inH_live. destruct (G h H) as (? & ? & ? & ? & ? & ? & ? & ? & _); assumption.
  - intros h H. apply inH_live. destruct (G h H) as (? & ? & ? & ? & ? & ? & ? & ? & _); assumption.
  - intros a b Ha Hb. destruct (G a Ha) as (_ & _ & _ & _ & _ & _ & _ & _ & K). apply K; auto.
  - intros h H. apply inV_live. destruct (G h H) as (? & ? & ? & ? & ? & ? & ? & ? & _); assumption.
  - intros h H. apply inFL_live. destruct (G h H) as (? & ? & ? & ? & ? & ? & ? & ? & _); assumption.
  - intros h H. destruct (G h H) as (? & ? & ? & ? & ? & ? & ? & ? & _); assumption.
  - intros h H. destruct (G h H) as (? & ? & ? & ? & ? & ? & ? & ? & _); assumption.
  - intros v H. specialize (C2 v (proj1 H)). apply inV_live in H. rewrite H in C2. cbn [negb orb] in C2. apply andb_prop in C2 as [A B]. apply inH_live in A. split; auto. lia.
  - intros f H. assert (R : 0 <= f < fCap m) by (destruct ST; destruct H as [[H _]|[H _]]; lia).
    specialize (C3 f R). apply inFL_live in H. rewrite H in C3. cbn [negb orb] in C3. apply andb_prop in C3 as [A B]. apply inH_live in A. split; auto. lia.
  - intros a b Ha Hb. destruct (G a Ha) as (_ & _ & _ & _ & _ & _ & _ & _ & K). apply K; auto.
  - intros a b Ha Hb. destruct (G a Ha) as (_ & _ & _ & _ & _ & _ & _ & _ & K). apply K; auto.
  - intros h H. destruct (G h H) as (? & ? & ? & ? & ? & ? & ? & ? & _); assumption.
  - intros h H. destruct (G h H) as (? & ? & ? & ? & ? & ? & ? & ? & _); assumption.
Qed.
