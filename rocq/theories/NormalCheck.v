(** deciding [Curves] on concrete meshes *)
From Verif Require Import Base MeshModel MeshSpec MeshBase MeshCheck NormalSpec NormalProofs.
Open Scope Z_scope.
Definition arcsb (x y z : Z) : bool := (y + z <? x) || (z + x <? y) || (x + y <? z) || ((x + y + z) mod 2 =? 0).
Definition curvesb (m : mesh) (coords : list Z) : bool :=
  (eFill m <=? zlen coords) &&
  allb (fun h => negb (inH m h) || (-1 <=? co coords h) && (co coords h <=? 134217728) &&
    ((fFill m <=? fa m h) || (nx m (nx m (nx m h)) =? h) &&
     ((-1 <=? co coords (nx m h)) && (-1 <=? co coords (nx m (nx m h))) && arcsb (Z.max 0 (co coords h)) (Z.max 0 (co coords (nx m h))) (Z.max 0 (co coords (nx m (nx m h))))))) (heFill m).
Lemma coordOf_max n : -1 <= n -> coordOf n (Z.max 0 n).
Proof. intros A. destruct (Z_lt_le_dec n 0). - exists 1. unfold edgeCoord. lia. - exists 0. unfold edgeCoord. lia. Qed.
Lemma curvesb_ok m coords : curvesb m coords = true -> Curves m coords.
Proof.
  unfold curvesb. rewrite andb_true_iff, allb_ok. intros [L A].
  assert (forall h, liveH m h -> (-1 <= co coords h <= 134217728) /\ (~ ext m h -> nx m (nx m (nx m h)) = h /\ (-1 <= co coords (nx m h)) /\ (-1 <= co coords (nx m (nx m h))) /\
    arcsb (Z.max 0 (co coords h)) (Z.max 0 (co coords (nx m h))) (Z.max 0 (co coords (nx m (nx m h)))) = true)) as K.
  { intros h Lh. specialize (A h (proj1 Lh)). rewrite (proj2 (inH_live m h) Lh) in A. cbn [negb orb] in A. rewrite !andb_true_iff, orb_true_iff, !andb_true_iff, !Z.leb_le, Z.eqb_eq in A.
    destruct A as (A1 & A2). split; [lia|]. intros E. destruct A2 as [A2|A2]; [exfalso; apply E; unfold ext; auto|]. tauto. }
  split.
  - lia.
  - intros h Lh. destruct (K h Lh) as (B & _). unfold small. lia.
  - intros h Lh E. apply (K h Lh); auto.
  - intros h Lh E. destruct (K h Lh) as ((B1 & _) & B). destruct (B E) as (B2 & B3 & B4 & B5).
    destruct (proj1 (arcs_exist (Z.max 0 (co coords h)) (Z.max 0 (co coords (nx m h))) (Z.max 0 (co coords (nx m (nx m h)))) ltac:(lia) ltac:(lia) ltac:(lia))) as (t & P & T1 & T2 & T3).
    + unfold arcsb in B5. rewrite !orb_true_iff, Z.eqb_eq, !Z.ltb_lt in B5. tauto.
    + exists t. split; auto. rewrite T1, T2, T3. split; [|split]; apply coordOf_max; auto.
Qed.
