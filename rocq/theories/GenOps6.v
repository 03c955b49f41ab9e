(** Inversion and flip: the statements of the properties *)
From Verif Require Import Base MeshModel MeshSpec MeshBase GenModel GenSpec GenBase GenBuild1 GenBuild5 GenBuild6 GenOpsModel GenOpsSpec GenOps1 GenOps2 GenOps3 GenOps4 GenOps5.
From Coq Require Import Permutation Compare_dec.
Open Scope Z_scope.

Lemma inverted_all m f : GValid m -> 0 <= f < gFFill m ->
  exists m', gInvertOrientation m f = Ok m' /\ GValid m' /\ Inverted m m' f /\ gComp m' = gComp m.
Proof. intros V Hf. destruct (invert_ok m f V Hf) as (m' & E & V' & I & _ & C). eauto. Qed.
Lemma inverted_twice m f : GValid m -> 0 <= f < gFFill m ->
  exists m1 m2, gInvertOrientation m f = Ok m1 /\ gInvertOrientation m1 f = Ok m2 /\ sameConnectivity m m2.
Proof.
  intros V Hf. destruct (invert_ok m f V Hf) as (m1 & E & V1 & I & _). destruct (invert_ok m1 f V1) as (m2 & E2 & V2 & I2 & _).
  - pose proof (iv_size _ _ _ I TFc) as K. cbn [gFill] in K. rewrite K. exact Hf.
  - exists m1, m2. split; auto. split; auto. eapply inv_inv; eauto.
Qed.
Lemma accepted_dec polys : accepted polys \/ ~ accepted polys.
Proof.
  unfold accepted. set (M := fold_left _ polys 0).
  destruct (Forall_dec (fun p : list Z => (3 <= length p)%nat) (fun p => le_dec 3 (length p)) polys) as [A|A]; [|right; intros [B _]; contradiction].
  destruct (Forall_dec (fun v => In v (concat polys)) (fun v => in_dec Z.eq_dec v (concat polys)) (zseq (M + 1))) as [B|B].
  - left. split; auto. intros v Hv. rewrite Forall_forall in B. apply B, zseq_In. lia.
  - right. intros [_ C]. apply B, Forall_forall. intros v Hv. apply C. apply zseq_In in Hv. lia.
Qed.
Lemma built_noMono order polys m : (forall d, Permutation (order d) d) -> Forall (fun v => 0 <= v) (concat polys) ->
  gBuild order polys = Ok m -> GValid m /\ NoMonogon m.
Proof.
  intros O NN E. assert (A : accepted polys).
  { destruct (accepted_dec polys) as [A|A]; auto. rewrite (build_reject order polys NN A) in E. discriminate. }
  destruct (built_all order polys O NN A) as (m' & E' & V & _ & Hh & _ & _ & C & _). rewrite E in E'. injection E' as <-. split; auto.
  intros h Hin Q. red in Hin. rewrite Hh in Hin. destruct (corner_exists polys h Hin) as (f & j & K). pose proof K as (K1 & K2 & K3).
  set (n := zlen (nth f polys [])) in *. assert (N3 : 3 <= n).
  { destruct A as [A _]. rewrite Forall_forall in A. specialize (A (nth f polys []) ltac:(apply nth_In; auto)). unfold n, zlen. lia. }
  set (j' := (j + 1) mod n). assert (J : 0 <= j' < n /\ j' <> j).
  { split; [apply Z.mod_pos_bound; lia|]. unfold j'. destruct (Z.eq_dec (j + 1) n) as [X|X]; [rewrite X, Z.mod_same by lia; lia|rewrite Z.mod_small by lia; lia]. }
  assert (K' : Corner polys (offset polys f + j') f j') by (split; auto; split; [apply J|reflexivity]).
  pose proof (corner_range _ _ _ _ K') as R'. destruct (C _ _ _ K) as (_ & _ & F1). destruct (C _ _ _ K') as (_ & _ & F2).
  destruct (proj2 (gv_next m V) h (offset polys f + j')) as [i I]; [rewrite Hh; auto|rewrite Hh; auto|congruence|].
  assert (X : forall i, Nat.iter i (ev m ANext) h = h) by (induction i0 as [|i0 IH]; [reflexivity|simpl; rewrite IH; exact Q]).
  rewrite X in I. lia.
Qed.
