(** nConnectedComponents on general meshes *)
From Verif Require Import Base MeshModel MeshSpec MeshBase GenModel GenSpec GenBase GenBuild1 GenBuild4 GenOpsModel GenOps1 GenOps2 GenSepSpec
  DisjointSetsModel DisjointSetsSpec DisjointSetsProofs CountModel CountProofs GenTopoModel GenTopoSpec GenTopo1.
Open Scope Z_scope.

Lemma gComponents_ok m : GValid m -> ClosedOriented m -> exists n, gConnectedComponents m = Ok n /\ gComponents m n.
Proof.
  intros V CO. pose proof (valid_fits m V) as FT. destruct (gv_count m V) as (_ & _ & _ & CV & _). unfold gConnectedComponents. rewrite CV. set (n := Z.to_nat (gVFill m)).
  set (hd := fun e : Z => ev m AEHe e).
  assert (HD : forall e, 0 <= e < gEFill m -> inH m (hd e) /\ ev m AEdge (hd e) = e /\ inH m (ev m ASib (hd e)) /\ gTailOf m (ev m ASib (hd e)) = gTipOf m (hd e)).
  { intros e He. destruct (gv_ehe m V e He) as [A B]. pose proof (sib_in m V _ A) as C. split; auto. split; auto. split; auto.
    pose proof (gv_ori m V _ _ C A (proj2 (proj1 (gv_sib m V) _ A))) as O. rewrite (proj2 (Z.eqb_neq _ _) (CO e He)) in O. apply O. }
  set (g := fun e : nat => (Z.to_nat (gTailOf m (hd (Z.of_nat e))), Z.to_nat (gTipOf m (hd (Z.of_nat e))))).
  assert (TL : forall h, inH m h -> 0 <= gTailOf m h < gVFill m) by apply (gv_tail m V).
  assert (TP : forall h, inH m h -> 0 <= gTipOf m h < gVFill m) by (intros h Hh; apply (gv_tail m V), (next_in m V h Hh)).
  set (es := map Z.to_nat (gEdges m)).
  assert (Ies : forall e, In e es <-> 0 <= Z.of_nat e < gEFill m).
  { intros e. unfold es. rewrite (edges_all m V), in_map_iff. split; [intros (z & <- & Hz); apply zseq_In in Hz; lia|]. intros He. exists (Z.of_nat e). split; [lia|apply zseq_In; auto]. }
  assert (FM : forall l d, foldM (gMergeEnds m) l d = foldM (fun d e => gMergeEnds m d (Z.of_nat e)) (map Z.to_nat l) d \/ exists z, In z l /\ z < 0).
  { induction l as [|z l IH]; intros d; [left; reflexivity|]. destruct (Z_lt_dec z 0) as [L|L]; [right; exists z; split; [left|]; auto|]. destruct (gMergeEnds m d z) as [d1| |] eqn:E.
    - destruct (IH d1) as [Q|(w & Hw & Lw)]; [left; cbn [map foldM]; rewrite Z2Nat.id, E by lia; exact Q|right; exists w; split; [right|]; auto].
    - left. cbn [map foldM]. rewrite Z2Nat.id, E by lia. reflexivity.
    - left. cbn [map foldM]. rewrite Z2Nat.id, E by lia. reflexivity. }
  destruct (FM (gEdges m) (ds_init n)) as [->|(z & Hz & Lz)]; [|exfalso; rewrite (edges_all m V) in Hz; apply zseq_In in Hz; lia]. fold es.
  destruct (foldM_merges n (fun d e => gMergeEnds m d (Z.of_nat e)) g es [] (ds_init n) (Repr_init n)) as (s & ms & E1 & R1 & I1).
  { intros e He. apply Ies in He. destruct (HD _ He) as (A & _). pose proof (TL _ A). pose proof (TP _ A). cbn [g fst snd]. unfold n. lia. }
  { intros s e He. apply Ies in He. destruct (HD _ He) as (A & _ & C & D). unfold gMergeEnds, gTwin. rewrite rdA_ok by (apply rdE; auto). cbn [bind]. fold (hd (Z.of_nat e)).
    rewrite rdA_ok by (apply rdH; auto). cbn [bind]. rewrite rdA_ok by (apply rdH; auto). cbn [bind]. rewrite rdA_ok by (apply rdH; auto). cbn [bind]. unfold gMerge. cbn [g fst snd]. unfold gTailOf in D. rewrite D. reflexivity. }
  rewrite E1. cbn [bind].
  destruct (collect_ok n ms (seq 0 n) s [] R1) as (s2 & out & E2 & R2 & ND2 & RS2 & A & _ & D); [intros i Hi; apply in_seq in Hi; lia|constructor|intros r []|].
  rewrite E2. cbn [bind]. exists (length out). split; auto.
  assert (Ims : forall i j, In (i, j) ms <-> exists e, 0 <= e < gEFill m /\ i = Z.to_nat (gTailOf m (hd e)) /\ j = Z.to_nat (gTipOf m (hd e))).
  { intros i j. rewrite I1. split.
    - intros [[]|H]. apply in_map_iff in H as (e & E & He). injection E as <- <-. apply Ies in He. exists (Z.of_nat e). auto.
    - intros (e & He & -> & ->). right. apply in_map_iff. exists (Z.to_nat e). unfold g. rewrite Z2Nat.id by lia. split; auto. apply Ies. lia. }
  assert (F : forall i j, connected ms i j -> gLinked m (Z.of_nat i) (Z.of_nat j)).
  { induction 1 as [i j H|i|i j _ IH|i j k _ IH1 _ IH2]; [|apply rst_refl|apply rst_sym; auto|eapply rst_trans; eauto].
    apply Ims in H as (e & He & -> & ->). destruct (HD e He) as (B & _). pose proof (TL _ B). pose proof (TP _ B). rewrite !Z2Nat.id by lia. apply rst_step. exists (hd e). auto. }
  assert (B : forall a b, gLinked m a b -> connected ms (Z.to_nat a) (Z.to_nat b)).
  { induction 1 as [a b (h & L & <- & <-)|a|a b _ IH|a b c _ IH1 _ IH2]; [|apply rst_refl|apply rst_sym; auto|eapply rst_trans; eauto].
    pose proof (gv_edge m V h L) as He. destruct (HD _ He) as (Bh & Eh & _).
    assert (Hm : In (Z.to_nat (gTailOf m (hd (ev m AEdge h))), Z.to_nat (gTipOf m (hd (ev m AEdge h)))) ms) by (apply Ims; exists (ev m AEdge h); auto).
    pose proof (gv_ori m V h _ L Bh (eq_sym Eh)) as O. destruct (_ =? _); destruct O as [-> ->]; [apply rst_step; exact Hm|apply rst_sym, rst_step; exact Hm]. }
  assert (Out : forall r, In r out -> (r < n)%nat).
  { intros r Hr. destruct (A r Hr) as [[]|(i & Hi & C)]. apply in_seq in Hi. destruct (Nat.eq_dec r n) as [->|]; [|pose proof (proj1 (RS2 r Hr)); lia]. exfalso.
    assert (ZZ : forall x y, connected ms x y -> (x = n <-> y = n)). { induction 1 as [x y H|x|x y _ IH|x y z _ IH1 _ IH2]; try tauto. apply Ims in H as (e & He & -> & ->). destruct (HD e He) as (Bh & _).
      pose proof (TL _ Bh). pose proof (TP _ Bh). unfold n. lia. }
    apply ZZ in C. lia. }
  exists (map Z.of_nat out). split; [apply map_length|]. split; [apply FinFun.Injective_map_NoDup; [intros x y; lia|auto]|]. split; [|split].
  - intros r Hr. apply in_map_iff in Hr as (i & <- & Hi). pose proof (Out i Hi). unfold n in *. lia.
  - intros v Lv. destruct (D (Z.to_nat v)) as (r & Hr & C); [apply in_seq; unfold n; lia|]. exists (Z.of_nat r). split; [apply in_map; auto|]. apply F in C. rewrite Z2Nat.id in C by lia. exact C.
  - intros a b Ha Hb C. apply in_map_iff in Ha as (i & <- & Hi), Hb as (j & <- & Hj). f_equal. apply B in C. rewrite !Nat2Z.id in C.
    destruct R2 as (_ & E & _). destruct (RS2 i Hi) as [Bi Ri], (RS2 j Hj) as [Bj Rj]. apply (E i j i j); auto.
Qed.
