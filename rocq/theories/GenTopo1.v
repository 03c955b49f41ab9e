(** separateNonmanifoldVertices: the sets of corners *)
From Verif Require Import Base MeshModel MeshSpec MeshBase GenModel GenSpec GenBase GenBuild1 GenBuild4 GenOpsModel GenOps1 GenOps2 GenSepSpec GenSep1 GenSep2
  DisjointSetsModel DisjointSetsSpec DisjointSetsProofs GenTopoModel GenTopoSpec.
Open Scope Z_scope.

Section M.
Context (m : gmesh) (V : GValid m).
Definition nn : nat := Z.to_nat (gHeFill m).
Definition prN (p : Z * Z) : nat * nat := (Z.to_nat (fst p), Z.to_nat (snd p)).
(** the pairs merged for an edge *)
Definition edgePairs (e : Z) : list (Z * Z) :=
  let h := ev m AEHe e in let s := ev m ASib h in
  if s =? h then [] else
  if ev m AOri h =? ev m AOri s then [(ev m ANext h, ev m ANext s); (h, s)] else [(h, ev m ANext s); (ev m ANext h, s)].
Definition edgeBad (e : Z) : Prop := ev m ASib (ev m ASib (ev m AEHe e)) <> ev m AEHe e.

Lemma next_in h : inH m h -> inH m (ev m ANext h). Proof. intros H. apply (proj1 (gv_next m V) h H). Qed.
Lemma sib_in h : inH m h -> inH m (ev m ASib h). Proof. intros H. apply (proj1 (gv_sib m V) h H). Qed.
Lemma merge_one ms d a b : Repr nn ms d -> inH m a -> inH m b -> exists d', gMerge d a b = Ok d' /\ Repr nn (prN (a, b) :: ms) d'.
Proof. intros R A B. unfold gMerge. apply Repr_merge; auto; unfold nn, inH in *; lia. Qed.
Lemma mergeEdge_ok ms d e : Repr nn ms d -> 0 <= e < gEFill m ->
  (edgeBad e -> gMergeEdge m d e = Throw) /\ (~ edgeBad e -> exists d', gMergeEdge m d e = Ok d' /\ Repr nn (map prN (edgePairs e) ++ ms) d').
Proof.
  intros R He. pose proof (valid_fits m V) as F. destruct (gv_ehe m V e He) as [Hh Eh]. unfold edgeBad, edgePairs. 
  unfold gMergeEdge, gEdgeIsBoundary, gEdgeIsManifold.
  rewrite rdA_ok by (apply rdE; auto). cbn [bind]. set (h := ev m AEHe e) in *. pose proof (sib_in h Hh) as Hs. pose proof (next_in h Hh) as Hn. pose proof (next_in _ Hs) as Hns.
  rewrite rdA_ok by (apply rdH; auto). cbn [bind]. destruct (ev m ASib h =? h) eqn:Q.
  - apply Z.eqb_eq in Q. split; [intros B; exfalso; apply B; rewrite Q; exact Q|]. intros _. exists d. split; auto.
  - cbn [bind]. rewrite rdA_ok by (apply rdH; auto). cbn [bind]. rewrite orb_false_r. unfold guard. split.
    + intros B. rewrite (proj2 (Z.eqb_neq _ _) B). reflexivity.
    + intros B. destruct (Z.eqb_spec (ev m ASib (ev m ASib h)) h) as [_|B']; [|exfalso; apply B; auto]. cbn [bind].
      rewrite !rdA_ok by (apply rdH; auto). cbn [bind]. destruct (ev m AOri h =? ev m AOri (ev m ASib h)).
      * destruct (merge_one ms d h (ev m ASib h) R Hh Hs) as (d1 & E1 & R1). rewrite E1. cbn [bind].
        destruct (merge_one _ d1 _ _ R1 Hn Hns) as (d2 & E2 & R2). rewrite E2. exists d2. split; auto.
      * destruct (merge_one ms d _ _ R Hn Hs) as (d1 & E1 & R1). rewrite E1. cbn [bind].
        destruct (merge_one _ d1 _ _ R1 Hh Hns) as (d2 & E2 & R2). rewrite E2. exists d2. split; auto.
Qed.
Lemma mergeAll_ok l : forall ms d, Repr nn ms d -> (forall e, In e l -> 0 <= e < gEFill m) ->
  ((exists e, In e l /\ edgeBad e) -> foldM (gMergeEdge m) l d = Throw) /\
  ((forall e, In e l -> ~ edgeBad e) -> exists d' ms', foldM (gMergeEdge m) l d = Ok d' /\ Repr nn ms' d' /\
     forall p, In p ms' <-> In p ms \/ exists e, In e l /\ In p (map prN (edgePairs e))).
Proof.
  induction l as [|e l IH]; intros ms d R B; cbn [foldM].
  - split; [intros (e & [] & _)|]. intros _. exists d, ms. split; [reflexivity|]. split; auto. intros p. split; [auto|]. intros [H|(e & [] & _)]; auto.
  - destruct (mergeEdge_ok ms d e R (B e (or_introl eq_refl))) as [C1 C2].
    assert (D : edgeBad e \/ ~ edgeBad e) by (unfold edgeBad; destruct (Z.eq_dec (ev m ASib (ev m ASib (ev m AEHe e))) (ev m AEHe e)); auto).
    destruct D as [D|D].
    + rewrite (C1 D). split; [reflexivity|]. intros G. exfalso. apply (G e); [left; auto|auto].
    + destruct (C2 D) as (d1 & E1 & R1). rewrite E1. cbn [bind]. destruct (IH _ d1 R1) as [I1 I2]; [intros; apply B; right; auto|]. split.
      * intros (e' & [<-|He'] & Be'); [contradiction|]. apply I1. exists e'. auto.
      * intros G. destruct (I2 (fun e' He' => G e' (or_intror He'))) as (d2 & ms2 & E2 & R2 & K2). exists d2, ms2. split; auto. split; auto.
        intros p. rewrite K2, in_app_iff. split.
        -- intros [[H|H]|(e' & He' & H)]; [right; exists e; split; [left|]; auto|auto|right; exists e'; split; [right|]; auto].
        -- intros [H|(e' & [<-|He'] & H)]; [auto|auto|right; exists e'; auto].
Qed.
Lemma edges_all : gEdges m = zseq (gEFill m).
Proof. unfold gEdges. apply live_all. intros e He. apply (gv_ehe m V e He). Qed.
Lemma bad_iff : (exists e, In e (gEdges m) /\ edgeBad e) <-> ~ TwoPerEdge m.
Proof.
  rewrite edges_all. split.
  - intros (e & He & B) T. apply zseq_In in He. apply B, T, (gv_ehe m V e He).
  - intros N. assert (D : forall n : nat, (exists e, 0 <= e < gEFill m /\ edgeBad e) \/ forall e, 0 <= e < Z.of_nat n -> e < gEFill m -> ~ edgeBad e).
    { induction n as [|n [IH|IH]]; [right; lia|auto|]. destruct (Z.eq_dec (ev m ASib (ev m ASib (ev m AEHe (Z.of_nat n)))) (ev m AEHe (Z.of_nat n))) as [Q|Q].
      - right. intros e He Hf. destruct (Z.eq_dec e (Z.of_nat n)) as [->|]; [intros B; apply B; auto|apply IH; lia].
      - destruct (Z_lt_dec (Z.of_nat n) (gEFill m)); [left; exists (Z.of_nat n); split; [lia|auto]|]. right. intros e He Hf. apply IH; lia. }
    destruct (D (Z.to_nat (gEFill m))) as [(e & He & B)|G]; [exists e; split; [apply zseq_In|]; auto|]. exfalso. apply N. intros h Hh.
    pose proof (gv_edge m V h Hh) as He. destruct (gv_ehe m V _ He) as [H1 H2].
    assert (Q : ev m ASib (ev m ASib (ev m AEHe (ev m AEdge h))) = ev m AEHe (ev m AEdge h)).
    { destruct (Z.eq_dec (ev m ASib (ev m ASib (ev m AEHe (ev m AEdge h)))) (ev m AEHe (ev m AEdge h))); auto. exfalso. apply (G (ev m AEdge h)); [lia|lia|auto]. }
    destruct (ring_two m _ h V H1 Hh ltac:(auto) Q) as [E|E]; rewrite E; [exact Q|rewrite Q; reflexivity].
Qed.

(** ** the relation *)
Lemma across_sym a b : acrossEdge m a b -> acrossEdge m b a.
Proof.
  intros (x & y & Hx & Hy & N & E & C). exists y, x. repeat (split; [auto|]). rewrite Z.eqb_sym. destruct (_ =? _); intuition.
Qed.
Lemma across_in a b : acrossEdge m a b -> inH m a /\ inH m b.
Proof.
  intros (x & y & Hx & Hy & _ & _ & C). pose proof (next_in x Hx). pose proof (next_in y Hy). destruct (_ =? _); intuition (subst; auto).
Qed.
Lemma pairs_across e a b : ~ edgeBad e -> 0 <= e < gEFill m -> In (a, b) (edgePairs e) -> acrossEdge m a b.
Proof.
  intros B He. destruct (gv_ehe m V e He) as [Hh Eh]. unfold edgePairs. set (h := ev m AEHe e) in *. destruct (Z.eqb_spec (ev m ASib h) h) as [|N]; [intros []|].
  assert (Es : ev m AEdge (ev m ASib h) = ev m AEdge h) by apply (proj1 (gv_sib m V) h Hh).
  intros I. exists h, (ev m ASib h). split; [auto|]. split; [apply sib_in; auto|]. split; [auto|]. split; [auto|].
  destruct (ev m AOri h =? _); destruct I as [E|[E|[]]]; injection E as <- <-; auto.
Qed.
Lemma across_pairs a b : TwoPerEdge m -> acrossEdge m a b -> exists e, 0 <= e < gEFill m /\ (In (a, b) (edgePairs e) \/ In (b, a) (edgePairs e)).
Proof.
  intros T (x & y & Hx & Hy & N & E & C). pose proof (gv_edge m V x Hx) as He. exists (ev m AEdge x). split; auto. destruct (gv_ehe m V _ He) as [Hh Eh]. unfold edgePairs. set (h := ev m AEHe (ev m AEdge x)) in *.
  pose proof (T h Hh) as Th. destruct (ring_two m h x V Hh Hx (eq_sym Eh) Th) as [Ex|Ex]; destruct (ring_two m h y V Hh Hy ltac:(congruence) Th) as [Ey|Ey].
  - congruence.
  - rewrite (proj2 (Z.eqb_neq (ev m ASib h) h)) by congruence. rewrite <- Ey, <- Ex. left. destruct (_ =? _); destruct C as [[-> ->]|[-> ->]]; simpl; auto.
  - rewrite (proj2 (Z.eqb_neq (ev m ASib h) h)) by congruence. rewrite <- Ex, <- Ey. right. rewrite (Z.eqb_sym (ev m AOri y)). destruct (_ =? _); destruct C as [[-> ->]|[-> ->]]; simpl; auto.
  - congruence.
Qed.
Lemma linked_sym a b : edgeLinked m a b -> edgeLinked m b a.
Proof. intros L. induction L; [apply rt_step, across_sym; auto|apply rt_refl|eapply rt_trans; eauto]. Qed.
Lemma linked_in a b : edgeLinked m a b -> inH m a -> inH m b.
Proof. intros L. induction L; auto. intros _. apply (across_in x y); auto. Qed.
Lemma linked_tail a b : edgeLinked m a b -> gTailOf m a = gTailOf m b.
Proof.
  intros L. induction L as [a b (x & y & Hx & Hy & _ & E & C)| |]; [|reflexivity|congruence].
  pose proof (gv_ori m V x y Hx Hy E) as O. unfold gTailOf, gTipOf in *. destruct (_ =? _); destruct C as [[-> ->]|[-> ->]]; tauto.
Qed.

(** ** the sets *)
Definition Sets (rt : Z -> Z) (d : dsets) : Prop := exists ms, Repr nn ms d /\ forall a, inH m a -> Root (parent d) (Z.to_nat a) (Z.to_nat (rt a)).
Lemma sets_find rt d a : Sets rt d -> inH m a -> inH m (rt a) -> exists d', ds_find d (Z.to_nat a) = Ok (d', Z.to_nat (rt a)) /\ Sets rt d'.
Proof.
  intros (ms & R & Q) Ha Hr. assert (B : forall x, inH m x -> (Z.to_nat x <= nn)%nat) by (unfold nn, inH; intros; lia).
  destruct (Repr_find nn ms d (Z.to_nat a) R (B a Ha)) as (d' & r & E & R' & R1 & R2 & K & _). pose proof (Root_fun _ _ _ _ R1 (Q a Ha)) as Er. subst r.
  exists d'. split; auto. exists ms. split; auto.
Qed.
Lemma conn_iff ms : TwoPerEdge m -> (forall p, In p ms <-> exists e, 0 <= e < gEFill m /\ In p (map prN (edgePairs e))) ->
  forall a b, inH m a -> inH m b -> (connected ms (Z.to_nat a) (Z.to_nat b) <-> edgeLinked m a b).
Proof.
  intros T K. assert (NB : forall e, 0 <= e < gEFill m -> ~ edgeBad e) by (intros e He B; apply B, T, (gv_ehe m V e He)). split.
  - assert (G : forall x y, connected ms x y -> edgeLinked m (Z.of_nat x) (Z.of_nat y)).
    { intros x y C. induction C as [x y I|x|x y _ IH|x y z _ I1 _ I2]; [|apply rt_refl|apply linked_sym; auto|eapply rt_trans; eauto].
      apply K in I as (e & He & I). apply in_map_iff in I as ([u v] & Ep & I). injection Ep as <- <-. cbn [fst snd].
      pose proof (pairs_across e u v (NB e He) He I) as A. destruct (across_in _ _ A) as [Hu Hv]. rewrite !Z2Nat.id by (unfold inH in *; lia). apply rt_step; auto. }
    intros C. specialize (G _ _ C). rewrite !Z2Nat.id in G by (unfold inH in *; lia). exact G.
  - intros L. clear H H0. induction L as [a b A|a|a b c _ I1 _ I2]; [|apply rst_refl|eapply rst_trans; eauto].
    destruct (across_pairs a b T A) as (e & He & [I|I]); [apply rst_step|apply rst_sym, rst_step]; apply K; exists e; split; auto.
    + exact (in_map prN _ _ I).
    + exact (in_map prN _ _ I).
Qed.
Lemma sets_ok : TwoPerEdge m -> exists d rt, foldM (gMergeEdge m) (gEdges m) (ds_init nn) = Ok d /\ Sets rt d /\ (forall a, inH m a -> inH m (rt a)) /\
  forall a b, inH m a -> inH m b -> (rt a = rt b <-> edgeLinked m a b).
Proof.
  intros T. destruct (mergeAll_ok (gEdges m) [] (ds_init nn) (Repr_init nn)) as [_ H]; [rewrite edges_all; intros e He; apply zseq_In in He; auto|].
  destruct H as (d & ms & E & R & K). { intros e He B. apply (proj1 bad_iff); auto. exists e. auto. }
  assert (K' : forall p, In p ms <-> exists e, 0 <= e < gEFill m /\ In p (map prN (edgePairs e))).
  { intros p. rewrite K, edges_all. split; [intros [[]|(e & He & I)]; exists e; split; auto; apply zseq_In; auto|]. intros (e & He & I). right. exists e. split; [apply zseq_In|]; auto. }
  clear K. exists d, (fun a => match ds_find d (Z.to_nat a) with Ok (_, r) => Z.of_nat r | _ => 0 end). split; auto.
  assert (B : forall x, inH m x -> (Z.to_nat x <= nn)%nat) by (unfold nn, inH; intros; lia).
  assert (P : forall a, inH m a -> exists r, match ds_find d (Z.to_nat a) with Ok (_, r) => Z.of_nat r | _ => 0 end = Z.of_nat r /\ Root (parent d) (Z.to_nat a) r /\ (r < nn)%nat).
  { intros a Ha. destruct (Repr_find nn ms d (Z.to_nat a) R (B a Ha)) as (d' & r & E' & R' & R1 & _). rewrite E'. exists r. split; auto. split; auto.
    destruct R as (Sh & Q & _). assert (C : connected ms (Z.to_nat a) r). { apply (Q _ _ r r); auto; [exact (Root_range _ _ _ _ _ Sh (B a Ha) R1)|]. constructor. exact (Root_fix _ _ _ R1). }
    assert (MB : forall x y, In (x, y) ms -> (x <= nn - 1 /\ y <= nn - 1)%nat).
    { intros x y I. apply K' in I as (e & He & I). apply in_map_iff in I as ([u v] & Ep & I). injection Ep as <- <-. cbn [fst snd].
      assert (NB : ~ edgeBad e) by (intros Bd; apply Bd, T, (gv_ehe m V e He)). destruct (across_in u v (pairs_across e u v NB He I)) as [Hu Hv]. unfold nn, inH in *. clear - Hu Hv. lia. }
    destruct (connected_range (nn - 1) ms _ _ MB C) as [Q'|Q']; clear - Q' Ha; unfold nn, inH in *; lia. }
  split; [exists ms; split; auto; intros a Ha; destruct (P a Ha) as (r & -> & Rr & _); rewrite Nat2Z.id; auto|].
  split; [intros a Ha; destruct (P a Ha) as (r & -> & _ & L); unfold nn, inH in *; lia|].
  intros a b Ha Hb. destruct (P a Ha) as (r & -> & Ra & _), (P b Hb) as (t & -> & Rb & _). rewrite <- (conn_iff ms T K' a b Ha Hb).
  destruct R as (_ & Q & _). rewrite <- (Q _ _ r t (B a Ha) (B b Hb) Ra Rb). lia.
Qed.
Lemma sets_throw : ~ TwoPerEdge m -> foldM (gMergeEdge m) (gEdges m) (ds_init nn) = Throw.
Proof.
  intros N. apply (mergeAll_ok (gEdges m) [] (ds_init nn) (Repr_init nn)); [rewrite edges_all; intros e He; apply zseq_In in He; auto|]. apply bad_iff; auto.
Qed.
End M.
