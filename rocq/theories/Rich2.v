(** Reading back the connectivity of a general mesh *)
From Verif Require Import Base BuildList MeshModel MeshSpec MeshBase MeshExec GenModel GenSpec GenBase GenBuild1 GenBuild3 GenBuild4 GenOps2 GenTopo1 GenTopo2 RichModel RichSpec Rich1.
Open Scope Z_scope.

Definition nine : list arr := [ANext; AVert; AFace; AVHe; AFHe; ASib; AEdge; AOri; AEHe].
Definition GFits (m : gmesh) : Prop := gHeFill m < u32max /\ gVFill m < u32max /\ gEFill m < u32max /\ gFFill m < u32max.
Lemma countb_all p n : 0 <= n -> (forall i, 0 <= i < n -> p i = true) -> countb p n = n.
Proof. intros Hn H. unfold countb. rewrite filter_all; [unfold zseq; rewrite map_length, seq_length; lia|]. intros x Hx. apply H, zseq_In. auto. Qed.

Section G.
Context (m : gmesh) (V : GValid m) (FT : GFits m).
Let A (a : arr) : list Z := let l := firstn (Z.to_nat (gFill m (typeOf a))) (ga m a) in match a with AOri => l | _ => thru l end.
Lemma fillLen a : 0 <= gFill m (typeOf a) <= zlen (ga m a).
Proof. rewrite (gv_len m V). apply (gv_fill m V). Qed.
Lemma A_len a : zlen (A a) = gFill m (typeOf a).
Proof. destruct (take_ok _ _ (fillLen a)) as [_ K]. destruct a; unfold A; rewrite ?zlen_thru; exact K. Qed.
Lemma A_get a i : In a nine -> 0 <= i < gFill m (typeOf a) -> getZ (A a) i = ev m a i.
Proof.
  intros Ha Hi. pose proof (fillLen a) as L. destruct FT as (F1 & F2 & F3 & F4). unfold ev.
  assert (B : a <> AOri -> -1 <= ev m a i < u32max).
  { intros NA. destruct a; simpl in Ha; cbn [typeOf gFill] in Hi; try (exfalso; intuition discriminate); try congruence.
    - pose proof (proj1 (proj1 (gv_next m V) i Hi)). lia.
    - pose proof (gv_tail m V i Hi). lia.
    - pose proof (gv_face m V i Hi). lia.
    - pose proof (proj1 (gv_vhe m V i Hi)) as K. unfold inH in K. lia.
    - pose proof (proj1 (gv_fhe m V i Hi)) as K. unfold inH in K. lia.
    - pose proof (proj1 (proj1 (gv_sib m V) i Hi)). lia.
    - pose proof (gv_edge m V i Hi). lia.
    - pose proof (proj1 (gv_ehe m V i Hi)) as K. unfold inH in K. lia. }
  unfold ev in B. destruct a; unfold A; try (apply thru_take; [exact Hi|apply L|apply B; discriminate]). apply getZ_firstn; [exact Hi|apply L].
Qed.

Lemma rich_gen : exists p m', gWriteConn m = Ok p /\ gReadConn p = Ok m' /\ GValid m' /\ SameGMesh m m'.
Proof.
  pose proof (fillLen ANext) as L1. pose proof (fillLen AVert) as L2. pose proof (fillLen AFace) as L3. pose proof (fillLen AVHe) as L4. pose proof (fillLen AFHe) as L5. pose proof (fillLen ASib) as L6. pose proof (fillLen AEdge) as L7. pose proof (fillLen AOri) as L8. pose proof (fillLen AEHe) as L9.
  cbn [typeOf gFill] in *. unfold gWriteConn. rewrite (proj1 (take_ok _ _ L1)), (proj1 (take_ok _ _ L2)), (proj1 (take_ok _ _ L3)), (proj1 (take_ok _ _ L4)), (proj1 (take_ok _ _ L5)), (proj1 (take_ok _ _ L6)), (proj1 (take_ok _ _ L7)), (proj1 (take_ok _ _ L8)), (proj1 (take_ok _ _ L9)). cbn [bind].
  match goal with |- exists p, exists m', Ok ?x = Ok p /\ _ => exists x end. unfold gReadConn. cbn [qNext qVert qFace qVHe qFHe qSib qEdge qOri qEHe].
  change (map unpack (map pack (firstn (Z.to_nat (gHeFill m)) (ga m ANext)))) with (A ANext). change (map unpack (map pack (firstn (Z.to_nat (gHeFill m)) (ga m AVert)))) with (A AVert). change (map unpack (map pack (firstn (Z.to_nat (gHeFill m)) (ga m AFace)))) with (A AFace).
  change (map unpack (map pack (firstn (Z.to_nat (gVFill m)) (ga m AVHe)))) with (A AVHe). change (map unpack (map pack (firstn (Z.to_nat (gFFill m)) (ga m AFHe)))) with (A AFHe). change (map unpack (map pack (firstn (Z.to_nat (gHeFill m)) (ga m ASib)))) with (A ASib).
  change (map unpack (map pack (firstn (Z.to_nat (gHeFill m)) (ga m AEdge)))) with (A AEdge). change (firstn (Z.to_nat (gHeFill m)) (ga m AOri)) with (A AOri). change (map unpack (map pack (firstn (Z.to_nat (gEFill m)) (ga m AEHe)))) with (A AEHe).
  pose proof (A_len ANext) as Z1. pose proof (A_len AVHe) as Z2. pose proof (A_len AFHe) as Z3. pose proof (A_len AEHe) as Z4. pose proof (A_len AFace) as Z5. cbn [typeOf gFill] in *.
  assert (LIVE : forall a, In a [ANext; AVHe; AFHe; AEHe] -> forall i, 0 <= i < gFill m (typeOf a) -> negb (getZ (A a) i =? -1) = true).
  { intros a Ha i Hi. rewrite A_get by (auto; simpl in *; tauto). apply Bool.negb_true_iff, Z.eqb_neq. simpl in Ha. destruct Ha as [<-|[<-|[<-|[<-|[]]]]]; cbn [typeOf gFill] in Hi.
    - pose proof (proj1 (proj1 (gv_next m V) i Hi)). lia.
    - pose proof (proj1 (gv_vhe m V i Hi)) as K. unfold inH in K. lia.
    - pose proof (proj1 (gv_fhe m V i Hi)) as K. unfold inH in K. lia.
    - pose proof (proj1 (gv_ehe m V i Hi)) as K. unfold inH in K. lia. }
  unfold gFromArrays. cbv zeta. rewrite Z1, Z2, Z3, Z4.
  destruct (drop_ok (A AVHe) (fun i => i) (gVFill m) true) as (b1 & ->); [lia|intros; lia|]. cbn [bind]. rewrite countb_all by (try lia; apply (LIVE AVHe); simpl; auto).
  destruct (drop_ok (A ANext) (fun i => i) (gHeFill m) b1) as (b2 & ->); [lia|intros; lia|]. cbn [bind]. rewrite countb_all by (try lia; apply (LIVE ANext); simpl; auto).
  destruct (drop_ok (A AEHe) (fun i => i) (gEFill m) b2) as (b3 & ->); [lia|intros; lia|]. cbn [bind]. rewrite countb_all by (try lia; apply (LIVE AEHe); simpl; auto 10).
  destruct (drop_ok (A AFHe) (fun i => i) (gFFill m) b3) as (b4 & ->); [lia|intros; lia|]. cbn [bind]. rewrite countb_all by (try lia; apply (LIVE AFHe); simpl; auto 10).
  rewrite (count_list _ (fun _ => true)).
  2:{ intros c h Hh. apply zseq_In in Hh. rewrite rdZ_ok by lia. cbn [bind]. pose proof (LIVE ANext (or_introl eq_refl) h Hh) as K. change INVALID with (-1). destruct (getZ (A ANext) h =? -1); [discriminate K|].
      rewrite rdZ_ok by lia. cbn [bind]. rewrite (A_get AFace) by (try exact Hh; simpl; auto). pose proof (gv_face m V h Hh) as G. destruct (Z.ltb_spec (ev m AFace h) 0); [lia|]. destruct (Z.leb_spec (gFFill m) (ev m AFace h)); [lia|]. reflexivity. }
  cbn [bind]. replace (0 + Z.of_nat (length (filter (fun _ => true) (zseq (gHeFill m))))) with (gHeFill m) by (rewrite filter_all by auto; unfold zseq; rewrite map_length, seq_length; lia).
  set (m1 := mkG _ _ _ _ _ _ _ _ _ _ _ _ _ _ _).
  assert (EV : forall a i, In a nine -> 0 <= i < gFill m (typeOf a) -> ev m1 a i = ev m a i). { intros a i Ha Hi. rewrite <- (A_get a i Ha Hi). unfold ev, m1. cbn [ga]. destruct a; auto; exfalso; unfold nine in Ha; simpl in Ha; intuition discriminate. }
  assert (NX : forall h, inH m h -> ev m1 ANext h = ev m ANext h) by (intros h Hh; apply EV; [simpl; auto|exact Hh]).
  assert (NI : forall h, inH m h -> inH m (ev m ANext h)) by (intros h Hh; apply (proj1 (gv_next m V) h Hh)).
  assert (TL1 : forall h, inH m h -> gTailOf m1 h = gTailOf m h) by (intros h Hh; apply (EV AVert); [simpl; auto|exact Hh]).
  assert (TP1 : forall h, inH m h -> gTipOf m1 h = gTipOf m h) by (intros h Hh; unfold gTipOf; rewrite NX by auto; apply (EV AVert); [simpl; auto|apply NI; exact Hh]).
  destruct (initNeighbors_ok m1 (gHeFill m) (gVFill m)) as (m2 & E2 & FR & LN & AR & NO & NB).
  { reflexivity. } { reflexivity. } { unfold m1. cbn [gHeCap]. lia. } { unfold m1. cbn [gVCap]. lia. }
  { intros h Hh. rewrite NX by exact Hh. split; [apply (NI h Hh)|]. rewrite (EV AVert) by (try exact Hh; simpl; auto). apply (gv_tail m V h Hh). }
  { unfold m1. cbn [ga]. lia. } { unfold m1. cbn [ga]. rewrite A_len. cbn [typeOf gFill]. lia. }
  { intros v Hv. rewrite (EV AVHe) by (try exact Hv; simpl; auto). pose proof (proj1 (gv_vhe m V v Hv)) as K. unfold inH in K. lia. }
  { intros v Hv. destruct (gv_vhe m V v Hv) as [K1 K2]. exists (ev m AVHe v). split; [exact K1|]. rewrite (EV AVert) by (try exact K1; simpl; auto). exact K2. }
  { intros v Hv. destruct (gv_inS m V v Hv) as [K1 K2]. exists (ev m AInS v). split; [exact K1|]. rewrite TP1 by exact K1. exact K2. }
  exists m2. split; [reflexivity|]. split; [exact E2|]. unfold frame in FR. injection FR as F1 F2 F3 F4 F5 F6 F7 F8 F9 F10 F11 F12 F13. unfold m1 in F1, F2, F3, F4, F5, F6, F7, F8, F9, F10, F11, F12, F13. cbn [gHe gInt gEd gVe gFc gHeFill gEFill gVFill gFFill gHeCap gECap gVCap gFCap] in *.
  assert (EV2 : forall a i, In a nine -> 0 <= i < gFill m (typeOf a) -> ev m2 a i = ev m a i). { intros a i Ha Hi. rewrite <- (EV a i Ha Hi). unfold ev. rewrite AR; auto. unfold nine in Ha. simpl in Ha. destruct a; auto; intuition discriminate. }
  assert (IH : forall h, inH m2 h <-> inH m h) by (intros; unfold inH; rewrite F6; reflexivity).
  assert (NX2 : forall h, inH m h -> ev m2 ANext h = ev m ANext h) by (intros h Hh; apply EV2; [simpl; auto|exact Hh]).
  assert (VX2 : forall h, inH m h -> ev m2 AVert h = ev m AVert h) by (intros h Hh; apply EV2; [simpl; auto|exact Hh]).
  assert (TL : forall h, inH m h -> gTailOf m2 h = gTailOf m h) by (intros h Hh; apply VX2; auto).
  assert (TP : forall h, inH m h -> gTipOf m2 h = gTipOf m h) by (intros h Hh; unfold gTipOf; rewrite NX2, VX2 by auto; auto).
  assert (FX2 : forall h, inH m h -> ev m2 AFace h = ev m AFace h) by (intros h Hh; apply EV2; [simpl; auto|exact Hh]).
  assert (EX2 : forall h, inH m h -> ev m2 AEdge h = ev m AEdge h) by (intros h Hh; apply EV2; [simpl; auto 10|exact Hh]).
  assert (OX2 : forall h, inH m h -> ev m2 AOri h = ev m AOri h) by (intros h Hh; apply EV2; [simpl; auto 10|exact Hh]).
  assert (SX2 : forall h, inH m h -> ev m2 ASib h = ev m ASib h) by (intros h Hh; apply EV2; [simpl; auto 10|exact Hh]).
  split.
  - destruct NO as [NO1 NO2 NO3], NB as [NI1 NI2 NI3]. constructor.
    + intros a. rewrite LN. unfold m1. destruct a; cbn [typeOf gCap ga gHeCap gVCap]; rewrite ?F10, ?F11, ?F12, ?F13, ?A_len; reflexivity.
    + intros t. destruct t; cbn [gFill gCap]; lia.
    + repeat split; congruence.
    + intros h Hh. apply IH in Hh. rewrite F8, VX2 by auto. apply (gv_tail m V); auto.
    + intros h Hh. apply IH in Hh. rewrite F9, FX2 by auto. apply (gv_face m V); auto.
    + intros h Hh. apply IH in Hh. rewrite F7, EX2 by auto. apply (gv_edge m V); auto.
    + intros v Hv. rewrite F8 in Hv. rewrite (EV2 AVHe) by (try exact Hv; simpl; auto 10). destruct (gv_vhe m V v Hv) as [K1 K2]. rewrite VX2 by auto. split; auto. apply IH; auto.
    + intros f Hf. rewrite F9 in Hf. rewrite (EV2 AFHe) by (try exact Hf; simpl; auto 10). destruct (gv_fhe m V f Hf) as [K1 K2]. rewrite FX2 by auto. split; auto. apply IH; auto.
    + intros e He. rewrite F7 in He. rewrite (EV2 AEHe) by (try exact He; simpl; auto 10). destruct (gv_ehe m V e He) as [K1 K2]. rewrite EX2 by auto. split; auto. apply IH; auto.
    + rewrite F6. apply (ring_ext _ (ev m ANext) _ (ev m AFace)); [intros; symmetry; apply NX2; auto|intros; symmetry; apply FX2; auto|apply (gv_next m V)].
    + rewrite F6. apply (ring_ext _ (ev m ASib) _ (ev m AEdge)); [intros; symmetry; apply SX2; auto|intros; symmetry; apply EX2; auto|apply (gv_sib m V)].
    + rewrite F6. apply (ring_ext _ (ev m2 AOutN) _ (gTailOf m1)); [auto|intros h Hh; rewrite TL1, TL by exact Hh; auto|exact NO1].
    + rewrite F6. apply (ring_ext _ (ev m2 AInN) _ (gTipOf m1)); [auto|intros h Hh; rewrite TP1, TP by exact Hh; auto|exact NI1].
    + intros h Hh. apply IH in Hh. apply NO2; exact Hh.
    + intros h Hh. apply IH in Hh. apply NI2; exact Hh.
    + intros v Hv. rewrite F8 in Hv. destruct (NO3 v Hv) as [K1 K2]. rewrite TL by exact K1. rewrite TL1 in K2 by exact K1. split; auto. apply IH. exact K1.
    + intros v Hv. rewrite F8 in Hv. destruct (NI3 v Hv) as [K1 K2]. rewrite TP by exact K1. rewrite TP1 in K2 by exact K1. split; auto. apply IH. exact K1.
    + intros h Hh. apply IH in Hh. rewrite OX2 by auto. apply (gv_bit m V); auto.
    + intros a b Ha Hb. apply IH in Ha, Hb. rewrite !EX2, !OX2, !TL, !TP by auto. apply (gv_ori m V); auto.
  - constructor; [auto|]. exact EV2.
Qed.
End G.
