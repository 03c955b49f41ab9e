(** separateNonmanifoldVertices: the result *)
From Verif Require Import Base MeshModel MeshSpec MeshBase GenModel GenSpec GenBase GenBuild1 GenBuild4 GenOpsModel GenOps1 GenOps2 GenSepSpec
  DisjointSetsModel GenTopoModel GenTopoSpec GenTopo1 GenTopo2.
Open Scope Z_scope.

Lemma separateVertices_ok m : GValid m -> TwoPerEdge m ->
  exists m' parents, gSeparateNonmanifoldVertices m = Ok (m', parents) /\ GValid m' /\ zlen parents = gVCap m' /\ VerticesSplit m m' (getZ parents).
Proof.
  intros V T. destruct (sets_ok m V T) as (d & rt & E & S & RI & RL). unfold gSeparateNonmanifoldVertices. fold (nn m). rewrite E. cbn [bind].
  pose proof (gv_fill m V THe) as FH. cbn [gFill gCap] in FH.
  assert (LH : gLiveHes m = map (fun i => 0 + Z.of_nat i) (seq 0 (Z.to_nat (gHeFill m)))).
  { unfold gLiveHes. rewrite live_all; [reflexivity|]. intros h Hh. apply (next_in m V h Hh). }
  rewrite LH. destruct (assignAll_ok m V rt RI RL (Z.to_nat (gHeFill m)) 0 m d _ _ _ ltac:(lia) ltac:(lia) S (inv0 m V rt RI RL)) as (m1 & d1 & par & ent & used & E1 & I).
  unfold nn. rewrite E1. cbn [bind]. clear E E1 LH.
  assert (EV : forall p h, In p [ANext; AFace; AFHe; ASib; AEdge; AOri; AEHe] -> ev m1 p h = ev m p h).
  { intros p h Hp. unfold ev. rewrite (i_oth _ _ _ _ _ _ _ I); [reflexivity| |]; destruct p; simpl in Hp |- *; try discriminate; intuition discriminate. }
  assert (FI : gHeFill m1 = gHeFill m /\ gHeCap m1 = gHeCap m) by exact (i_frm _ _ _ _ _ _ _ I THe ltac:(discriminate)). destruct FI as [FI1 FI2].
  pose proof (i_sz _ _ _ _ _ _ _ I TVe) as FV. cbn [gFill gCap] in FV. pose proof (i_more _ _ _ _ _ _ _ I) as MO. pose proof (i_done _ _ _ _ _ _ _ I) as DN.
  assert (NX : forall h, ev m1 ANext h = ev m ANext h) by (intros; apply EV; simpl; auto).
  assert (OUT : forall v, 0 <= v < gVFill m1 -> exists h, 0 <= h < gHeFill m /\ ev m1 AVert h = v).
  { intros v Hv. destruct (Z_lt_dec v (gVFill m)) as [L|L].
    - destruct (gv_vhe m V v ltac:(lia)) as [A B]. pose proof (i_touch _ _ _ _ _ _ _ I (ev m AVHe v) A) as U. rewrite B in U. apply (i_used _ _ _ _ _ _ _ I) in U as (h & Hh & Q); [|lia].
      exists h. split; auto. destruct (DN h Hh). congruence.
    - destruct (i_new _ _ _ _ _ _ _ I v ltac:(lia)) as (h & Hh & Q). exists h. split; auto. destruct (DN h Hh). congruence. }
  assert (VH : forall v, 0 <= v < gVFill m1 -> 0 <= ev m1 AVHe v < gHeFill m /\ ev m1 AVert (ev m1 AVHe v) = v).
  { intros v Hv. destruct (OUT v Hv) as (h & Hh & Q). destruct (DN h Hh) as [D1 _]. rewrite D1 in Q. rewrite <- Q. apply (i_vhe _ _ _ _ _ _ _ I); auto. }
  destruct (initNeighbors_ok m1 (gHeFill m) (gVFill m1)) as (m2 & E2 & FR & LN & AR & NO & NI); auto; try lia.
  { intros h Hh. rewrite NX. destruct (DN h Hh) as [D1 D2]. split; [apply (next_in m V h Hh)|lia]. }
  { rewrite (i_len _ _ _ _ _ _ _ I). cbn [typeOf gCap]. lia. }
  { rewrite (i_len _ _ _ _ _ _ _ I). cbn [typeOf gCap]. lia. }
  { intros v Hv. destruct (OUT v Hv) as (h & Hh & Q). destruct (ringOn_back (fun h => 0 <= h < gHeFill m) _ _ h (gv_next m V) Hh) as (p & Hp & Ep & _).
    exists p. split; auto. unfold gTipOf. rewrite NX, Ep. exact Q. }
  rewrite E2. cbn [bind]. exists m2, par. split; [reflexivity|].
  unfold frame in FR. injection FR as F1 F2 F3 F4 F5 F6 F7 F8 F9 F10 F11 F12 F13.
  assert (FI3 : forall t, gFill m2 t = gFill m1 t /\ gCap m2 t = gCap m1 t) by (intros []; cbn [gFill gCap]; auto).
  assert (EV2 : forall a h, match a with AInN | AInP | AOutN | AOutP | AInS | AOutS => False | _ => True end -> ev m2 a h = ev m1 a h) by (intros a h Ha; unfold ev; rewrite AR; auto).
  assert (TL : forall h, gTailOf m2 h = gTailOf m1 h) by (intros; unfold gTailOf; apply EV2; exact Logic.I).
  assert (TP : forall h, gTipOf m2 h = gTipOf m1 h) by (intros; unfold gTipOf; rewrite !EV2 by exact Logic.I; reflexivity).
  assert (IH : forall h, inH m2 h <-> inH m h) by (intros; unfold inH; rewrite F6, FI1; reflexivity).
  assert (LK : forall a b, inH m a -> inH m b -> (gTailOf m1 a = gTailOf m1 b <-> edgeLinked m a b)).
  { intros a b Ha Hb. rewrite <- (RL a b Ha Hb). unfold gTailOf. destruct (DN a Ha) as [-> _], (DN b Hb) as [-> _]. split; [apply (i_inj _ _ _ _ _ _ _ I); auto|congruence]. }
  assert (EA : forall p h, In p [ANext; AFace; AFHe; ASib; AEdge; AOri; AEHe] -> ev m2 p h = ev m p h).
  { intros p h Hp. rewrite EV2; [apply EV; auto|]. simpl in Hp. intuition (subst; exact Logic.I). }
  assert (FL : forall t, t <> TVe -> gFill m2 t = gFill m t) by (intros t Ht; rewrite (proj1 (FI3 t)); apply (i_frm _ _ _ _ _ _ _ I); auto).
  assert (FH2 : gHeFill m2 = gHeFill m) by exact (FL THe ltac:(discriminate)). assert (FE2 : gEFill m2 = gEFill m) by exact (FL TEd ltac:(discriminate)). assert (FF2 : gFFill m2 = gFFill m) by exact (FL TFc ltac:(discriminate)).
  assert (L7 : forall p, In p [ANext; AFace; AFHe; ASib; AEdge; AOri; AEHe] -> forall h, ev m2 p h = ev m p h) by (intros; apply EA; auto).
  assert (VAL : GValid m2).
  { destruct NO as [NO1 NO2 NO3], NI as [NI1 NI2 NI3]. constructor.
    - intros a. rewrite LN. destruct a; cbn [typeOf gCap]; rewrite ?F10, ?F11, ?F12, ?F13; try apply (i_len _ _ _ _ _ _ _ I); auto.
    - intros t. destruct (FI3 t) as [-> ->]. apply (i_sz _ _ _ _ _ _ _ I).
    - destruct (i_cnt _ _ _ _ _ _ _ I) as (A1 & A2 & A3 & A4 & A5). destruct (gv_count m V) as (B1 & B2 & B3 & B4 & B5). repeat split; congruence.
    - intros h Hh. apply IH in Hh. rewrite F8, EV2 by exact Logic.I. destruct (DN h Hh) as [-> D]. exact D.
    - intros h Hh. apply IH in Hh. rewrite FF2, L7 by (simpl; auto). apply (gv_face m V); auto.
    - intros h Hh. apply IH in Hh. rewrite FE2, L7 by (simpl; auto 10). apply (gv_edge m V); auto.
    - intros v Hv. rewrite F8 in Hv. rewrite (EV2 AVHe), (EV2 AVert) by exact Logic.I. destruct (VH v Hv) as [A B]. split; auto. apply IH. exact A.
    - intros f Hf. rewrite FF2 in Hf. rewrite !L7 by (simpl; auto). destruct (gv_fhe m V f Hf). split; auto. apply IH. auto.
    - intros e He. rewrite FE2 in He. rewrite !L7 by (simpl; auto 10). destruct (gv_ehe m V e He). split; auto. apply IH. auto.
    - rewrite FH2. apply (ring_ext _ (ev m ANext) _ (ev m AFace)); [intros; symmetry; apply L7; simpl; auto 10|intros; symmetry; apply L7; simpl; auto 10|apply (gv_next m V)].
    - rewrite FH2. apply (ring_ext _ (ev m ASib) _ (ev m AEdge)); [intros; symmetry; apply L7; simpl; auto 10|intros; symmetry; apply L7; simpl; auto 10|apply (gv_sib m V)].
    - rewrite FH2. apply (ring_ext _ (ev m2 AOutN) _ (gTailOf m1)); auto.
    - rewrite FH2. apply (ring_ext _ (ev m2 AInN) _ (gTipOf m1)); auto.
    - intros h Hh. apply IH in Hh. apply NO2; exact Hh.
    - intros h Hh. apply IH in Hh. apply NI2; exact Hh.
    - intros v Hv. rewrite F8 in Hv. rewrite TL, IH. apply NO3; auto.
    - intros v Hv. rewrite F8 in Hv. rewrite TP, IH. apply NI3; auto.
    - intros h Hh. apply IH in Hh. rewrite !L7 by (simpl; auto 10). apply (gv_bit m V); auto.
    - intros a b Ha Hb. apply IH in Ha, Hb. rewrite !(L7 AEdge), !(L7 AOri) by (simpl; auto 10). rewrite !TL, !TP. intros Q. unfold gTipOf. rewrite !NX. fold (gTailOf m1 (ev m ANext a)) (gTailOf m1 (ev m ANext b)).
      destruct (Z.eq_dec a b) as [->|N]; [rewrite Z.eqb_refl; auto|]. pose proof (next_in m V a Ha) as Hna. pose proof (next_in m V b Hb) as Hnb.
      assert (AC : forall u w, (if ev m AOri a =? ev m AOri b then (u = a /\ w = b) \/ (u = ev m ANext a /\ w = ev m ANext b) else (u = a /\ w = ev m ANext b) \/ (u = ev m ANext a /\ w = b)) -> inH m u -> inH m w -> gTailOf m1 u = gTailOf m1 w).
      { intros u w C Hu Hw. apply LK; auto. apply rt_step. exists a, b. auto. }
      destruct (ev m AOri a =? ev m AOri b); split; apply AC; auto. }
  split; [exact VAL|]. destruct (i_lens _ _ _ _ _ _ _ I) as (LP & LU & LE). split; [rewrite F12; exact LP|]. constructor.
  - exact FL.
  - exact EA.
  - rewrite F8. exact MO.
  - intros v Hv. apply (i_id _ _ _ _ _ _ _ I); auto. destruct (gv_vhe m V v Hv) as [A B]. rewrite <- B. apply (i_touch _ _ _ _ _ _ _ I). exact A.
  - intros h Hh. rewrite TL. unfold gTailOf. destruct (DN h Hh) as [-> _]. apply (i_par _ _ _ _ _ _ _ I); auto.
  - intros a b Ha Hb. rewrite !TL. apply LK; auto.
Qed.
Lemma separateVertices_throw m : GValid m -> ~ TwoPerEdge m -> gSeparateNonmanifoldVertices m = Throw.
Proof. intros V N. unfold gSeparateNonmanifoldVertices. fold (nn m). rewrite (sets_throw m V N). reflexivity. Qed.

(** a second call finds nothing to do *)
Lemma separateVertices_again m m' parents m2 parents2 : GValid m -> gSeparateNonmanifoldVertices m = Ok (m', parents) -> gSeparateNonmanifoldVertices m' = Ok (m2, parents2) ->
  gVFill m2 = gVFill m' /\ forall h, inH m h -> gTailOf m2 h = gTailOf m' h.
Proof.
  intros V E E2. assert (T : TwoPerEdge m).
  { intros h Hh. destruct (Z.eq_dec (ev m ASib (ev m ASib h)) h); auto. rewrite (separateVertices_throw m V) in E; [discriminate|]. intros Q. apply n, Q, Hh. }
  destruct (separateVertices_ok m V T) as (m1 & p1 & E1 & V1 & _ & S1). rewrite E in E1. injection E1 as <- <-.
  assert (IH : forall h, inH m' h <-> inH m h) by (intros; unfold inH; pose proof (vs_fill _ _ _ S1 THe ltac:(discriminate)) as Q; cbn [gFill] in Q; rewrite Q; reflexivity).
  assert (T' : TwoPerEdge m') by (intros h Hh; rewrite !(vs_arr _ _ _ S1) by (simpl; auto 10); apply T, IH; auto).
  destruct (separateVertices_ok m' V1 T') as (m3 & p3 & E3 & V3 & _ & S3). rewrite E2 in E3. injection E3 as <- <-.
  assert (AC : forall a b, acrossEdge m' a b <-> acrossEdge m a b).
  { intros a b. unfold acrossEdge. split; intros (x & y & Q); exists x, y; rewrite !IH, ?(vs_arr _ _ _ S1) in * by (simpl; auto 10); exact Q. }
  assert (LK : forall a b, edgeLinked m' a b <-> edgeLinked m a b).
  { intros a b. split; intros L; (induction L; [apply rt_step, AC; auto|apply rt_refl|eapply rt_trans; eauto]). }
  assert (SAME : forall a b, inH m a -> inH m b -> (gTailOf m2 a = gTailOf m2 b <-> gTailOf m' a = gTailOf m' b)).
  { intros a b Ha Hb. rewrite (vs_linked _ _ _ S3 a b), (vs_linked _ _ _ S1 a b), LK by (auto; apply IH; auto). reflexivity. }
  assert (KEEP : forall h, inH m h -> gTailOf m2 h = gTailOf m' h).
  { intros h Hh. pose proof (gv_tail m' V1 h (proj2 (IH h) Hh)) as B. fold (gTailOf m' h) in B. set (v := gTailOf m' h) in *.
    pose proof (vs_more _ _ _ S3) as MO. destruct (gv_vhe m2 V3 v ltac:(lia)) as [A Q]. fold (gTailOf m2 (ev m2 AVHe v)) in Q. set (h2 := ev m2 AVHe v) in *.
    assert (H2 : inH m h2) by (apply IH; unfold inH in *; pose proof (vs_fill _ _ _ S3 THe ltac:(discriminate)) as K; cbn [gFill] in K; lia).
    rewrite <- Q. apply SAME; auto. fold v. rewrite <- (vs_parent _ _ _ S3 h2) by (apply IH; auto). rewrite Q. symmetry. apply (vs_old _ _ _ S3). exact B. }
  split; [|exact KEEP]. pose proof (vs_more _ _ _ S3) as MO. destruct (Z.eq_dec (gVFill m2) (gVFill m')) as [|N]; auto. exfalso.
  destruct (gv_vhe m2 V3 (gVFill m') ltac:(pose proof (gv_fill m' V1 TVe) as K; cbn [gFill] in K; lia)) as [A Q]. fold (gTailOf m2 (ev m2 AVHe (gVFill m'))) in Q.
  assert (H2 : inH m (ev m2 AVHe (gVFill m'))) by (apply IH; unfold inH in *; pose proof (vs_fill _ _ _ S3 THe ltac:(discriminate)) as K; cbn [gFill] in K; lia).
  rewrite KEEP in Q by auto. pose proof (gv_tail m' V1 _ (proj2 (IH _) H2)) as B. unfold gTailOf in Q. lia.
Qed.
