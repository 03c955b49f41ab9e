(** Removing and adding halfedges; the parts of a valid mesh *)
From Verif Require Import Base MeshModel MeshSpec MeshBase MeshOrbit GenModel GenSpec GenBase GenBuild1 GenBuild6 GenOpsModel GenOps1.
Open Scope Z_scope.

Definition outA := NbrA AOutS AOutN AOutP.
Definition inA := NbrA AInS AInN AInP.
Definition listArrs : list arr := [AInS; AInN; AInP; AOutS; AOutN; AOutP].
(** both lists around every vertex, over the halfedges of [D] *)
Definition Lists (D : Z -> Prop) (m : gmesh) : Prop := outA D (gTailOf m) m /\ inA D (gTipOf m) m.
(** the halfedges, their next() and their tails are in range *)
Definition Ends (m : gmesh) : Prop := forall h, inH m h -> inH m (ev m ANext h) /\ 0 <= ev m AVert h < gVFill m.

Lemma Fits_same L m m' : sameBut L m m' -> Fits m -> Fits m'.
Proof.
  intros H [F1 F2]. split.
  - intros a. rewrite (proj2 (sameBut_fill _ _ _ (typeOf a) H)). rewrite <- F1. apply H.
  - intros t. destruct (sameBut_fill _ _ _ t H) as [-> ->]. auto.
Qed.
Lemma inH_same L m m' h : sameBut L m m' -> (inH m' h <-> inH m h).
Proof. intros H. unfold inH. pose proof (proj1 (sameBut_fill _ _ _ THe H)) as E. cbn [gFill] in E. rewrite E. reflexivity. Qed.
Lemma vfill_same L m m' : sameBut L m m' -> gVFill m' = gVFill m. Proof. intros H. exact (proj1 (sameBut_fill _ _ _ TVe H)). Qed.
Lemma Ends_same L m m' : sameBut L m m' -> ~ In ANext L -> ~ In AVert L -> Ends m -> Ends m'.
Proof.
  intros H N1 N2 E h Hh. rewrite (inH_same _ _ _ _ H) in Hh. destruct (E h Hh) as [A B]. rewrite !(sameBut_ev L m m') by auto.
  rewrite (inH_same _ _ _ _ H), (vfill_same _ _ _ H). auto.
Qed.
Lemma tip_same L m m' h : sameBut L m m' -> ~ In ANext L -> ~ In AVert L -> gTipOf m' h = gTipOf m h.
Proof. intros H N1 N2. unfold gTipOf. rewrite !(sameBut_ev L m m') by auto. reflexivity. Qed.
Lemma tail_same L m m' h : sameBut L m m' -> ~ In AVert L -> gTailOf m' h = gTailOf m h.
Proof. intros H N2. unfold gTailOf. rewrite !(sameBut_ev L m m') by auto. reflexivity. Qed.
Lemma rdH m a h : Fits m -> typeOf a = THe -> inH m h -> 0 <= h < zlen (ga m a).
Proof. intros [F1 F2] T H. rewrite F1, T. pose proof (F2 THe) as X. red in H. cbn [gFill gCap] in *. lia. Qed.
Lemma rdV m a v : Fits m -> typeOf a = TVe -> 0 <= v < gVFill m -> 0 <= v < zlen (ga m a).
Proof. intros [F1 F2] T H. rewrite F1, T. pose proof (F2 TVe) as X. cbn [gFill gCap] in *. lia. Qed.
Lemma rdF m a v : Fits m -> typeOf a = TFc -> 0 <= v < gFFill m -> 0 <= v < zlen (ga m a).
Proof. intros [F1 F2] T H. rewrite F1, T. pose proof (F2 TFc) as X. cbn [gFill gCap] in *. lia. Qed.
Lemma rdE m a v : Fits m -> typeOf a = TEd -> 0 <= v < gEFill m -> 0 <= v < zlen (ga m a).
Proof. intros [F1 F2] T H. rewrite F1, T. pose proof (F2 TEd) as X. cbn [gFill gCap] in *. lia. Qed.
Lemma gTip_ok m h : Fits m -> Ends m -> inH m h -> gTip m h = Ok (gTipOf m h).
Proof. intros F E H. unfold gTip. rewrite rdA_ok by (apply rdH; auto). cbn [bind]. rewrite rdA_ok by (apply rdH; auto; apply E; auto). reflexivity. Qed.
Lemma gTail_ok m h : Fits m -> inH m h -> gTail m h = Ok (gTailOf m h).
Proof. intros F H. unfold gTail. rewrite rdA_ok by (apply rdH; auto). reflexivity. Qed.

Ltac notin := simpl; intuition discriminate.
(** a list is untouched by the other one *)
Lemma outA_same L m m' D : sameBut L m m' -> ~ In AOutS L -> ~ In AOutN L -> ~ In AOutP L -> ~ In AVert L -> outA D (gTailOf m) m -> outA D (gTailOf m') m'.
Proof.
  intros H N1 N2 N3 N4 B. unfold outA, NbrA in *. rewrite (vfill_same _ _ _ H).
  eapply nbr_ext; [| | | | |exact B]; try reflexivity; intros; try (symmetry; apply (sameBut_ev L m m'); auto; fail).
Qed.
Lemma inA_same L m m' D : sameBut L m m' -> ~ In AInS L -> ~ In AInN L -> ~ In AInP L -> ~ In AVert L -> ~ In ANext L -> inA D (gTipOf m) m -> inA D (gTipOf m') m'.
Proof.
  intros H N1 N2 N3 N4 N5 B. unfold inA, NbrA in *. rewrite (vfill_same _ _ _ H).
  eapply nbr_ext; [| | | | |exact B]; try reflexivity; intros; try (symmetry; apply (sameBut_ev L m m'); auto; fail).
  symmetry. apply (tip_same L); auto.
Qed.

Lemma remove_ok m (D : Z -> Prop) i : Fits m -> Ends m -> (forall h, D h -> inH m h) -> Lists D m -> D i ->
  exists m', gRemoveFromVertexLists m i = Ok m' /\ sameBut listArrs m m' /\ Lists (fun h => D h /\ h <> i) m'.
Proof.
  intros F E DH [BO BI] Di.
  destruct (unlink_ok AInS AInN AInP eq_refl eq_refl eq_refl ltac:(discriminate) m D (gTipOf m) i (fun m => gTip m i) F DH BI Di) as (m1 & E1 & S1 & B1).
  { intros m' H. rewrite gTip_ok; [f_equal; apply (tip_same _ _ _ _ H); notin|eapply Fits_same; eauto|eapply Ends_same; eauto; notin|apply (inH_same _ _ _ _ H); auto]. }
  assert (BO1 : outA D (gTailOf m1) m1) by (eapply outA_same; [exact S1|notin|notin|notin|notin|exact BO]).
  assert (DH1 : forall h, D h -> inH m1 h) by (intros h Dh; apply (inH_same _ _ _ _ S1); auto).
  destruct (unlink_ok AOutS AOutN AOutP eq_refl eq_refl eq_refl ltac:(discriminate) m1 D (gTailOf m1) i (fun m => gTail m i)) as (m2 & E2 & S2 & B2); auto.
  { eapply Fits_same; eauto. }
  { intros m' H. rewrite gTail_ok; [f_equal; apply (tail_same _ _ _ _ H); notin|eapply Fits_same; eauto; eapply Fits_same; eauto|apply (inH_same _ _ _ _ H); auto]. }
  exists m2. unfold gRemoveFromVertexLists. rewrite E1. cbn [bind]. split; [exact E2|].
  assert (S1' : sameBut listArrs m m1) by (eapply sameBut_incl; [|exact S1]; intros x; simpl; tauto).
  assert (S2' : sameBut listArrs m1 m2) by (eapply sameBut_incl; [|exact S2]; intros x; simpl; tauto).
  split; [eapply sameBut_trans; eauto|]. split.
  - unfold outA, NbrA in *. eapply nbr_ext; [| | | | |exact B2]; try reflexivity. intros h _. symmetry. apply (tail_same _ _ _ _ S2). notin.
  - assert (B1' : inA (fun h => D h /\ h <> i) (gTipOf m1) m1).
    { unfold inA, NbrA in *. eapply nbr_ext; [| | | | |exact B1]; try reflexivity. intros h _. symmetry. apply (tip_same _ _ _ _ S1); notin. }
    eapply inA_same; [exact S2|notin|notin|notin|notin|notin|exact B1'].
Qed.
Lemma add_ok m (D : Z -> Prop) i : Fits m -> Ends m -> (forall h, D h -> inH m h) -> Lists D m -> inH m i -> ~ D i ->
  exists m', gAddToVertexLists m i = Ok m' /\ sameBut listArrs m m' /\ Lists (fun h => D h \/ h = i) m'.
Proof.
  intros F E DH [BO BI] Hi Di.
  destruct (nlink_ok AInS AInN AInP eq_refl eq_refl eq_refl ltac:(discriminate) m D (gTipOf m) i (fun m => gTip m i) F DH BI Hi Di) as (m1 & E1 & S1 & B1).
  { unfold gTipOf. apply E. apply E. auto. }
  { apply gTip_ok; auto. }
  assert (BO1 : outA D (gTailOf m1) m1) by (eapply outA_same; [exact S1|notin|notin|notin|notin|exact BO]).
  assert (DH1 : forall h, D h -> inH m1 h) by (intros h Dh; apply (inH_same _ _ _ _ S1); auto).
  assert (F1 : Fits m1) by (eapply Fits_same; eauto). assert (Hi1 : inH m1 i) by (apply (inH_same _ _ _ _ S1); auto).
  assert (E1' : Ends m1) by (eapply Ends_same; eauto; notin).
  destruct (nlink_ok AOutS AOutN AOutP eq_refl eq_refl eq_refl ltac:(discriminate) m1 D (gTailOf m1) i (fun m => gTail m i)) as (m2 & E2 & S2 & B2); auto.
  { apply E1'; auto. }
  { apply gTail_ok; auto. }
  exists m2. unfold gAddToVertexLists. rewrite E1. cbn [bind]. split; [exact E2|].
  assert (S1' : sameBut listArrs m m1) by (eapply sameBut_incl; [|exact S1]; intros x; simpl; tauto).
  assert (S2' : sameBut listArrs m1 m2) by (eapply sameBut_incl; [|exact S2]; intros x; simpl; tauto).
  split; [eapply sameBut_trans; eauto|]. split.
  - unfold outA, NbrA in *. eapply nbr_ext; [| | | | |exact B2]; try reflexivity. intros h _. symmetry. apply (tail_same _ _ _ _ S2). notin.
  - assert (B1' : inA (fun h => D h \/ h = i) (gTipOf m1) m1).
    { unfold inA, NbrA in *. eapply nbr_ext; [| | | | |exact B1]; try reflexivity. intros h _. symmetry. apply (tip_same _ _ _ _ S1); notin. }
    eapply inA_same; [exact S2|notin|notin|notin|notin|notin|exact B1'].
Qed.
Lemma Lists_iff D D' m : (forall h, D' h <-> D h) -> Lists D m -> Lists D' m.
Proof. intros H [A B]. split; [refine (nbr_ext _ _ _ _ _ _ _ _ _ _ _ H _ _ _ _ A)|refine (nbr_ext _ _ _ _ _ _ _ _ _ _ _ H _ _ _ _ B)]; reflexivity. Qed.
Lemma removeAll_ok l m (D : Z -> Prop) : Fits m -> Ends m -> (forall h, D h -> inH m h) -> Lists D m -> NoDup l -> (forall h, In h l -> D h) ->
  exists m', foldM gRemoveFromVertexLists l m = Ok m' /\ sameBut listArrs m m' /\ Lists (fun h => D h /\ ~ In h l) m'.
Proof.
  revert m D. induction l as [|x l IH]; intros m D F E DH B ND I; cbn [foldM].
  - exists m. split; auto. split; [apply sameBut_refl|]. eapply Lists_iff; [|exact B]. intros h; simpl; tauto.
  - apply NoDup_cons_iff in ND as [N1 N2]. destruct (remove_ok m D x F E DH B) as (m1 & -> & S1 & B1); [apply I; left; auto|]. cbn [bind].
    destruct (IH m1 (fun h => D h /\ h <> x)) as (m2 & E2 & S2 & B2); auto.
    + eapply Fits_same; eauto.
    + eapply Ends_same; eauto; notin.
    + intros h [Dh _]. apply (inH_same _ _ _ _ S1); auto.
    + intros h Hh. split; [apply I; right; auto|]. intros ->. contradiction.
    + exists m2. split; auto. split; [eapply sameBut_trans; eauto|]. eapply Lists_iff; [|exact B2]. intros h. simpl.
      split; [intros [A C]; split; [split; auto; intros ->; apply C; auto|]; intros K; apply C; auto|intros [[A A'] C]; split; auto; intros [->|K]; auto].
Qed.
Lemma addAll_ok l m (D : Z -> Prop) : Fits m -> Ends m -> (forall h, D h -> inH m h) -> Lists D m -> NoDup l -> (forall h, In h l -> inH m h /\ ~ D h) ->
  exists m', foldM gAddToVertexLists l m = Ok m' /\ sameBut listArrs m m' /\ Lists (fun h => D h \/ In h l) m'.
Proof.
  revert m D. induction l as [|x l IH]; intros m D F E DH B ND I; cbn [foldM].
  - exists m. split; auto. split; [apply sameBut_refl|]. eapply Lists_iff; [|exact B]. intros h; simpl; tauto.
  - apply NoDup_cons_iff in ND as [N1 N2]. destruct (I x ltac:(left; auto)) as [I1 I2].
    destruct (add_ok m D x F E DH B I1 I2) as (m1 & -> & S1 & B1). cbn [bind].
    destruct (IH m1 (fun h => D h \/ h = x)) as (m2 & E2 & S2 & B2); auto.
    + eapply Fits_same; eauto.
    + eapply Ends_same; eauto; notin.
    + intros h [Dh| ->]; apply (inH_same _ _ _ _ S1); auto.
    + intros h Hh. destruct (I h ltac:(right; auto)) as [J1 J2]. split; [apply (inH_same _ _ _ _ S1); auto|]. intros [K| ->]; contradiction.
    + exists m2. split; auto. split; [eapply sameBut_trans; eauto|]. eapply Lists_iff; [|exact B2]. intros h. simpl.
      split; [intros [A|[A|A]]; auto|intros [[A|A]|A]; auto].
Qed.

(** ** a valid mesh *)
Lemma valid_fits m : GValid m -> Fits m. Proof. intros V. split; apply V. Qed.
Lemma valid_ends m : GValid m -> Ends m. Proof. intros V h Hh. split; [apply (ring_in _ _ _ (gv_next m V)); auto|apply (gv_tail m V); auto]. Qed.
Lemma valid_lists m : GValid m -> Lists (inH m) m.
Proof.
  intros V. split; constructor.
  - apply V.
  - apply V.
  - apply V.
  - intros v Hv. right. apply (gv_outS m V v Hv).
  - apply V.
  - apply V.
  - intros h Hh. apply (valid_ends m V). apply (valid_ends m V); auto.
  - intros v Hv. right. apply (gv_inS m V v Hv).
Qed.
Lemma lists_valid m : Lists (inH m) m -> Ring (gHeFill m) (ev m ANext) (ev m AFace) -> (forall v, 0 <= v < gVFill m -> inH m (ev m AVHe v) /\ ev m AVert (ev m AVHe v) = v) ->
  Ring (gHeFill m) (ev m AOutN) (gTailOf m) /\ Ring (gHeFill m) (ev m AInN) (gTipOf m) /\
  (forall h, inH m h -> ev m AOutP (ev m AOutN h) = h) /\ (forall h, inH m h -> ev m AInP (ev m AInN h) = h) /\
  (forall v, 0 <= v < gVFill m -> inH m (ev m AOutS v) /\ gTailOf m (ev m AOutS v) = v) /\
  (forall v, 0 <= v < gVFill m -> inH m (ev m AInS v) /\ gTipOf m (ev m AInS v) = v).
Proof.
  intros [[O1 O2 O3 O4] [I1 I2 I3 I4]] Rn Vh. split; [exact O1|]. split; [exact I1|]. split; [exact O2|]. split; [exact I2|]. split.
  - intros v Hv. destruct (Vh v Hv) as [A B]. destruct (O4 v Hv) as [[E F]|K]; [|exact K]. exfalso. apply (F _ A). exact B.
  - intros v Hv. destruct (Vh v Hv) as [A B]. destruct (I4 v Hv) as [[E F]|K]; [|exact K]. exfalso.
    destruct (ring_back _ _ _ Rn _ A) as (p & P1 & P2 & _). apply (F p P1). unfold gTipOf. rewrite P2. exact B.
Qed.
(** the loop around a face needs only the ring *)
Lemma faceHes_chain m f : Fits m -> Ring (gHeFill m) (ev m ANext) (ev m AFace) -> 0 <= f < gFFill m -> inH m (ev m AFHe f) -> ev m AFace (ev m AFHe f) = f ->
  exists l, gFaceHes m f = Ok l /\ NoDup l /\ (forall h, In h l <-> inH m h /\ ev m AFace h = f) /\
    l <> [] /\ chain (ev m ANext) (ev m AFHe f) l (ev m AFHe f) /\ Z.of_nat (length l) <= gHeFill m.
Proof.
  intros F R Hf Hs E. destruct (ring_cycle _ _ _ _ R Hs) as (l & L1 & L2 & L3 & L4 & L5 & L6). exists l. rewrite E in L4. split; [|auto 8].
  unfold gFaceHes. rewrite rdA_ok by (apply rdF; auto). cbn [bind]. apply orbit_loop_chain with (ev m ANext); auto.
  - intros x Hx. apply rdA_ok. apply rdH; auto. apply L4; auto.
  - unfold gFuel. lia.
Qed.
Lemma iter_succ_r (f : Z -> Z) k x : Nat.iter (S k) f x = Nat.iter k f (f x).
Proof. replace (S k) with (k + 1)%nat by lia. apply iter_add. Qed.
Lemma ring_reverse n f g key c : Ring n f key -> (forall h, 0 <= h < n -> key h = c -> g (f h) = h) -> (forall h, 0 <= h < n -> key h <> c -> g h = f h) -> Ring n g key.
Proof.
  intros R G1 G2.
  assert (Cl : forall h, 0 <= h < n -> key h = c -> 0 <= g h < n /\ key (g h) = c).
  { intros h Hh Kh. destruct (ring_back _ _ _ R h Hh) as (p & Hp & Ep & Kp). rewrite <- Ep, G1 by congruence. split; [auto|congruence]. }
  split.
  - intros h Hh. destruct (Z.eq_dec (key h) c) as [E|E]; [destruct (Cl h Hh E); split; [auto|congruence]|rewrite G2 by auto; apply R; auto].
  - intros a b Ha Hb K. destruct (Z.eq_dec (key a) c) as [E|E].
    + destruct (proj2 R b a Hb Ha (eq_sym K)) as (k & Hk). exists k. rewrite K in E. rewrite <- Hk. clear K Ha Hk.
      assert (Kb : forall k, 0 <= Nat.iter k f b < n /\ key (Nat.iter k f b) = key b) by (intros j; apply ring_iter; auto).
      induction k as [|k IH]; [reflexivity|]. rewrite iter_succ_r. change (Nat.iter (S k) f b) with (f (Nat.iter k f b)).
      rewrite G1; [apply IH|apply Kb|rewrite (proj2 (Kb k)); auto].
    + destruct (proj2 R a b Ha Hb K) as (k & <-). exists k. clear K Hb.
      induction k as [|k IH]; [reflexivity|]. simpl. rewrite IH. destruct (ring_iter _ _ _ R k a Ha) as [X Y]. apply G2; [auto|congruence].
Qed.
