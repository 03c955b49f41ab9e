(** duplicateFace *)
From Verif Require Import Base MeshModel MeshSpec MeshBase MeshOrbit GenModel GenSpec GenBase GenBuild1 GenBuild6 GenOpsModel GenOpsSpec GenDupSpec GenOps1 GenOps2 GenOps3 GenSep1 GenDup1.
Open Scope Z_scope.

Lemma chain_getZ f l : forall a b i, chain f a l b -> 0 <= i < zlen l -> f (getZ l i) = if i + 1 <? zlen l then getZ l (i + 1) else b.
Proof.
  induction l as [|x t IH]; intros a b i C H; [change (zlen []) with 0 in H; lia|]. destruct C as [-> C].
  assert (Ls : zlen (a :: t) = zlen t + 1) by (unfold zlen; simpl; lia). rewrite Ls in *.
  assert (G : forall j, 0 <= j -> getZ (a :: t) (j + 1) = getZ t j).
  { intros j Hj. unfold getZ. rewrite (proj2 (Z.ltb_ge (j + 1) 0)), (proj2 (Z.ltb_ge j 0)) by lia. replace (Z.to_nat (j + 1)) with (S (Z.to_nat j)) by lia. reflexivity. }
  destruct (Z.eq_dec i 0) as [-> | Q].
  - change (getZ (a :: t) 0) with a. destruct t as [|y t]; simpl in C.
    + rewrite (proj2 (Z.ltb_ge _ _)) by (change (zlen []) with 0; lia). exact C.
    + destruct C as [-> C]. rewrite (proj2 (Z.ltb_lt _ _)) by (unfold zlen; simpl; lia). reflexivity.
  - replace i with ((i - 1) + 1) by lia. rewrite !G by lia. rewrite (IH (f a) b (i - 1) C ltac:(lia)).
    destruct (Z.ltb_spec (i - 1 + 1) (zlen t)), (Z.ltb_spec (i - 1 + 1 + 1) (zlen t + 1)); try lia; auto.
Qed.
Lemma getZ_inj l i j : NoDup l -> 0 <= i < zlen l -> 0 <= j < zlen l -> getZ l i = getZ l j -> i = j.
Proof.
  intros ND Hi Hj E. unfold getZ in E. rewrite (proj2 (Z.ltb_ge i 0)), (proj2 (Z.ltb_ge j 0)) in E by lia. unfold zlen in *.
  assert (Z.to_nat i = Z.to_nat j); [|lia]. apply (proj1 (NoDup_nth l INVALID) ND); auto; lia.
Qed.
Lemma In_getZ (l : list Z) x : In x l <-> exists i, 0 <= i < zlen l /\ getZ l i = x.
Proof.
  split.
  - intros I. apply (In_nth _ _ INVALID) in I as (i & Hi & E). exists (Z.of_nat i). unfold zlen, getZ. split; [lia|]. rewrite (proj2 (Z.ltb_ge (Z.of_nat i) 0)) by lia. rewrite Nat2Z.id. exact E.
  - intros (i & Hi & <-). unfold getZ. rewrite (proj2 (Z.ltb_ge i 0)) by lia. apply nth_In. unfold zlen in Hi. lia.
Qed.
Definition posOf (l : list Z) (x : Z) : Z := match find (fun i => getZ l i =? x) (zseq (zlen l)) with Some i => i | None => -1 end.
Lemma posOf_ok l x : In x l -> 0 <= posOf l x < zlen l /\ getZ l (posOf l x) = x.
Proof.
  intros I. apply In_getZ in I as (i & Hi & E). unfold posOf. destruct (find _ _) as [j|] eqn:Q.
  - apply find_some in Q as [Q1 Q2]. apply zseq_In in Q1. apply Z.eqb_eq in Q2. auto.
  - apply find_none with (x := i) in Q; [|apply zseq_In; auto]. rewrite E, Z.eqb_refl in Q. discriminate.
Qed.
Lemma reach_run (f : Z -> Z) lo hi a b : (forall i, lo <= i < hi -> f i = i + 1) -> lo <= a -> a <= b -> b <= hi -> reach f a b.
Proof.
  intros H H1 H2 H3. assert (G : forall k, a + Z.of_nat k <= hi -> Nat.iter k f a = a + Z.of_nat k).
  { induction k as [|k IH]; intros Q; [simpl; lia|]. simpl Nat.iter. rewrite IH by lia. rewrite H by lia. lia. }
  exists (Z.to_nat (b - a)). rewrite G by lia. lia.
Qed.

Lemma duplicate_ok m f : GValid m -> 0 <= f < gFFill m -> exists m' nf copy, gDuplicateFace m f = Ok (m', nf) /\
  Duplicated m m' f nf copy /\ gInt m' = gInt m /\ GValid (withInterior m' (gHeFill m')).
Proof.
  intros V Hf. pose proof (valid_fits m V) as F. destruct (gv_fhe m V f Hf) as [Hs Es].
  destruct (faceHes_chain m f F (gv_next m V) Hf Hs Es) as (l & El & ND & Ml & Nl & Ch & Lb).
  unfold gDuplicateFace. rewrite El. cbn [bind].
  set (n0 := gHeFill m). set (nF := gFFill m) in *. assert (N0 : 0 <= n0) by (pose proof (gv_fill m V THe) as Q; cbn [gFill] in Q; unfold n0; lia).
  (* the new face *)
  assert (SZ : Sized m TFc) by (split; [intros x Tx; rewrite <- Tx; apply V|apply V]).
  assert (CP : 0 < gFCap m) by (pose proof (gv_fill m V TFc) as Q; cbn [gFill gCap] in Q; fold nF in Q; lia).
  destruct (newFace_ok m SZ CP) as (m1 & -> & G & C1 & C2 & C3 & C4 & C5). destruct G as (G1 & G2 & G3 & G4 & G5 & G6 & G7). cbn [gFill gCap] in G1, G3, G4. fold nF.
  destruct (G7 THe ltac:(discriminate)) as [Gh1 Gh2]. destruct (G7 TVe ltac:(discriminate)) as [Gv1 Gv2]. destruct (G7 TEd ltac:(discriminate)) as [Ge1 Ge2]. cbn [gFill gCap] in Gh1, Gh2, Gv1, Gv2, Ge1, Ge2.
  assert (D0 : Dup m m1 []).
  { constructor.
    - split.
      + intros p. destruct (eltype_eqb (typeOf p) TFc) eqn:Q; [apply eltype_eqb_eq in Q; rewrite Q; apply G2; auto|].
        assert (Np : typeOf p <> TFc) by (intros K; rewrite K in Q; discriminate). rewrite G6 by auto. rewrite (proj2 (G7 _ Np)). apply V.
      + intros t. pose proof (gv_fill m V t). pose proof (gv_fill m V TFc). destruct t; cbn [gFill gCap] in *; lia.
    - change (zlen []) with 0. rewrite Gh1. lia.
    - auto.
    - change (zlen []) with 0. lia.
    - intros a i _ Hi. apply G5. exact Hi.
    - intros i Hi. change (zlen []) with 0 in Hi. lia.
    - intros i Hi1 Hi2. change (zlen []) with 0 in Hi2. lia.
    - intros Q. congruence.
    - exists (predOf (gHeFill m) (ev m ASib)), (ev m AEHe). refine (nbr_ext _ _ _ _ _ _ _ _ _ _ _ _ _ _ _ _ (ring_nbr m V)); try reflexivity.
      + intros h. unfold inH. rewrite Gh1. reflexivity.
      + intros h Hh. unfold ev. rewrite G6 by discriminate. reflexivity.
      + intros h Hh. unfold ev. rewrite G6 by discriminate. reflexivity. }
  assert (Loop : forall l2 l1 mc prev first, (forall h, In h l2 -> inH m h) -> Dup m mc l1 -> (l1 = [] -> prev = INVALID /\ first = INVALID) -> (l1 <> [] -> prev = n0 + zlen l1 - 1 /\ first = n0) ->
     exists mc' p' f', foldM (gDupStep nF) l2 (mc, prev, first) = Ok (mc', p', f') /\ Dup m mc' (l1 ++ l2) /\ (l1 ++ l2 <> [] -> p' = n0 + zlen (l1 ++ l2) - 1 /\ f' = n0)).
  { induction l2 as [|x l2 IH]; intros l1 mc prev first In2 D Q1 Q2.
    - exists mc, prev, first. rewrite app_nil_r. cbn [foldM]. auto.
    - destruct (dupStep_ok m V mc l1 x prev first D ltac:(apply In2; simpl; auto) Q1 Q2) as (mc' & E' & D'). cbn [foldM]. fold nF in E'. rewrite E'. cbn [bind].
      destruct (IH (l1 ++ [x]) mc' (gHeFill m + zlen l1) (gHeFill m)) as (mz & p' & f' & Ez & Dz & Qz); auto.
      + intros h Hh. apply In2. simpl; auto.
      + intros Q. exfalso. destruct l1; discriminate Q.
      + intros _. rewrite zlen_snoc. fold n0. split; [lia|reflexivity].
      + rewrite <- app_assoc in Dz, Qz. simpl app in Dz, Qz. exists mz, p', f'. auto. }
  destruct (Loop l [] m1 INVALID INVALID) as (m2 & p' & f' & -> & D & Q); auto; [intros h I; apply Ml; auto|congruence|].
  cbn [app] in D, Q. destruct (Q Nl) as [-> ->]. cbn [bind]. clear Loop D0 Q G1 G2 G3 G4 G5 G6 G7 C1 C2 C3 C4 C5 Gh1 Gh2 Gv1 Gv2 Ge1 Ge2 SZ m1.
  destruct D as [F2 HE (OV & OE & OF) (C1 & C2 & C3 & C4 & C5) OLD NEW NXT FST (P & S & B)]. fold n0 in HE, NEW, NXT, FST. fold nF in OF, NEW, FST.
  set (k := zlen l) in *. assert (Kp : 1 <= k) by (unfold k, zlen; destruct l; [congruence|simpl; lia]).
  rewrite wrA_ok by (apply rdH; auto; unfold inH; lia). cbn [bind]. set (m3 := wA m2 ANext (n0 + k - 1) n0).
  assert (S3 : sameBut [ANext] m2 m3) by (apply sameBut_wA; simpl; auto). pose proof (Fits_same _ _ _ S3 F2) as F3.
  assert (H3 : forall h, inH m3 h <-> 0 <= h < n0 + k) by (intros h; unfold inH, m3; cbn [gHeFill wA setA]; rewrite HE; reflexivity).
  assert (X3 : forall a h, a <> ANext -> ev m3 a h = ev m2 a h) by (intros a h Na; apply ev_other; auto).
  assert (Nx3 : forall h, ev m3 ANext h = if h =? n0 + k - 1 then n0 else ev m2 ANext h) by (intros h; apply ev_same; apply rdH; auto; unfold inH; lia).
  assert (NxO : forall h, inH m h -> ev m3 ANext h = ev m ANext h).
  { intros h Hh. rewrite Nx3, (proj2 (Z.eqb_neq _ _)) by (unfold inH in Hh; fold n0 in Hh; lia). apply OLD; [discriminate|exact Hh]. }
  assert (NxN : forall i, 0 <= i < k -> ev m3 ANext (n0 + i) = n0 + (if i + 1 <? k then i + 1 else 0)).
  { intros i Hi. rewrite Nx3. destruct (Z.eqb_spec (n0 + i) (n0 + k - 1)) as [Q|Q].
    - rewrite (proj2 (Z.ltb_ge _ _)) by lia. lia.
    - rewrite (proj2 (Z.ltb_lt _ _)) by lia. rewrite NXT by lia. lia. }
  assert (Old3 : forall a h, a <> ASib -> a <> ANext -> 0 <= h < gFill m (typeOf a) -> ev m3 a h = ev m a h) by (intros; rewrite X3, OLD; auto).
  assert (Split : forall h, inH m3 h -> inH m h \/ exists i, 0 <= i < k /\ h = n0 + i).
  { intros h Hh. apply H3 in Hh. destruct (Z_lt_ge_dec h n0) as [L|L]; [left; unfold inH; fold n0; lia|right; exists (h - n0); lia]. }
  assert (Inl : forall i, 0 <= i < k -> inH m (getZ l i) /\ ev m AFace (getZ l i) = f) by (intros i Hi; apply Ml, In_getZ; exists i; auto).
  assert (New3 : forall i, 0 <= i < k -> ev m3 AVert (n0 + i) = ev m AVert (getZ l i) /\ ev m3 AEdge (n0 + i) = ev m AEdge (getZ l i) /\
    ev m3 AOri (n0 + i) = ev m AOri (getZ l i) /\ ev m3 AFace (n0 + i) = nF) by (intros i Hi; rewrite !X3 by discriminate; apply NEW; auto).
  assert (O3 : forall h, inH m h -> inH m3 h) by (intros h Hh; apply H3; unfold inH in Hh; fold n0 in Hh; lia).
  assert (N3 : forall i, 0 <= i < k -> inH m3 (n0 + i)) by (intros i Hi; apply H3; lia).
  assert (Fl : gHeFill m3 = n0 + k /\ gVFill m3 = gVFill m /\ gEFill m3 = gEFill m /\ gFFill m3 = nF + 1) by (unfold m3; cbn [gHeFill gVFill gEFill gFFill wA setA]; auto).
  destruct Fl as (L1 & L2 & L3 & L4).
  assert (FO : forall h, inH m h -> ev m3 AFace h = ev m AFace h /\ ev m AFace h < nF) by (intros h Hh; split; [apply Old3; try discriminate; exact Hh|apply (gv_face m V); auto]).
  assert (RN : Ring (n0 + k) (ev m3 ANext) (ev m3 AFace)).
  { split.
    - intros h Hh. apply H3 in Hh. rewrite <- H3. destruct (Split h Hh) as [Ho|(i & Hi & ->)].
      + rewrite NxO by auto. assert (Hn : inH m (ev m ANext h)) by (apply (ring_in _ _ _ (gv_next m V)); auto). split; [auto|]. rewrite (proj1 (FO _ Ho)), (proj1 (FO _ Hn)). apply (ring_key _ _ _ (gv_next m V)); auto.
      + rewrite NxN by auto. set (j := if i + 1 <? k then i + 1 else 0). assert (Hj : 0 <= j < k) by (unfold j; destruct (Z.ltb_spec (i + 1) k); lia).
        split; [auto|]. destruct (New3 i Hi) as (_ & _ & _ & ->). destruct (New3 j Hj) as (_ & _ & _ & ->). reflexivity.
    - intros a b Ha Hb E. apply H3 in Ha, Hb. destruct (Split a Ha) as [Hao|(i & Hi & ->)]; destruct (Split b Hb) as [Hbo|(j & Hj & ->)].
      + rewrite (proj1 (FO _ Hao)), (proj1 (FO _ Hbo)) in E. destruct (proj2 (gv_next m V) a b Hao Hbo E) as [q Hq]. exists q. rewrite <- Hq.
        assert (G : forall q, Nat.iter q (ev m3 ANext) a = Nat.iter q (ev m ANext) a /\ inH m (Nat.iter q (ev m ANext) a)).
        { induction q0 as [|q0 [I1 I2]]; [simpl; auto|]. simpl. rewrite I1, NxO by auto. split; auto. apply (ring_in _ _ _ (gv_next m V)); auto. }
        apply G.
      + destruct (FO _ Hao). destruct (New3 j Hj) as (_ & _ & _ & Q). lia.
      + destruct (FO _ Hbo). destruct (New3 i Hi) as (_ & _ & _ & Q). lia.
      + assert (Up : forall x, n0 <= x < n0 + k - 1 -> ev m3 ANext x = x + 1).
        { intros x Hx. replace x with (n0 + (x - n0)) at 1 by lia. rewrite NxN by lia. rewrite (proj2 (Z.ltb_lt _ _)) by lia. lia. }
        apply reach_trans with (n0 + k - 1); [apply (reach_run _ n0 (n0 + k - 1)); auto; lia|].
        apply reach_trans with n0; [|apply (reach_run _ n0 (n0 + k - 1)); auto; lia].
        exists 1%nat. simpl. rewrite Nx3, Z.eqb_refl. reflexivity. }
  assert (Fn : ev m3 AFHe nF = n0) by (rewrite X3 by discriminate; apply FST; auto).
  assert (Hn0 : inH m3 n0) by (apply H3; lia).
  assert (Fn0 : ev m3 AFace n0 = nF) by (destruct (New3 0 ltac:(lia)) as (_ & _ & _ & Q); rewrite Z.add_0_r in Q; exact Q).
  destruct (faceHes_chain m3 nF F3) as (l' & El' & ND' & Ml' & _); [rewrite L1; exact RN|lia|rewrite Fn; auto|rewrite Fn; auto|].
  rewrite El'. cbn [bind].
  assert (En3 : Ends m3).
  { intros h Hh. rewrite L2. destruct (Split h Hh) as [Ho|(i & Hi & ->)].
    - rewrite NxO by auto. rewrite Old3 by (try discriminate; exact Ho). destruct (valid_ends m V h Ho). auto.
    - rewrite NxN by auto. split; [apply N3; destruct (Z.ltb_spec (i + 1) k); lia|]. destruct (New3 i Hi) as (-> & _). apply (gv_tail m V), Inl; auto. }
  assert (TlO : forall h, inH m h -> gTailOf m3 h = gTailOf m h) by (intros h Hh; apply Old3; try discriminate; exact Hh).
  assert (TpO : forall h, inH m h -> gTipOf m3 h = gTipOf m h).
  { intros h Hh. unfold gTipOf. rewrite NxO by auto. apply TlO. apply (ring_in _ _ _ (gv_next m V)); auto. }
  assert (LO3 : Lists (inH m) m3).
  { destruct (valid_lists m V) as [LO LI]. split; unfold outA, inA, NbrA in *; rewrite L2.
    - refine (nbr_ext _ _ _ _ _ _ _ _ _ _ _ (fun h => iff_refl _) _ _ _ _ LO); intros x Hx; symmetry; first [apply TlO; exact Hx|apply Old3; [discriminate|discriminate|exact Hx]].
    - refine (nbr_ext _ _ _ _ _ _ _ _ _ _ _ (fun h => iff_refl _) _ _ _ _ LI); intros x Hx; symmetry; first [apply TpO; exact Hx|apply Old3; [discriminate|discriminate|exact Hx]]. }
  destruct (addAll_ok l' m3 (inH m) F3 En3 O3 LO3 ND') as (m4 & -> & S4 & LL).
  { intros h I. apply Ml' in I as [I1 I2]. split; auto. intros Ho. destruct (FO h Ho). lia. }
  cbn [bind].
  assert (X4 : forall a h, ~ In a listArrs -> ev m4 a h = ev m3 a h) by (intros a h Q; apply (sameBut_ev _ _ _ _ _ S4 Q)).
  pose proof (Fits_same _ _ _ S4 F3) as F4. pose proof (Ends_same _ _ _ S4 ltac:(notin) ltac:(notin) En3) as En4.
  assert (H4 : forall h, inH m4 h <-> inH m3 h) by (intros h; apply (inH_same _ _ _ _ S4)).
  assert (M4 : gHeFill m4 = n0 + k /\ gVFill m4 = gVFill m /\ gEFill m4 = gEFill m /\ gFFill m4 = nF + 1).
  { pose proof (sameBut_fill _ _ _ THe S4) as Q1. pose proof (sameBut_fill _ _ _ TVe S4) as Q2. pose proof (sameBut_fill _ _ _ TEd S4) as Q3. pose proof (sameBut_fill _ _ _ TFc S4) as Q4. cbn [gFill] in Q1, Q2, Q3, Q4. lia. }
  destruct M4 as (M1 & M2 & M3 & M4).
  assert (Cn : gHe m4 = gHe m + k /\ gInt m4 = gInt m /\ gEd m4 = gEd m /\ gVe m4 = gVe m /\ gFc m4 = gFc m + 1).
  { destruct S4 as (Fr & _). unfold frame in Fr. inversion Fr as [[E1 E2 E3 E4 E5 E6 E7 E8 E9 E10 E11 E12 E13]]. rewrite E1, E2, E3, E4, E5. unfold m3. cbn [gHe gInt gEd gVe gFc wA setA]. auto. }
  destruct Cn as (Cn1 & Cn2 & Cn3 & Cn4 & Cn5).
  exists m4, nF, (fun h => n0 + posOf l h). split; [reflexivity|]. split; [|split; [exact Cn2|]].
  - constructor.
    + auto.
    + fold n0. lia.
    + intros h Hh Eh. assert (I : In h l) by (apply Ml; auto). destruct (posOf_ok l h I) as [P1 P2]. fold k in P1. fold n0. split; [lia|].
      destruct (New3 (posOf l h) P1) as (Q1 & Q2 & Q3 & Q4). rewrite P2 in Q1, Q2, Q3. unfold gTailOf, gTipOf. rewrite !X4 by notin. rewrite NxN by auto.
      pose proof (chain_getZ _ _ _ _ (posOf l h) Ch P1) as Cg. rewrite P2 in Cg. fold k in Cg.
      assert (In' : In (ev m ANext h) l) by (apply Ml; split; [apply (ring_in _ _ _ (gv_next m V)); auto|rewrite <- Eh; apply (ring_key _ _ _ (gv_next m V)); auto]).
      destruct (posOf_ok l _ In') as [P3 P4]. fold k in P3.
      set (j := if posOf l h + 1 <? k then posOf l h + 1 else 0). assert (Hj : 0 <= j < k) by (unfold j; destruct (Z.ltb_spec (posOf l h + 1) k); lia).
      assert (Gj : getZ l j = ev m ANext h).
      { rewrite Cg. unfold j. destruct (_ <? _); auto. destruct l as [|y l0]; [congruence|]. destruct Ch as [-> _]. reflexivity. }
      assert (Ej : posOf l (ev m ANext h) = j) by (apply (getZ_inj l); auto; congruence).
      destruct (New3 j Hj) as (R1 & _). rewrite Ej, R1, Gj. auto 8.
    + intros n Hn. fold n0 in Hn. rewrite M1 in Hn. exists (getZ l (n - n0)). destruct (Inl (n - n0) ltac:(lia)) as [A1 A2]. split; auto. split; auto.
      assert (I : In (getZ l (n - n0)) l) by (apply In_getZ; exists (n - n0); fold k; split; [lia|reflexivity]). destruct (posOf_ok l _ I) as [P1 P2]. apply (getZ_inj l) in P2; auto; fold k; lia.
    + intros a b Ha Hb Ea Eb Q. assert (Q' : posOf l a = posOf l b) by lia.
      rewrite <- (proj2 (posOf_ok l a ltac:(apply Ml; auto))), <- (proj2 (posOf_ok l b ltac:(apply Ml; auto))). congruence.
    + intros p h Hp Hh. rewrite X4 by (intros I; simpl in Hp, I; intuition congruence).
      destruct (arr_eqb p ANext) eqn:Q; [apply arr_eqb_eq in Q; subst p; apply NxO; exact Hh|]. apply Old3; auto; intros ->; [|discriminate]. simpl in Hp. intuition discriminate.
  - set (m5 := withInterior m4 (gHeFill m4)).
    assert (X5 : forall a h, ev m5 a h = ev m4 a h) by reflexivity.
    assert (A5 : forall a h, ~ In a listArrs -> ev m5 a h = ev m3 a h) by (intros a h Q; rewrite X5; auto).
    assert (H5 : forall h, inH m5 h <-> inH m3 h) by exact H4.
    assert (L5 : gHeFill m5 = n0 + k /\ gVFill m5 = gVFill m /\ gEFill m5 = gEFill m /\ gFFill m5 = nF + 1) by auto. destruct L5 as (L51 & L52 & L53 & L54).
    assert (Cnt5 : gHe m5 = gHeFill m5 /\ gInt m5 = gHeFill m5 /\ gEd m5 = gEFill m5 /\ gVe m5 = gVFill m5 /\ gFc m5 = gFFill m5).
    { pose proof (gv_count m V) as (Q1 & Q2 & Q3 & Q4 & Q5). rewrite L51, L52, L53, L54. unfold m5, withInterior. cbn [gHe gInt gEd gVe gFc].
      unfold n0, nF in *. clear - Q1 Q2 Q3 Q4 Q5 Cn1 Cn2 Cn3 Cn4 Cn5 M1. lia. }
    assert (F5 : Fits m5) by exact F4.
    assert (En5 : Ends m5) by exact En4.
    assert (LL5 : Lists (inH m5) m5).
    { change (Lists (inH m4) m4). eapply Lists_iff; [|exact LL]. intros h. cbv beta. rewrite H4. split.
      - intros Hh. destruct (Split h Hh) as [Ho|(i & Hi & ->)]; [auto|right]. apply Ml'. split; auto. apply New3; auto.
      - intros [Ho|I]; auto. apply Ml' in I. tauto. }
    clearbody m5. clear LL S4 X4 F4 En4 H4 El' ND'.
    apply valid_from; auto.
    + intros h Hh. apply H5 in Hh. rewrite A5 by notin. rewrite L54. destruct (Split h Hh) as [Ho|(i & Hi & ->)]; [rewrite (proj1 (FO h Ho)); pose proof (gv_face m V h Ho); fold nF in H; lia|].
      destruct (New3 i Hi) as (_ & _ & _ & ->). unfold nF in *. lia.
    + intros h Hh. apply H5 in Hh. rewrite A5 by notin. rewrite L53. destruct (Split h Hh) as [Ho|(i & Hi & ->)]; [rewrite Old3 by (try discriminate; exact Ho); apply (gv_edge m V); auto|].
      destruct (New3 i Hi) as (_ & -> & _). apply (gv_edge m V), Inl; auto.
    + intros v Hv. rewrite L52 in Hv. rewrite !A5 by notin. destruct (gv_vhe m V v Hv) as [A1 A2]. rewrite H5. rewrite (Old3 AVHe) by (try discriminate; exact Hv). rewrite Old3 by (try discriminate; exact A1). auto.
    + intros g Hg. rewrite L54 in Hg. rewrite !A5 by notin. rewrite H5. destruct (Z.eq_dec g nF) as [-> | Q]; [rewrite Fn; auto|].
      assert (Hg' : 0 <= g < gFFill m) by (fold nF; lia). destruct (gv_fhe m V g Hg') as [A1 A2]. rewrite (Old3 AFHe) by (try discriminate; exact Hg'). rewrite Old3 by (try discriminate; exact A1). auto.
    + intros g Hg. rewrite L53 in Hg. rewrite !A5 by notin. rewrite H5. destruct (gv_ehe m V g Hg) as [A1 A2]. rewrite (Old3 AEHe) by (try discriminate; exact Hg). rewrite Old3 by (try discriminate; exact A1). auto.
    + rewrite L51. apply (ringOn_ext (fun h => 0 <= h < n0 + k) (fun h => 0 <= h < n0 + k) (ev m3 ANext) _ (ev m3 AFace) _); [reflexivity|intros h _; symmetry; apply A5; notin|intros h _; symmetry; apply A5; notin|exact RN].
    + rewrite L51. apply (ringOn_ext (inH m2) (fun h => 0 <= h < n0 + k) (ev m2 ASib) _ (ev m2 AEdge) _); [intros h; unfold inH; rewrite HE; reflexivity| | |apply (nb_ring _ _ _ _ _ _ B)];
        intros h _; symmetry; rewrite A5 by notin; apply X3; discriminate.
    + intros h Hh. apply H5 in Hh. rewrite A5 by notin. destruct (Split h Hh) as [Ho|(i & Hi & ->)]; [rewrite Old3 by (try discriminate; exact Ho); apply (gv_bit m V); auto|].
      destruct (New3 i Hi) as (_ & _ & -> & _). apply (gv_bit m V), Inl; auto.
    + assert (Rep : forall h, inH m5 h -> exists g, inH m g /\ ev m5 AEdge h = ev m AEdge g /\ ev m5 AOri h = ev m AOri g /\ gTailOf m5 h = gTailOf m g /\ gTipOf m5 h = gTipOf m g).
      { intros h Hh. apply H5 in Hh. unfold gTailOf, gTipOf. rewrite !A5 by notin. destruct (Split h Hh) as [Ho|(i & Hi & ->)].
        - exists h. split; auto. rewrite !(Old3 AEdge), !(Old3 AOri) by (try discriminate; exact Ho). split; auto. split; auto. split; [apply TlO; auto|apply TpO; auto].
        - exists (getZ l i). destruct (New3 i Hi) as (Q1 & Q2 & Q3 & _). split; [apply Inl; auto|]. split; auto. split; auto. split; auto.
          rewrite NxN by auto. set (j := if i + 1 <? k then i + 1 else 0). assert (Hj : 0 <= j < k) by (unfold j; destruct (Z.ltb_spec (i + 1) k); lia).
          destruct (New3 j Hj) as (-> & _). f_equal. rewrite (chain_getZ _ _ _ _ i Ch Hi). fold k. unfold j. destruct (_ <? _); auto. destruct l as [|y l0]; [congruence|]. destruct Ch as [-> _]. reflexivity. }
      intros a b Ha Hb E. destruct (Rep a Ha) as (a0 & A1 & A2 & -> & -> & ->). destruct (Rep b Hb) as (b0 & B1 & B2 & -> & -> & ->). apply (gv_ori m V); auto. congruence.
Qed.

Lemma duplicate_count m f m' nf : GValid m -> 0 <= f < gFFill m -> gDuplicateFace m f = Ok (m', nf) -> gInt m' < gHeFill m' /\ ~ GValid m'.
Proof.
  intros V Hf E. destruct (duplicate_ok m f V Hf) as (m1 & nf1 & copy & E1 & D & I & _). rewrite E in E1. injection E1 as <- <-.
  destruct (gv_fhe _ V f Hf) as [A B]. destruct (dp_copy _ _ _ _ _ D _ A B) as [C _]. destruct (gv_count _ V) as (_ & C2 & _).
  assert (L : gInt m' < gHeFill m') by lia. split; [exact L|]. intros V'. destruct (gv_count _ V') as (_ & C3 & _). lia.
Qed.
