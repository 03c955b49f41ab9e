(** The constructor of the general mesh: the result *)
From Verif Require Import Base MeshModel MeshSpec MeshBase MeshOrbit BuildList GenModel GenSpec GenBase GenBuild1 GenBuild2 GenBuild3 GenBuild4.
From Coq Require Import Permutation.
Open Scope Z_scope.

Lemma nth_error_concat {A} (L : list (list A)) : forall f j, (f < length L)%nat -> (j < length (nth f L []))%nat ->
  nth_error (concat L) (length (concat (firstn f L)) + j) = nth_error (nth f L []) j.
Proof.
  induction L as [|l L IH]; intros f j Hf Hj; simpl in Hf; [lia|]. destruct f as [|f].
  - simpl in *. rewrite nth_error_app1 by auto. reflexivity.
  - simpl in *. rewrite app_length, <- Nat.add_assoc. rewrite nth_error_app2 by lia.
    replace (length l + (length (concat (firstn f L)) + j) - length l)%nat with (length (concat (firstn f L)) + j)%nat by lia. apply IH; auto. lia.
Qed.
Lemma nth_error_ext_len {A} (l1 l2 : list A) : length l1 = length l2 -> (forall n, (n < length l1)%nat -> nth_error l1 n = nth_error l2 n) -> l1 = l2.
Proof.
  revert l2. induction l1 as [|a l1 IH]; intros [|b l2] L H; simpl in L; try lia; auto. specialize (H O) as H0. simpl in H0. rewrite IH with l2; [|lia|].
  - f_equal. assert (Some a = Some b) by (apply H0; lia). congruence.
  - intros n Hn. apply (H (S n)). simpl. lia.
Qed.
Lemma getZ_nth_error l i x : 0 <= i -> nth_error l (Z.to_nat i) = Some x -> getZ l i = x.
Proof. intros H E. unfold getZ. destruct (i <? 0) eqn:E'; [lia|]. apply nth_error_nth. exact E. Qed.
Lemma getZ_concat P h f j : Corner P h f j -> getZ (concat P) h = getZ (nth f P []) j.
Proof.
  intros C. pose proof (corner_range _ _ _ _ C) as R. destruct C as (C1 & C2 & C3).
  assert (E : nth_error (concat P) (Z.to_nat h) = nth_error (nth f P []) (Z.to_nat j)).
  { rewrite <- nth_error_concat by (auto; unfold zlen in C2; lia). f_equal. subst h. unfold offset, zlen. lia. }
  destruct (nth_error (nth f P []) (Z.to_nat j)) as [x|] eqn:E'; [|apply nth_error_None in E'; unfold zlen in C2; lia].
  rewrite (getZ_nth_error _ _ _ (proj1 R) E), (getZ_nth_error _ _ _ (proj1 C2) E'). reflexivity.
Qed.
Lemma sides_length p : length (gSides p) = length p.
Proof. destruct p as [|x t]; [reflexivity|]. unfold gSides. rewrite combine_length, app_length. cbn [length]. lia. Qed.
Lemma nth_error_combine {A B} (l : list A) (l' : list B) i x y : nth_error l i = Some x -> nth_error l' i = Some y -> nth_error (combine l l') i = Some (x, y).
Proof. revert l' i. induction l as [|a l IH]; intros [|b l'] [|i] E1 E2; simpl in *; try discriminate; [congruence|apply IH; auto]. Qed.
Lemma sides_nth p j : 0 <= j < zlen p -> nth_error (gSides p) (Z.to_nat j) = Some (getZ p j, getZ p ((j + 1) mod zlen p)).
Proof.
  intros H. destruct p as [|x t]; [change (zlen []) with 0 in H; lia|]. unfold gSides.
  assert (G : forall l i, 0 <= i < zlen l -> nth_error l (Z.to_nat i) = Some (getZ l i)).
  { intros l i Hi. unfold getZ, zlen in *. destruct (i <? 0) eqn:E; [lia|]. apply nth_error_nth'. lia. }
  apply nth_error_combine; [apply G; auto|]. rewrite mod_succ by auto. rewrite zlen_cons in *. destruct (j =? zlen t + 1 - 1) eqn:E.
  - rewrite nth_error_app2 by (unfold zlen in *; lia). replace (Z.to_nat j - length t)%nat with O by (unfold zlen in *; lia). reflexivity.
  - rewrite nth_error_app1 by (unfold zlen in *; lia). rewrite G by lia. f_equal. symmetry. apply getZ_cons_S. lia.
Qed.
Lemma foldM_concat {A S B} (f : S -> A -> res S) (g : B -> list A) l s : foldM (fun s b => foldM f (g b) s) l s = foldM f (concat (map g l)) s.
Proof. revert s. induction l as [|b l IH]; intros s; simpl; auto. rewrite foldM_app. destruct (foldM f (g b) s); simpl; auto. Qed.
Lemma sides_all P T U : (forall h f j, Corner P h f j -> T h = getZ (nth f P []) j /\ U h = getZ (nth f P []) ((j + 1) mod zlen (nth f P []))) ->
  concat (map gSides P) = map (fun h => (T h, U h)) (zseq (zlen (concat P))).
Proof.
  intros H.
  assert (LF : forall f, length (concat (firstn f (map gSides P))) = length (concat (firstn f P))).
  { intros f. revert H. clear. intros _. revert f. induction P as [|p P IH]; intros [|f]; simpl; auto. rewrite !app_length, sides_length, IH. reflexivity. }
  assert (LC : length (concat (map gSides P)) = length (concat P)).
  { specialize (LF (length P)). rewrite firstn_all in LF. rewrite <- LF. f_equal. rewrite <- (map_length gSides P). rewrite firstn_all. reflexivity. }
  assert (LZ : length (map (fun h => (T h, U h)) (zseq (zlen (concat P)))) = length (concat P)).
  { rewrite map_length. pose proof (zseq_length (zlen (concat P)) (zlen_nonneg _)). unfold zlen in *. lia. }
  apply nth_error_ext_len; [lia|]. intros n Hn. rewrite LC in Hn.
  destruct (corner_exists P (Z.of_nat n)) as (f & j & C); [unfold zlen; lia|]. destruct (H _ _ _ C) as [H1 H2]. pose proof C as (C1 & C2 & C3).
  transitivity (Some (T (Z.of_nat n), U (Z.of_nat n))).
  - assert (W : nth f (map gSides P) [] = gSides (nth f P [])) by (rewrite <- (map_nth gSides P [] f); reflexivity).
    rewrite H1, H2, <- sides_nth by auto. rewrite <- W. rewrite <- nth_error_concat.
    + f_equal. rewrite LF. unfold offset, zlen in *. lia.
    + rewrite map_length. auto.
    + rewrite W, sides_length. unfold zlen in *. lia.
  - symmetry. apply (map_nth_error (fun h => (T h, U h))). unfold zseq. erewrite map_nth_error with (d := n); [reflexivity|].
    rewrite nth_error_nth' with (d := O) by (rewrite seq_length; unfold zlen; lia). f_equal. apply seq_nth. unfold zlen. lia.
Qed.

Lemma checkDegrees polys : foldM (fun (_ : unit) p => guard (3 <=? zlen p)) polys tt = if forallb (fun p => 3 <=? zlen p) polys then Ok tt else Throw.
Proof. induction polys as [|p polys IH]; simpl; auto. destruct (3 <=? zlen p); simpl; auto. Qed.
Lemma checkUsed used n : 0 <= n -> n <= zlen used ->
  foldM (fun (_ : unit) v => let* u := rdZ used v in guard (negb (u =? 0))) (zseq n) tt = if forallb (fun v => negb (getZ used v =? 0)) (zseq n) then Ok tt else Throw.
Proof.
  intros H. revert n H. apply (Z_ind_nonneg (fun n => n <= zlen used -> foldM (fun (_ : unit) v => let* u := rdZ used v in guard (negb (u =? 0))) (zseq n) tt
     = if forallb (fun v => negb (getZ used v =? 0)) (zseq n) then Ok tt else Throw)); [reflexivity|].
  intros n Hn IH L. rewrite zseq_S by auto. rewrite foldM_app, forallb_app, IH by lia. destruct (forallb _ (zseq n)); cbn [bind andb foldM]; auto.
  rewrite rdZ_ok by lia. cbn [bind forallb]. rewrite andb_true_r. destruct (getZ used n =? 0); reflexivity.
Qed.

(** what the constructor builds *)
Record Built (polys : list (list Z)) (m : gmesh) : Prop := {
  bt_valid : GValid m;
  bt_size : gHeFill m = zlen (concat polys) /\ gVFill m = gMaxIndex polys + 1 /\ gFFill m = Z.of_nat (length polys) /\ gComp m = true;
  bt_corner : forall h f j, Corner polys h f j -> gTailOf m h = getZ (nth f polys []) j /\
    gTipOf m h = getZ (nth f polys []) ((j + 1) mod zlen (nth f polys [])) /\ ev m AFace h = Z.of_nat f /\ ev m ANext h = offset polys f + (j + 1) mod zlen (nth f polys []);
  bt_first : forall f, (f < length polys)%nat -> ev m AFHe (Z.of_nat f) = offset polys f;
  bt_edge : forall a b, inH m a -> inH m b -> (ev m AEdge a = ev m AEdge b <-> sameEnds (gTailOf m a) (gTipOf m a) (gTailOf m b) (gTipOf m b));
  bt_ori : forall h, inH m h -> ev m AOri h = if gTailOf m h =? gTailOf m (ev m AEHe (ev m AEdge h)) then 1 else 0 }.

Lemma next_ring P (f : Z -> Z) (face : Z -> Z) :
  (forall h f' j, Corner P h f' j -> face h = Z.of_nat f' /\ f h = offset P f' + (j + 1) mod zlen (nth f' P [])) -> Ring (zlen (concat P)) f face.
Proof.
  intros H.
  assert (ST : forall h f' j, Corner P h f' j -> Corner P (f h) f' ((j + 1) mod zlen (nth f' P []))).
  { intros h f' j C. destruct (H h f' j C) as [_ ->]. destruct C as (C1 & C2 & C3). split; auto. split; auto. apply Z.mod_pos_bound. lia. }
  assert (IT : forall k h f' j, Corner P h f' j -> Corner P (Nat.iter k f h) f' ((j + Z.of_nat k) mod zlen (nth f' P []))).
  { induction k as [|k IH]; intros h f' j C.
    - simpl. rewrite Z.add_0_r, Z.mod_small by (apply C). auto.
    - change (Nat.iter (S k) f h) with (f (Nat.iter k f h)). specialize (ST _ _ _ (IH h f' j C)). rewrite Zplus_mod_idemp_l in ST.
      replace (j + Z.of_nat k + 1) with (j + Z.of_nat (S k)) in ST by lia. exact ST. }
  split.
  - intros h Hh. destruct (corner_exists P h Hh) as (f' & j & C). pose proof (ST _ _ _ C) as C'. split; [apply (corner_range _ _ _ _ C')|].
    rewrite (proj1 (H _ _ _ C)), (proj1 (H _ _ _ C')). reflexivity.
  - intros a b Ha Hb K. destruct (corner_exists P a Ha) as (f1 & j1 & C1). destruct (corner_exists P b Hb) as (f2 & j2 & C2).
    rewrite (proj1 (H _ _ _ C1)), (proj1 (H _ _ _ C2)) in K. assert (f1 = f2) by lia. subst f2.
    set (d := zlen (nth f1 P [])) in *. pose proof (proj1 (proj2 C1)) as B1. pose proof (proj1 (proj2 C2)) as B2. fold d in B1, B2.
    exists (Z.to_nat (j2 + d - j1)). pose proof (IT (Z.to_nat (j2 + d - j1)) a f1 j1 C1) as (_ & _ & E).
    fold d in E. rewrite Z2Nat.id in E by (clear - B1 B2; lia). replace (j1 + (j2 + d - j1)) with (j2 + 1 * d) in E by lia. rewrite Z_mod_plus_full, Z.mod_small in E by lia.
    rewrite E. symmetry. apply C2.
Qed.

Lemma build_ok order polys : (forall d, Permutation (order d) d) -> Forall (fun v => 0 <= v) (concat polys) -> accepted polys ->
  exists m, gBuild order polys = Ok m /\ Built polys m.
Proof.
  intros PM NN [D3 US].
  assert (US' : forall v, 0 <= v <= gMaxIndex polys -> In v (concat polys)) by exact US.
  unfold gBuild. rewrite checkDegrees.
  replace (forallb (fun p => 3 <=? zlen p) polys) with true.
  2:{ symmetry. apply forallb_forall. intros p Hp. pose proof (proj1 (Forall_forall _ _) D3 p Hp) as L. cbv beta in L. unfold zlen. lia. }
  cbn [bind]. destruct (pass1_ok polys D3 NN) as (m1 & used & -> & Q1). cbn [bind]. cbn zeta in Q1.
  pose proof (maxIndex_0 polys) as M0. set (nV := gMaxIndex polys + 1) in *. set (nF := Z.of_nat (length polys)) in *. set (N := zlen (concat polys)) in *.
  pose proof (q_pre _ _ _ _ _ Q1) as R1. destruct (r_used _ _ _ _ _ R1) as [U1 U2].
  rewrite checkUsed by lia.
  replace (forallb (fun v => negb (getZ used v =? 0)) (zseq nV)) with true.
  2:{ symmetry. apply forallb_forall. intros v Hv. apply zseq_In in Hv. assert (IV : In v (concat polys)) by (apply US'; unfold nV in Hv; lia). apply U2 in IV; auto. lia. }
  cbn [bind]. rewrite foldM_concat.
  destruct (r_n _ _ _ _ _ R1) as (N1 & N2 & N3). fold N in N1, N2, N3. pose proof (zlen_nonneg (concat polys)) as HN. fold N in HN.
  pose proof (next_ring polys (ev m1 ANext) (ev m1 AFace) (q_face _ _ _ _ _ Q1)) as NR. fold N in NR.
  set (T := fun h => gTailOf m1 h). set (U := fun h => gTipOf m1 h).
  assert (TU : forall h f j, Corner polys h f j -> T h = getZ (nth f polys []) j /\ U h = getZ (nth f polys []) ((j + 1) mod zlen (nth f polys []))).
  { intros h f j C. assert (TT : forall h f j, Corner polys h f j -> ev m1 AVert h = getZ (nth f polys []) j).
    { intros h' f' j' C'. rewrite (r_tail _ _ _ _ _ R1) by (apply (corner_range _ _ _ _ C')). apply getZ_concat. auto. }
    split; [apply TT; auto|]. unfold U, gTipOf. apply TT. rewrite (proj2 (q_face _ _ _ _ _ Q1 h f j C)). destruct C as (C1 & C2 & C3). split; auto. split; auto.
    apply Z.mod_pos_bound. lia. }
  rewrite (sides_all polys T U TU). fold N.
  destruct (r_ed _ _ _ _ _ R1) as (E1 & E2 & E3 & E4). destruct (r_v _ _ _ _ _ R1) as (V1 & V2 & V3 & V4). destruct (r_f _ _ _ _ _ R1) as (F1 & F2 & F3 & F4).
  destruct (pass2_ok T U N HN m1) as (m2 & d & -> & Q2); auto.
  { exact (r_he _ _ _ _ _ R1). } { split; [intros a Ta; destruct a; try discriminate Ta; cbn; congruence|cbn; lia]. }
  cbn [bind].
  destruct (complete_ok T U N m1 m2 d Q2 N1 (r_he _ _ _ _ _ R1) (order d) (PM d)) as (m3 & -> & SB & L3 & K3 & FR3). cbn [bind].
  destruct (s_cnt _ _ _ _ _ _ Q2 THe ltac:(discriminate)) as [CH1 CH2]. destruct (s_cnt _ _ _ _ _ _ Q2 TVe ltac:(discriminate)) as [CV1 CV2].
  destruct (s_cnt _ _ _ _ _ _ Q2 TFc ltac:(discriminate)) as [CF1 CF2]. cbn [gFill gCap] in CH1, CH2, CV1, CV2, CF1, CF2.
  destruct (s_num _ _ _ _ _ _ Q2) as (NM1 & NM2 & NM3 & NM4).
  injection FR3 as G1 G2 G3 G4 G5 G6 G7 G8 G9 G10 G11 G12 G13.
  assert (OLD : forall a i, a <> ASib -> a <> AEdge -> a <> AOri -> a <> AEHe -> ev m3 a i = ev m1 a i).
  { intros a i X1 X2 X3 X4. unfold ev. rewrite K3 by auto. rewrite (s_frame _ _ _ _ _ _ Q2) by auto. reflexivity. }
  destruct (r_he _ _ _ _ _ R1) as [S1 S2]. cbn [gFill gCap] in S1, S2.
  assert (LEN3 : forall a, typeOf a = THe -> zlen (ga m3 a) = gHeCap m1) by (intros a Ta; rewrite L3, (s_len _ _ _ _ _ _ Q2), S1 by auto; reflexivity).
  assert (TAIL : forall h, 0 <= h < N -> 0 <= T h < nV).
  { intros h Hh. unfold T, gTailOf. rewrite (r_tail _ _ _ _ _ R1) by auto. pose proof (getZ_In (concat polys) h Hh) as I. split; [exact (proj1 (Forall_forall _ _) NN _ I)|].
    pose proof (maxIndex_le polys _ I). unfold nV. lia. }
  assert (TU3 : forall h, gTailOf m3 h = T h /\ gTipOf m3 h = U h).
  { intros h. unfold T, U, gTipOf, gTailOf. rewrite !OLD by discriminate. auto. }
  assert (OUT : forall v, 0 <= v < nV -> exists h, 0 <= h < N /\ T h = v).
  { intros v Hv. assert (IV : In v (concat polys)) by (apply US'; unfold nV in Hv; lia). destruct (r_vhe _ _ _ _ _ R1 v IV) as [X1 X2]. eauto. }
  assert (INC : forall v, 0 <= v < nV -> exists h, 0 <= h < N /\ U h = v).
  { intros v Hv. destruct (OUT v Hv) as (h & H1 & H2). destruct (ring_back N _ _ NR h H1) as (p & P1 & P2 & _). exists p. split; auto. unfold U, gTipOf. rewrite P2. auto. }
  destruct (initNeighbors_ok m3 N nV) as (m4 & -> & FR4 & L4 & K4 & BO & BI); try lia.
  { intros h Hh. rewrite !OLD by discriminate. split; [apply (proj1 NR); auto|apply TAIL; auto]. }
  { rewrite LEN3 by reflexivity. lia. } { rewrite LEN3 by reflexivity. lia. }
  { intros v Hv. rewrite OLD by discriminate. apply (r_vhe _ _ _ _ _ R1). apply US'. unfold nV in Hv. lia. }
  { intros v Hv. destruct (OUT v Hv) as (h & X1 & X2). exists h. split; auto. change (gTailOf m3 h = v). rewrite (proj1 (TU3 h)). auto. }
  { intros v Hv. destruct (INC v Hv) as (h & X1 & X2). exists h. split; auto. rewrite (proj2 (TU3 h)). auto. }
  cbn [bind]. eexists. split; [reflexivity|].
  match goal with |- Built _ ?x => set (m := x) end.
  injection FR4 as J1 J2 J3 J4 J5 J6 J7 J8 J9 J10 J11 J12 J13.
  assert (OLD4 : forall a i, a <> ASib -> a <> AEdge -> a <> AOri -> a <> AEHe -> match a with AInN | AInP | AOutN | AOutP | AInS | AOutS => False | _ => True end -> ev m a i = ev m1 a i).
  { intros a i X1 X2 X3 X4 X5. rewrite <- OLD by auto. unfold ev. change (ga m a) with (ga m4 a). rewrite K4 by auto. reflexivity. }
  assert (TUm : forall h, gTailOf m h = T h /\ gTipOf m h = U h).
  { intros h. unfold T, U, gTipOf, gTailOf. rewrite !OLD4 by (auto; discriminate). auto. }
  assert (EDm : forall h, ev m AEdge h = ev m2 AEdge h) by (intros h; unfold ev; change (ga m AEdge) with (ga m4 AEdge); rewrite K4 by exact I; rewrite K3 by discriminate; reflexivity).
  assert (ORm : forall h, ev m AOri h = ev m2 AOri h) by (intros h; unfold ev; change (ga m AOri) with (ga m4 AOri); rewrite K4 by exact I; rewrite K3 by discriminate; reflexivity).
  assert (EHm : forall h, ev m AEHe h = ev m2 AEHe h) by (intros h; unfold ev; change (ga m AEHe) with (ga m4 AEHe); rewrite K4 by exact I; rewrite K3 by discriminate; reflexivity).
  assert (SBm : forall h, ev m ASib h = ev m3 ASib h) by (intros h; unfold ev; change (ga m ASib) with (ga m4 ASib); rewrite K4 by exact I; reflexivity).
  assert (HFm : gHeFill m = N) by (change (gHeFill m) with (gHeFill m4); congruence).
  assert (VFm : gVFill m = nV) by (change (gVFill m) with (gVFill m4); congruence).
  assert (FFm : gFFill m = nF) by (change (gFFill m) with (gFFill m4); congruence).
  assert (EFm : gEFill m = gEFill m2) by (change (gEFill m) with (gEFill m4); congruence).
  assert (KS : forall a b, 0 <= a < N -> 0 <= b < N -> (ev m AEdge a = ev m AEdge b <-> sameEnds (gTailOf m a) (gTipOf m a) (gTailOf m b) (gTipOf m b))).
  { intros a b Ha Hb. rewrite !EDm, !(proj1 (TUm _)), !(proj2 (TUm _)). rewrite (s_same _ _ _ _ _ _ Q2) by auto. apply Kt_ends. }
  destruct (s_szE _ _ _ _ _ _ Q2) as [SE1 SE2]. cbn [gFill gCap] in SE1, SE2.
  constructor.
  - constructor.
    + intros a. change (ga m a) with (ga m4 a). rewrite L4. change (gCap m) with (gCap m4).
      destruct a; cbn [typeOf gCap]; try (rewrite LEN3 by reflexivity); rewrite ?L3; rewrite ?(SE1 AEHe eq_refl); try (clear - J6 J7 J8 J9 J10 J11 J12 J13 G10 G11 G12 G13 CH2 CV2 CF2 V2 F2; lia);
        rewrite (s_frame _ _ _ _ _ _ Q2) by discriminate; clear - J6 J7 J8 J9 J10 J11 J12 J13 G10 G11 G12 G13 CH2 CV2 CF2 V2 F2 V4 F4; lia.
    + intros t. change (gFill m) with (gFill m4). change (gCap m) with (gCap m4). destruct t; cbn [gFill gCap]; clearbody nV nF N;
        clear - J6 J7 J8 J9 J10 J11 J12 J13 G6 G7 G8 G9 G10 G11 G12 G13 CH1 CH2 CV1 CV2 CF1 CF2 V1 V2 F1 F2 S2 SE2 Q1 R1 HN N1 U1 V4 F4; pose proof (zlen_nonneg used); pose proof (zlen_nonneg (ga m1 AFHe)); lia.
    + change (gHe m) with (gHe m4). change (gInt m) with (gInt m4). change (gEd m) with (gEd m4). change (gVe m) with (gVe m4). change (gFc m) with (gFc m4).
      pose proof (s_cntE _ _ _ _ _ _ Q2). rewrite HFm, VFm, FFm, EFm. repeat split; congruence.
    + intros h Hh. red in Hh. rewrite HFm in Hh. rewrite VFm. change (ev m AVert h) with (gTailOf m h). rewrite (proj1 (TUm h)). auto.
    + intros h Hh. red in Hh. rewrite HFm in Hh. rewrite FFm, OLD4 by (auto; discriminate). destruct (corner_exists polys h Hh) as (f & j & C).
      rewrite (proj1 (q_face _ _ _ _ _ Q1 h f j C)). destruct C as (C1 & _). unfold nF. lia.
    + intros h Hh. red in Hh. rewrite HFm in Hh. rewrite EDm, EFm. apply (s_edge _ _ _ _ _ _ Q2); auto.
    + intros v Hv. rewrite VFm in Hv. unfold inH. rewrite HFm. rewrite !OLD4 by (auto; discriminate). apply (r_vhe _ _ _ _ _ R1). apply US'. unfold nV in Hv. lia.
    + intros f Hf. rewrite FFm in Hf. unfold inH. rewrite HFm. rewrite !OLD4 by (auto; discriminate). replace f with (Z.of_nat (Z.to_nat f)) by lia.
      rewrite (q_fhe _ _ _ _ _ Q1) by (unfold nF in Hf; lia). assert (C : Corner polys (offset polys (Z.to_nat f)) (Z.to_nat f) 0).
      { split; [unfold nF in Hf; lia|]. split; [|lia]. split; [lia|]. assert (IP : In (nth (Z.to_nat f) polys []) polys) by (apply nth_In; unfold nF in Hf; lia).
        pose proof (proj1 (Forall_forall _ _) D3 _ IP) as L. cbv beta in L. unfold zlen. lia. }
      split; [apply (corner_range _ _ _ _ C)|]. apply (q_face _ _ _ _ _ Q1 _ _ _ C).
    + intros e He. rewrite EFm in He. unfold inH. rewrite HFm, EHm, EDm. apply (s_ehe _ _ _ _ _ _ Q2); auto.
    + rewrite HFm. apply ring_ext with (ev m1 ANext) (ev m1 AFace); auto; intros h Hh; symmetry; apply OLD4; auto; discriminate.
    + rewrite HFm. split.
      * intros h Hh. rewrite !SBm, !EDm. destruct (sib_in T U N _ SB h Hh) as [X1 X2]. split; auto. apply (s_same _ _ _ _ _ _ Q2); auto.
      * intros a b Ha Hb K. rewrite !EDm in K. apply (s_same _ _ _ _ _ _ Q2) in K; auto. destruct (sib_reach T U N HN _ SB a b Ha Hb K) as (k & Ek).
        exists k. rewrite <- Ek. clear - SBm. induction k as [|k IH]; simpl; auto. rewrite IH. apply SBm.
    + rewrite HFm. apply ring_ext with (ev m4 AOutN) (gTailOf m3); [reflexivity| |exact (b_ring _ _ _ _ _ _ _ _ BO)]. intros h _. rewrite (proj1 (TU3 h)), (proj1 (TUm h)). reflexivity.
    + rewrite HFm. apply ring_ext with (ev m4 AInN) (gTipOf m3); [reflexivity| |exact (b_ring _ _ _ _ _ _ _ _ BI)]. intros h _. rewrite (proj2 (TU3 h)), (proj2 (TUm h)). reflexivity.
    + intros h Hh. red in Hh. rewrite HFm in Hh. apply (b_prev _ _ _ _ _ _ _ _ BO); auto.
    + intros h Hh. red in Hh. rewrite HFm in Hh. apply (b_prev _ _ _ _ _ _ _ _ BI); auto.
    + intros v Hv. rewrite VFm in Hv. unfold inH. rewrite HFm. destruct (b_start _ _ _ _ _ _ _ _ BO v Hv) as [X1 X2]. change (ev m AOutS v) with (ev m4 AOutS v).
      split; auto. rewrite (proj1 (TUm _)), <- (proj1 (TU3 _)). auto.
    + intros v Hv. rewrite VFm in Hv. unfold inH. rewrite HFm. destruct (b_start _ _ _ _ _ _ _ _ BI v Hv) as [X1 X2]. change (ev m AInS v) with (ev m4 AInS v).
      split; auto. rewrite (proj2 (TUm _)), <- (proj2 (TU3 _)). auto.
    + intros h Hh. red in Hh. rewrite HFm in Hh. rewrite ORm, (s_ori _ _ _ _ _ _ Q2) by auto. destruct (_ =? _); auto.
    + intros a b Ha Hb K. red in Ha, Hb. rewrite HFm in Ha, Hb. rewrite !ORm, !(s_ori _ _ _ _ _ _ Q2) by auto. pose proof K as K'. rewrite !EDm in K'. rewrite <- K'.
      pose proof (s_edge _ _ _ _ _ _ Q2 a Ha) as XE. destruct (s_ehe _ _ _ _ _ _ Q2 _ XE) as [X1 X2]. set (e0 := ev m2 AEHe (ev m2 AEdge a)) in *.
      apply (s_same _ _ _ _ _ _ Q2) in X2; auto. apply Kt_ends in X2. apply KS in K; auto. rewrite !(proj1 (TUm _)), !(proj2 (TUm _)) in *.
      clear - K X2. unfold sameEnds in *. destruct (T a =? T e0) eqn:A1, (T b =? T e0) eqn:A2; simpl; lia.
  - rewrite HFm, VFm, FFm. auto.
  - intros h f j C. destruct (TU h f j C) as [X1 X2]. destruct (q_face _ _ _ _ _ Q1 h f j C) as [X3 X4]. rewrite (proj1 (TUm h)), (proj2 (TUm h)).
    rewrite !OLD4 by (auto; discriminate). auto.
  - intros f Hf. rewrite OLD4 by (auto; discriminate). apply (q_fhe _ _ _ _ _ Q1); auto.
  - intros a b Ha Hb. red in Ha, Hb. rewrite HFm in Ha, Hb. apply KS; auto.
  - intros h Hh. red in Hh. rewrite HFm in Hh. rewrite ORm, EHm, EDm, !(proj1 (TUm _)). apply (s_ori _ _ _ _ _ _ Q2); auto.
Qed.
