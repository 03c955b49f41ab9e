(** Rejected inputs, circulators, and the face list *)
From Verif Require Import Base MeshModel MeshSpec MeshBase MeshOrbit BuildList GenModel GenSpec GenBase GenBuild1 GenBuild2 GenBuild3 GenBuild4 GenBuild5.
From Coq Require Import Permutation.
Open Scope Z_scope.

Lemma build_reject order polys : Forall (fun v => 0 <= v) (concat polys) -> ~ accepted polys -> gBuild order polys = Throw.
Proof.
  intros NN NA. unfold gBuild. rewrite checkDegrees. destruct (forallb (fun p => 3 <=? zlen p) polys) eqn:E; [|reflexivity]. cbn [bind].
  assert (D3 : Forall (fun p => (3 <= length p)%nat) polys).
  { apply Forall_forall. intros p Hp. rewrite forallb_forall in E. specialize (E p Hp). unfold zlen in E. lia. }
  destruct (pass1_ok polys D3 NN) as (m1 & used & -> & Q1). cbn [bind]. cbn zeta in Q1. pose proof (maxIndex_0 polys) as M0.
  destruct (r_used _ _ _ _ _ (q_pre _ _ _ _ _ Q1)) as [U1 U2]. rewrite checkUsed by lia.
  destruct (forallb (fun v => negb (getZ used v =? 0)) (zseq (gMaxIndex polys + 1))) eqn:E2; [|reflexivity]. exfalso. apply NA. split; auto.
  change (forall v, 0 <= v <= gMaxIndex polys -> In v (concat polys)). intros v Hv. rewrite forallb_forall in E2.
  specialize (E2 v ltac:(apply zseq_In; lia)). apply U2; lia.
Qed.

(** ** circulators *)
Lemma ring_cycle n f key s : Ring n f key -> 0 <= s < n ->
  exists l, l <> [] /\ chain f s l s /\ NoDup l /\ (forall x, In x l <-> 0 <= x < n /\ key x = key s) /\ Z.of_nat (length l) <= n /\ ~ In s (tl l).
Proof.
  intros R Hs. destruct (orbit_list (fun h => 0 <= h < n) f (ring_in n f key R) n (fun a H => H) (ring_inj n f key R) s Hs) as (l & L1 & L2 & L3 & L4 & L5 & L6).
  exists l. split; auto. split; auto. split; auto. split; [|split; auto].
  - intros x. rewrite L4. split.
    + intros (k & <-). apply ring_iter; auto.
    + intros [Hx K]. apply (proj2 R); auto.
  - destruct l as [|y l]; [congruence|]. simpl in L2. destruct L2 as [-> _]. simpl. apply NoDup_cons_iff in L3. tauto.
Qed.
Section Circ.
Context (m : gmesh) (V : GValid m).
Lemma lenH a : typeOf a = THe -> gHeFill m <= zlen (ga m a).
Proof. intros T. rewrite (gv_len m V), T. apply (gv_fill m V THe). Qed.
Lemma lenV a : typeOf a = TVe -> gVFill m <= zlen (ga m a).
Proof. intros T. rewrite (gv_len m V), T. apply (gv_fill m V TVe). Qed.
Lemma circ a key s : typeOf a = THe -> Ring (gHeFill m) (ev m a) key -> inH m s ->
  exists l, orbit_loop (gFuel m) (rdA m a) s s = Ok l /\ NoDup l /\ forall x, In x l <-> inH m x /\ key x = key s.
Proof.
  intros T R Hs. destruct (ring_cycle _ _ _ s R Hs) as (l & L1 & L2 & L3 & L4 & L5 & L6). exists l. split; [|auto].
  apply orbit_loop_chain with (ev m a); auto.
  - intros x Hx. apply rdA_ok. apply L4 in Hx as [Hx _]. pose proof (lenH a T). lia.
  - unfold gFuel. lia.
Qed.
Lemma faceHes_ok f : 0 <= f < gFFill m -> exists l, gFaceHes m f = Ok l /\ NoDup l /\ forall h, In h l <-> inH m h /\ ev m AFace h = f.
Proof.
  intros H. destruct (gv_fhe m V f H) as [A B]. destruct (circ ANext _ _ eq_refl (gv_next m V) A) as (l & L1 & L2 & L3). rewrite B in L3. exists l.
  unfold gFaceHes. rewrite rdA_ok by (rewrite (gv_len m V); pose proof (gv_fill m V TFc); cbn [typeOf gFill gCap] in *; lia). auto.
Qed.
Lemma edgeHes_ok e : 0 <= e < gEFill m -> exists l, gEdgeHes m e = Ok l /\ NoDup l /\ forall h, In h l <-> inH m h /\ ev m AEdge h = e.
Proof.
  intros H. destruct (gv_ehe m V e H) as [A B]. destruct (circ ASib _ _ eq_refl (gv_sib m V) A) as (l & L1 & L2 & L3). rewrite B in L3. exists l.
  unfold gEdgeHes. rewrite rdA_ok by (rewrite (gv_len m V); pose proof (gv_fill m V TEd); cbn [typeOf gFill gCap] in *; lia). auto.
Qed.
Lemma outHes_ok v : 0 <= v < gVFill m -> exists l, gOutHes m v = Ok l /\ NoDup l /\ forall h, In h l <-> inH m h /\ gTailOf m h = v.
Proof.
  intros H. destruct (gv_vhe m V v H) as [A B]. destruct (circ AOutN _ _ eq_refl (gv_out m V) A) as (l & L1 & L2 & L3).
  change (gTailOf m (ev m AVHe v)) with (ev m AVert (ev m AVHe v)) in L3. rewrite B in L3. exists l.
  unfold gOutHes. rewrite rdA_ok by (pose proof (lenV AVHe eq_refl); lia). auto.
Qed.
Lemma gPrev_ok h : inH m h -> exists p, gPrev m h = Ok p /\ inH m p /\ ev m ANext p = h.
Proof.
  intros H. destruct (ring_cycle _ _ _ h (gv_next m V) H) as (l & L1 & L2 & L3 & L4 & L5 & L6). unfold gPrev.
  assert (G : forall fuel l c, l <> [] -> chain (ev m ANext) c l h -> ~ In h (tl l) -> (forall x, In x l -> inH m x) -> (length l <= fuel)%nat ->
     exists p, gPrev_loop fuel m h c = Ok p /\ inH m p /\ ev m ANext p = h).
  { clear l L1 L2 L3 L4 L5 L6. induction fuel as [|k IH]; intros l c Hl C Hs Ha Hf; [destruct l; simpl in *; [congruence|lia]|].
    destruct l as [|x t]; [congruence|]. simpl in C. destruct C as (-> & C). simpl. assert (Ic : inH m c) by (apply Ha; left; auto).
    rewrite rdA_ok by (pose proof (lenH ANext eq_refl); red in Ic; lia). cbn [bind]. destruct (Z.eqb_spec (ev m ANext c) h) as [E|E]; [eauto|].
    destruct t as [|y t]; [simpl in C; congruence|]. destruct C as [-> C]. apply (IH (ev m ANext c :: t)).
    - discriminate.
    - split; auto.
    - simpl in Hs. simpl. tauto.
    - intros z Hz. apply Ha. right. auto.
    - simpl in *. lia. }
  apply (G (gFuel m) l h); auto.
  - intros x Hx. apply L4 in Hx. apply Hx.
  - unfold gFuel. lia.
Qed.
Lemma inHes_ok v : 0 <= v < gVFill m -> exists l, gInHes m v = Ok l /\ NoDup l /\ forall h, In h l <-> inH m h /\ gTipOf m h = v.
Proof.
  intros H. destruct (gv_vhe m V v H) as [A B]. destruct (gPrev_ok _ A) as (p & P1 & P2 & P3).
  destruct (circ AInN _ _ eq_refl (gv_in m V) P2) as (l & L1 & L2 & L3).
  change (gTipOf m p) with (ev m AVert (ev m ANext p)) in L3. rewrite P3, B in L3. exists l.
  unfold gInHes. rewrite rdA_ok by (pose proof (lenV AVHe eq_refl); lia). cbn [bind]. rewrite P1. auto.
Qed.
Lemma gVertices_all : gVertices m = zseq (gVFill m).
Proof. apply live_all. intros i Hi. apply (gv_vhe m V i Hi). Qed.
Lemma gFaces_all : gFaces m = zseq (gFFill m).
Proof. apply live_all. intros i Hi. apply (gv_fhe m V i Hi). Qed.
Lemma gEdges_all : gEdges m = zseq (gEFill m).
Proof. apply live_all. intros i Hi. apply (gv_ehe m V i Hi). Qed.
Lemma vertexIndices_ok : exists l, gVertexIndices m = Ok l /\ gVFill m <= zlen l /\ forall v, 0 <= v < gVFill m -> getZ l v = v.
Proof.
  unfold gVertexIndices. rewrite gVertices_all. pose proof (gv_fill m V TVe) as F. cbn [gFill gCap] in F.
  assert (G : forall n, 0 <= n -> n <= gVFill m -> exists l, foldM (fun (st : list Z * Z) v => let (l, i) := st in let* l := wrZ l v i in Ok (l, i + 1)) (zseq n) (repeat 0 (Z.to_nat (gVCap m)), 0) = Ok (l, n) /\
     zlen l = gVCap m /\ forall v, 0 <= v < n -> getZ l v = v).
  { apply (Z_ind_nonneg (fun n => n <= gVFill m -> exists l, foldM (fun (st : list Z * Z) v => let (l, i) := st in let* l := wrZ l v i in Ok (l, i + 1)) (zseq n) (repeat 0 (Z.to_nat (gVCap m)), 0) = Ok (l, n) /\
     zlen l = gVCap m /\ forall v, 0 <= v < n -> getZ l v = v)).
    - intros _. eexists. split; [reflexivity|]. split; [unfold zlen; rewrite repeat_length; lia|]. intros; lia.
    - intros n Hn IH L. destruct (IH ltac:(lia)) as (l & E & I1 & I2). rewrite zseq_S by auto. rewrite foldM_app, E. cbn [bind foldM]. rewrite wrZ_ok by lia. cbn [bind].
      eexists. split; [reflexivity|]. rewrite zlen_updZ. split; auto. intros v Hv. rewrite getZ_updZ by lia. destruct (v =? n) eqn:Ev; [lia|]. apply I2. lia. }
  destruct (G (gVFill m) ltac:(lia) ltac:(lia)) as (l & -> & I1 & I2). cbn [bind]. exists l. split; auto. split; [lia|auto].
Qed.
End Circ.

(** ** the face list *)
Lemma chain_block f o d : 0 < d -> (forall j, 0 <= j < d -> f (o + j) = o + (j + 1) mod d) -> chain f o (map (fun j => o + j) (zseq d)) o.
Proof.
  intros Hd Hf. assert (G : forall n, 0 <= n -> n <= d -> chain f o (map (fun j => o + j) (zseq n)) (o + n mod d)).
  { apply (Z_ind_nonneg (fun n => n <= d -> chain f o (map (fun j => o + j) (zseq n)) (o + n mod d))).
    - intros _. rewrite Zmod_0_l. simpl. lia.
    - intros n Hn IH L. rewrite zseq_S by auto. rewrite map_app. apply chain_app. exists (o + n mod d). split; [apply IH; lia|].
      rewrite Z.mod_small by lia. simpl. split; auto. apply Hf. lia. }
  specialize (G d ltac:(lia) ltac:(lia)). rewrite Z_mod_same_full, Z.add_0_r in G. exact G.
Qed.
Lemma getZ_all l : map (getZ l) (zseq (zlen l)) = l.
Proof.
  unfold zseq, zlen. rewrite Nat2Z.id, map_map. apply nth_error_ext_len; [rewrite map_length, seq_length; reflexivity|].
  intros n Hn. rewrite map_length, seq_length in Hn. rewrite map_nth_error with (d := n) by (rewrite nth_error_nth' with (d := O) by (rewrite seq_length; auto); f_equal; apply seq_nth; auto).
  rewrite nth_error_nth' with (d := -1) by auto. f_equal. unfold getZ. destruct (Z.of_nat n <? 0) eqn:E; [lia|]. rewrite Nat2Z.id. reflexivity.
Qed.
Lemma mapM_all_ok {A B} (f : A -> res B) (g : A -> B) l : (forall x, In x l -> f x = Ok (g x)) -> mapM f l = Ok (map g l).
Proof. induction l as [|x l IH]; simpl; intros H; auto. rewrite H by auto. simpl. rewrite IH by auto. reflexivity. Qed.
Lemma faceVertexList_ok polys m : Built polys m -> Forall (fun p => (3 <= length p)%nat) polys -> gFaceVertexList m = Ok polys.
Proof.
  intros B D3. pose proof (bt_valid _ _ B) as V. destruct (bt_size _ _ B) as (S1 & S2 & S3 & _). unfold gFaceVertexList.
  destruct (vertexIndices_ok m V) as (ind & -> & I1 & I2). cbn [bind]. rewrite (gFaces_all m V), S3.
  unfold zseq. rewrite Nat2Z.id.
  assert (W : mapM (fun f => let* hs := gFaceHes m f in mapM (fun h => let* v := rdA m AVert h in rdZ ind v) hs) (map Z.of_nat (seq 0 (length polys))) =
    Ok (map (fun f => nth (Z.to_nat f) polys []) (map Z.of_nat (seq 0 (length polys))))).
  { apply mapM_all_ok. intros f Hf. apply in_map_iff in Hf as (k & <- & Hk). apply in_seq in Hk. rewrite Nat2Z.id.
    set (p := nth k polys []). assert (IP : In p polys) by (apply nth_In; lia). pose proof (proj1 (Forall_forall _ _) D3 p IP) as L. cbv beta in L.
    assert (LP : 3 <= zlen p) by (unfold zlen; lia).
    assert (CR : forall j, 0 <= j < zlen p -> Corner polys (offset polys k + j) k j) by (intros j Hj; split; [lia|]; split; [exact Hj|reflexivity]).
    assert (RG : forall j, 0 <= j < zlen p -> 0 <= offset polys k + j < gHeFill m) by (intros j Hj; rewrite S1; apply (corner_range _ _ _ _ (CR j Hj))).
    unfold gFaceHes. rewrite rdA_ok by (rewrite (gv_len m V); pose proof (gv_fill m V TFc); cbn [typeOf gFill gCap] in *; lia). cbn [bind].
    rewrite (bt_first _ _ B) by lia.
    rewrite (orbit_loop_chain (gFuel m) (rdA m ANext) (ev m ANext) _ _ (map (fun j => offset polys k + j) (zseq (zlen p)))).
    - cbn [bind]. rewrite (mapM_all_ok _ (fun h => getZ (nth k polys []) (h - offset polys k))).
      + f_equal. rewrite map_map. transitivity (map (getZ p) (zseq (zlen p))); [|apply getZ_all]. apply map_ext. intros j. f_equal. lia.
      + intros h Hh. apply in_map_iff in Hh as (j & <- & Hj). apply zseq_In in Hj. pose proof (RG j Hj) as R. pose proof (lenH m V AVert eq_refl).
        rewrite rdA_ok by lia. cbn [bind]. pose proof (gv_tail m V _ R) as TR. rewrite rdZ_ok by lia. rewrite I2 by auto. f_equal.
        destruct (bt_corner _ _ B _ _ _ (CR j Hj)) as [E _]. unfold gTailOf in E. rewrite E. f_equal. lia.
    - intros E. apply map_eq_nil in E. assert (In 0 (zseq (zlen p))) by (apply zseq_In; lia). rewrite E in H. exact H.
    - apply chain_block; [lia|]. intros j Hj. apply (bt_corner _ _ B _ _ _ (CR j Hj)).
    - assert (ND : NoDup (map (fun j => offset polys k + j) (zseq (zlen p)))).
      { apply FinFun.Injective_map_NoDup; [intros a b E; lia|apply zseq_NoDup]. }
      unfold zseq in *. destruct (Z.to_nat (zlen p)) eqn:En; [lia|]. simpl in *. apply NoDup_cons_iff in ND as [ND _]. rewrite Z.add_0_r in ND. exact ND.
    - intros x Hx. apply in_map_iff in Hx as (j & <- & Hj). apply zseq_In in Hj. pose proof (RG j Hj). pose proof (lenH m V ANext eq_refl). apply rdA_ok. lia.
    - rewrite map_length. pose proof (zseq_length (zlen p) ltac:(lia)). unfold gFuel. pose proof (RG (zlen p - 1) ltac:(lia)). pose proof (RG 0 ltac:(lia)). lia. }
  rewrite W. f_equal. rewrite map_map. apply nth_error_ext_len; [rewrite map_length, seq_length; reflexivity|].
  intros n Hn. rewrite map_length, seq_length in Hn. rewrite map_nth_error with (d := n) by (rewrite nth_error_nth' with (d := O) by (rewrite seq_length; auto); f_equal; apply seq_nth; auto).
  rewrite Nat2Z.id. symmetry. apply nth_error_nth'. auto.
Qed.

Lemma built_all order polys : (forall d, Permutation (order d) d) -> Forall (fun v => 0 <= v) (concat polys) -> accepted polys ->
  exists m, gBuild order polys = Ok m /\ GValid m /\ gComp m = true /\
    gHeFill m = zlen (concat polys) /\ gFFill m = Z.of_nat (length polys) /\ (forall v, 0 <= v < gVFill m <-> In v (concat polys)) /\
    (forall h f j, Corner polys h f j -> gTailOf m h = getZ (nth f polys []) j /\
       gTipOf m h = getZ (nth f polys []) ((j + 1) mod zlen (nth f polys [])) /\ ev m AFace h = Z.of_nat f) /\
    (forall a b, inH m a -> inH m b -> (ev m AEdge a = ev m AEdge b <-> sameEnds (gTailOf m a) (gTipOf m a) (gTailOf m b) (gTipOf m b))) /\
    (forall h, inH m h -> (ev m AOri h = 1 <-> gTailOf m h = gTailOf m (ev m AEHe (ev m AEdge h)))) /\
    gFaceVertexList m = Ok polys.
Proof.
  intros PM NN AC. destruct (build_ok order polys PM NN AC) as (m & E & B). exists m. split; auto. split; [exact (bt_valid _ _ B)|].
  destruct (bt_size _ _ B) as (S1 & S2 & S3 & S4). split; auto. split; auto. split; auto. split.
  { rewrite S2. intros v. split; [intros Hv; apply (proj2 AC); change (0 <= v <= gMaxIndex polys); lia|]. intros I. split; [exact (proj1 (Forall_forall _ _) NN v I)|].
    pose proof (maxIndex_le polys v I). lia. }
  split. { intros h f j C. destruct (bt_corner _ _ B h f j C) as (A1 & A2 & A3 & _). auto. }
  split; [exact (bt_edge _ _ B)|]. split; [|apply faceVertexList_ok; auto; apply AC].
  intros h Hh. rewrite (bt_ori _ _ B h Hh). destruct (_ =? _) eqn:X; lia.
Qed.
Lemma circulators_all m : GValid m ->
  (forall f, 0 <= f < gFFill m -> exists l, gFaceHes m f = Ok l /\ NoDup l /\ forall h, In h l <-> inH m h /\ ev m AFace h = f) /\
  (forall e, 0 <= e < gEFill m -> exists l, gEdgeHes m e = Ok l /\ NoDup l /\ forall h, In h l <-> inH m h /\ ev m AEdge h = e) /\
  (forall v, 0 <= v < gVFill m -> exists l, gOutHes m v = Ok l /\ NoDup l /\ forall h, In h l <-> inH m h /\ gTailOf m h = v) /\
  (forall v, 0 <= v < gVFill m -> exists l, gInHes m v = Ok l /\ NoDup l /\ forall h, In h l <-> inH m h /\ gTipOf m h = v).
Proof. intros V. split; [exact (faceHes_ok m V)|]. split; [exact (edgeHes_ok m V)|]. split; [exact (outHes_ok m V)|exact (inHes_ok m V)]. Qed.
