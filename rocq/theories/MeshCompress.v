(** SurfaceMesh::compress is a renumbering *)
From Verif Require Import Base MeshModel MeshCompressModel MeshSpec MeshBase MeshExec MeshOrbit MeshAlloc MeshFlip MeshInsert MeshOpSpec MeshIso.
Open Scope Z_scope.

(** ** lists *)
Lemma getZ_map f l i : 0 <= i < zlen l -> getZ (map f l) i = f (getZ l i).
Proof.
  intros H. unfold getZ, zlen in *. destruct (Z.ltb_spec i 0); [lia|].
  rewrite (nth_indep _ INVALID (f INVALID)) by (rewrite map_length; lia). apply map_nth.
Qed.
Lemma zlen_map f l : zlen (map f l) = zlen l.
Proof. unfold zlen. rewrite map_length. auto. Qed.
Lemma getZ_In l i : 0 <= i < zlen l -> In (getZ l i) l.
Proof. intros H. unfold getZ, zlen in *. destruct (Z.ltb_spec i 0); [lia|]. apply nth_In. lia. Qed.
Lemma getZ_app_l l l' i : i < zlen l -> getZ (l ++ l') i = getZ l i.
Proof. intros H. unfold getZ, zlen in *. destruct (Z.ltb_spec i 0); auto. apply app_nth1. lia. Qed.
Lemma getZ_app_r l l' i : 0 <= i -> getZ (l ++ l') (zlen l + i) = getZ l' i.
Proof.
  intros H. unfold getZ, zlen in *. destruct (Z.ltb_spec (Z.of_nat (length l) + i) 0), (Z.ltb_spec i 0); try lia.
  rewrite app_nth2 by lia. f_equal. lia.
Qed.
Lemma zlen_app l l' : zlen (l ++ l') = zlen l + zlen l'.
Proof. unfold zlen. rewrite app_length. lia. Qed.
Lemma getZ_repeat x n i : 0 <= i < n -> getZ (repeat x (Z.to_nat n)) i = x.
Proof. intros H. unfold getZ. destruct (Z.ltb_spec i 0); [lia|]. rewrite (nth_indep _ INVALID x) by (rewrite repeat_length; lia). apply nth_repeat. Qed.
Lemma zlen_repeat x n : 0 <= n -> zlen (repeat x (Z.to_nat n)) = n.
Proof. intros. unfold zlen. rewrite repeat_length. lia. Qed.
Lemma getZ_zseq n i : 0 <= i < n -> getZ (zseq n) i = i.
Proof.
  intros H. unfold getZ, zseq. destruct (Z.ltb_spec i 0); [lia|].
  rewrite (nth_indep _ INVALID (Z.of_nat 0)) by (rewrite map_length, seq_length; lia). rewrite map_nth, seq_nth by lia. lia.
Qed.
Lemma mapM_map {A B} (f : A -> res B) g l : (forall x, In x l -> f x = Ok (g x)) -> mapM f l = Ok (map g l).
Proof. induction l as [|a t IH]; intros H; cbn; auto. rewrite H by (left; auto). cbn. rewrite IH by (intros; apply H; right; auto). auto. Qed.

Lemma applyPerm_ok src l : (forall i, In i l -> 0 <= i < zlen src) -> applyPerm src l = Ok (map (getZ src) l).
Proof. intros H. apply mapM_map. intros i Hi. apply rdZ_ok. auto. Qed.
(** old-to-new on values *)
Definition ren (old : list Z) (x : Z) : Z := if x =? -1 then -1 else getZ old x.
Lemma updateValues_ok arr old : (forall x, In x arr -> x = -1 \/ 0 <= x < zlen old) -> updateValues arr old = Ok (map (ren old) arr).
Proof.
  intros H. apply mapM_map. intros x Hx. unfold ren. change INVALID with (-1). destruct (Z.eqb_spec x (-1)); [congruence|].
  apply rdZ_ok. destruct (H x Hx); [contradiction|auto].
Qed.

(** ** index maps *)
Definition sel (q : Z -> bool) (n : Z) : list Z := filter q (zseq n).
Lemma zlen_sel q n : zlen (sel q n) = countb q n.
Proof. reflexivity. Qed.
Lemma sel_S q n : 0 <= n -> sel q (n + 1) = sel q n ++ (if q n then [n] else []).
Proof. intros H. unfold sel. rewrite zseq_S, filter_app by auto. cbn. destruct (q n); auto. Qed.
Lemma sel_In q n i : In i (sel q n) <-> 0 <= i < n /\ q i = true.
Proof. unfold sel. rewrite filter_In, zseq_In. tauto. Qed.
Lemma countb_mono q a b : 0 <= a <= b -> countb q a <= countb q b.
Proof.
  intros [H1 H2]. replace b with (a + (b - a)) by lia. assert (H : 0 <= b - a) by lia. revert H. generalize (b - a). intros k Hk.
  pattern k. apply Z_ind_nonneg; [rewrite Z.add_0_r; lia| |exact Hk]. clear k Hk. intros k Hk IH. rewrite Z.add_assoc, countb_S by lia. destruct (q (a + k)); cbn [b2z]; lia.
Qed.
Lemma countb_lt q a b : 0 <= a < b -> q a = true -> countb q a < countb q b.
Proof. intros H Q. assert (K := countb_mono q (a + 1) b ltac:(lia)). rewrite countb_S, Q in K by lia. cbn [b2z] in K. lia. Qed.
Lemma getZ_sel q n i : 0 <= i < n -> q i = true -> getZ (sel q n) (countb q i) = i.
Proof.
  intros H Q. assert (Hn : 0 <= n) by lia. revert H. pattern n. apply Z_ind_nonneg; [lia| |exact Hn]. clear n Hn. intros n Hn IH H.
  rewrite sel_S by auto. destruct (Z.eq_dec i n) as [->|K].
  - rewrite Q. pose proof (getZ_app_r (sel q n) [n] 0 ltac:(lia)) as E. rewrite zlen_sel, Z.add_0_r in E. exact E.
  - rewrite getZ_app_l; [apply IH; lia|]. rewrite zlen_sel. apply countb_lt; auto; lia.
Qed.
Lemma sel_getZ q n k : 0 <= k < countb q n -> let i := getZ (sel q n) k in 0 <= i < n /\ q i = true /\ countb q i = k.
Proof.
  intros H i. assert (Hi : In i (sel q n)) by (apply getZ_In; rewrite zlen_sel; auto). apply sel_In in Hi as [H1 H2]. split; auto. split; auto.
  assert (Hn : 0 <= n) by lia. subst i. revert H H1 H2. pattern n. apply Z_ind_nonneg; [lia| |exact Hn]. clear n Hn. intros n Hn IH H H1 H2.
  rewrite sel_S in * by auto. rewrite countb_S in H by auto. destruct (Z_lt_le_dec k (countb q n)) as [K|K].
  - rewrite getZ_app_l in * by (rewrite zlen_sel; auto). assert (Hk : In (getZ (sel q n) k) (sel q n)) by (apply getZ_In; rewrite zlen_sel; lia). apply sel_In in Hk as [K1 K2]. apply IH; auto. lia.
  - destruct (q n) eqn:Q; cbn [b2z] in H; [|lia]. assert (k = countb q n) as -> by lia.
    pose proof (getZ_app_r (sel q n) [n] 0 ltac:(lia)) as E. rewrite zlen_sel, Z.add_0_r in E. rewrite E. reflexivity.
Qed.
Lemma indexMaps_ok use dead p n : 0 <= n -> (forall i, 0 <= i < n -> use i = true -> dead i = Ok (negb (p i))) ->
  let q i := use i && p i in
  exists old, indexMaps use dead n = Ok (old, sel q n) /\ zlen old = n /\ forall i, 0 <= i < n -> getZ old i = if q i then countb q i else -1.
Proof.
  intros Hn Hd q. unfold indexMaps.
  assert (X : forall k, 0 <= k -> k <= n -> exists old, foldM (fun (s : list Z * list Z) i => let (old, new) := s in
       if use i then let* d := dead i in if (d : bool) then Ok s else let* old := wrZ old i (zlen new) in Ok (old, new ++ [i]) else Ok s) (zseq k) (repeat INVALID (Z.to_nat n), [])
       = Ok (old, sel q k) /\ zlen old = n /\ (forall i, 0 <= i < k -> getZ old i = if q i then countb q i else -1) /\ (forall i, k <= i < n -> getZ old i = -1)).
  { intros k Hk. pattern k. apply Z_ind_nonneg; [| |exact Hk].
    - intros _. exists (repeat INVALID (Z.to_nat n)). split; [reflexivity|]. split; [apply zlen_repeat; auto|]. split; [lia|]. intros. apply getZ_repeat. lia.
    - clear k Hk. intros k Hk IH Hkn. destruct IH as (old & E & Z1 & G1 & G2); [lia|]. rewrite zseq_S by auto. rewrite foldM_snoc, E. cbn [bind].
      rewrite sel_S by auto. assert (Qk : q k = use k && p k) by reflexivity. rewrite Qk. destruct (use k) eqn:U; cbn [andb].
      + rewrite Hd by (auto; lia). cbn [bind]. destruct (p k) eqn:P; cbn [negb].
        * rewrite wrZ_ok by lia. cbn [bind]. eexists. split; [reflexivity|]. rewrite zlen_updZ. split; auto. split.
          -- intros i Hi. rewrite getZ_updZ by lia. destruct (Z.eqb_spec i k) as [->|]; [|apply G1; lia]. unfold q. rewrite U, P. cbn [andb]. apply zlen_sel.
          -- intros i Hi. rewrite getZ_updZ by lia. destruct (Z.eqb_spec i k); [lia|]. apply G2; lia.
        * exists old. rewrite app_nil_r. split; auto. split; auto. split; [|intros; apply G2; lia].
          intros i Hi. destruct (Z.eq_dec i k) as [->|]; [|apply G1; lia]. rewrite G2 by lia. unfold q. rewrite U, P. auto.
      + exists old. rewrite app_nil_r. split; auto. split; auto. split; [|intros; apply G2; lia].
        intros i Hi. destruct (Z.eq_dec i k) as [->|]; [|apply G1; lia]. rewrite G2 by lia. unfold q. rewrite U. auto. }
  destruct (X n Hn ltac:(lia)) as (old & E & Z1 & G1 & _). exists old. auto.
Qed.

(** counting through the selection *)
Lemma filter_filter p q (l : list Z) : (forall i, In i l -> p i = true -> q i = true) -> filter p (filter q l) = filter p l.
Proof.
  induction l as [|a t IH]; intros H; cbn; auto. assert (IH' : filter p (filter q t) = filter p t) by (apply IH; intros; apply H; auto; right; auto).
  destruct (q a) eqn:Q; cbn; rewrite IH'; auto. destruct (p a) eqn:P; auto. rewrite H in Q; auto; [discriminate|left; auto].
Qed.
Lemma filter_index p (l : list Z) : Z.of_nat (length (filter p l)) = countb (fun k => p (getZ l k)) (zlen l).
Proof.
  induction l as [|a t IH] using rev_ind; [reflexivity|]. rewrite filter_app, app_length, zlen_app. change (zlen [a]) with 1. rewrite countb_S by (apply zlen_nonneg).
  rewrite Nat2Z.inj_add, IH. f_equal.
  - apply countb_ext. intros k Hk. rewrite getZ_app_l by lia. auto.
  - pose proof (getZ_app_r t [a] 0 ltac:(lia)) as E. rewrite Z.add_0_r in E. rewrite E. cbn. destruct (p a); reflexivity.
Qed.
Lemma countb_sel p q n : (forall i, 0 <= i < n -> p i = true -> q i = true) -> countb p n = countb (fun k => p (getZ (sel q n) k)) (countb q n).
Proof.
  intros H. unfold countb at 1. rewrite <- (filter_filter p q) by (intros i Hi; apply zseq_In in Hi; auto). fold (sel q n). rewrite filter_index, zlen_sel. auto.
Qed.

Section Compress.
Context (m : mesh) (V : Valid m) (POS : 0 < heFill m) (NC : compressed m = false).
Let ST : Stored m := va_st _ V.
Let CT : Counted m := va_ct _ V.
Let CN : Connected m := va_cn _ V.
Let SL : Slots m := va_sl _ V.

Lemma liveHb_iff h : 0 <= h < heFill m -> (liveHb m h = true <-> liveH m h).
Proof. intros H. unfold liveHb, liveH. rewrite negb_true_iff, Z.eqb_neq. tauto. Qed.
Lemma liveVb_iff v : 0 <= v < vFill m -> (liveVb m v = true <-> liveV m v).
Proof. intros H. unfold liveVb, liveV. rewrite negb_true_iff, Z.eqb_neq. tauto. Qed.
Lemma liveFb_iff f : liveFb m f = true <-> fh m f <> -1.
Proof. unfold liveFb. rewrite negb_true_iff, Z.eqb_neq. tauto. Qed.

(** *** the two halves of an edge are renumbered together *)
Lemma liveHb_pair e : 0 <= e < eFill m -> liveHb m (2 * e + 1) = liveHb m (2 * e).
Proof.
  intros He. destruct (st_edge _ ST) as [E1 _]. apply eq_true_iff_eq. rewrite !liveHb_iff by lia.
  assert (T : tw (2 * e) = 2 * e + 1) by (apply tw_even; lia).
  split; intros K; apply (cn_tw _ CN) in K; [rewrite <- T, tw_tw in K|rewrite T in K]; exact K.
Qed.
Lemma newH_even e : 0 <= e -> e <= eFill m -> newH m (2 * e) = 2 * newE m e.
Proof.
  intros H. pattern e. apply Z_ind_nonneg; [reflexivity| |exact H]. clear e H. intros e H IH K.
  unfold newH, newE in *. replace (2 * (e + 1)) with (2 * e + 1 + 1) by lia. rewrite !countb_S, IH by lia. rewrite liveHb_pair by lia. lia.
Qed.
Lemma newH_eq h : liveH m h -> newH m h = 2 * newE m (h / 2) + h mod 2.
Proof.
  intros L. pose proof (proj1 L) as R. destruct (st_edge _ ST) as [E1 _]. assert (Hh : 0 <= h / 2 < eFill m) by lia.
  pose proof (newH_even (h / 2) ltac:(lia) ltac:(lia)) as K. assert (D : h = 2 * (h / 2) + h mod 2) by lia.
  destruct (Z.eq_dec (h mod 2) 0) as [Z0|Z1].
  - rewrite Z0, Z.add_0_r in *. rewrite D at 1. exact K.
  - assert (Z2 : h mod 2 = 1) by lia. rewrite Z2 in *. rewrite D at 1. unfold newH in *. rewrite countb_S, K by lia.
    rewrite <- liveHb_pair by lia. rewrite <- D. rewrite (proj2 (liveHb_iff h R) L). reflexivity.
Qed.
Lemma newH_tw h : liveH m h -> tw (newH m h) = newH m (tw h).
Proof.
  intros L. rewrite (newH_eq (tw h)) by (apply CN; auto). rewrite (newH_eq h) by auto. rewrite tw_mod.
  pose proof (tw_edge h) as K. unfold edge in K. rewrite K. unfold tw. lia.
Qed.
Lemma newH_edge h : liveH m h -> edge (newH m h) = newE m (edge h).
Proof. intros L. rewrite (newH_eq h) by auto. unfold edge. lia. Qed.
Lemma nH2 : nHalfedges m = 2 * nEdges m.
Proof.
  destruct (st_edge _ ST) as [E1 _]. pose proof (st_he _ ST). rewrite (ct_he _ CT), (ct_e _ CT), E1. apply newH_even; lia.
Qed.

(** *** faces and loops *)
Definition useF i := (i <? fFill m) || (fCap m - bFill m <=? i).
Definition qF i := useF i && liveFb m i.
Definition rF f := countb qF f.
Lemma rF_face f : f <= fFill m -> rF f = newF m f.
Proof. intros H. apply countb_ext. intros i Hi. unfold qF, useF. destruct (Z.ltb_spec i (fFill m)); [auto|lia]. Qed.
Lemma rF_gap k : 0 <= k -> k <= fCap m - bFill m - fFill m -> rF (fFill m + k) = nFaces m.
Proof.
  intros H. destruct (st_f _ ST) as (F1 & F2 & F3). pattern k. apply Z_ind_nonneg; [| |exact H].
  - intros _. rewrite Z.add_0_r, rF_face by lia. symmetry. apply (ct_f _ CT).
  - clear k H. intros k H IH K. unfold rF in *. rewrite Z.add_assoc, countb_S, IH by lia. unfold qF, useF.
    destruct (Z.ltb_spec (fFill m + k) (fFill m)); [lia|]. destruct (Z.leb_spec (fCap m - bFill m) (fFill m + k)); [lia|]. cbn. lia.
Qed.
Lemma rF_loop i : 0 <= i -> i <= bFill m -> rF (fCap m - i) = rF (fCap m) - newL m i.
Proof.
  intros H. destruct (st_f _ ST) as (F1 & F2 & F3). pattern i. apply Z_ind_nonneg; [| |exact H].
  - intros _. unfold newL. rewrite countb_0, Z.sub_0_r by lia. lia.
  - clear i H. intros i H IH K. unfold newL in *. rewrite countb_S by lia. unfold rF in *. specialize (IH ltac:(lia)).
    replace (fCap m - i) with (fCap m - (i + 1) + 1) in IH by lia. rewrite countb_S in IH by lia.
    replace (fCap m - 1 - i) with (fCap m - (i + 1)) by lia. unfold qF at 2, useF in IH.
    destruct (Z.leb_spec (fCap m - bFill m) (fCap m - (i + 1))); [|lia]. rewrite orb_true_r in IH. cbn [andb] in IH. lia.
Qed.
Lemma rF_total : rF (fCap m) = nFaces m + nLoops m.
Proof.
  destruct (st_f _ ST) as (F1 & F2 & F3). pose proof (rF_loop (bFill m) F2 ltac:(lia)) as K.
  pose proof (rF_gap (fCap m - bFill m - fFill m) ltac:(lia) ltac:(lia)) as K2. replace (fFill m + _) with (fCap m - bFill m) in K2 by lia.
  pose proof (ct_l _ CT) as K3. unfold newL in K. lia.
Qed.
Lemma qF_iff f : qF f = true -> 0 <= f < fCap m -> liveFL m f.
Proof.
  unfold qF, useF. rewrite andb_true_iff, orb_true_iff, liveFb_iff, Z.ltb_lt, Z.leb_le. intros [[K|K] N] R; [left|right]; split; auto; lia.
Qed.
Lemma liveFL_q f : liveFL m f -> qF f = true /\ 0 <= f < fCap m.
Proof.
  destruct (st_f _ ST) as (F1 & F2 & F3). unfold qF, useF. rewrite andb_true_iff, orb_true_iff, liveFb_iff, Z.ltb_lt, Z.leb_le.
  intros [[K N]|[K N]]; split; try lia; split; auto; lia.
Qed.

(** *** the maps *)
Definition gH := getZ (sel (liveHb m) (heFill m)).
Definition gV := getZ (sel (liveVb m) (vFill m)).
Definition gF := getZ (sel qF (fCap m)).
Lemma newH_ran h : liveH m h -> 0 <= newH m h < nHalfedges m.
Proof.
  intros L. rewrite (ct_he _ CT). split; [apply countb_nonneg|]. apply countb_lt; [destruct L; lia|]. apply liveHb_iff; auto. apply L.
Qed.
Lemma newV_ran v : liveV m v -> 0 <= newV m v < nVertices m.
Proof.
  intros L. rewrite (ct_v _ CT). split; [apply countb_nonneg|]. apply countb_lt; [destruct L; lia|]. apply liveVb_iff; auto. apply L.
Qed.
Lemma rF_ran f : liveFL m f -> 0 <= rF f < nFaces m + nLoops m.
Proof. intros L. apply liveFL_q in L as [L R]. rewrite <- rF_total. split; [apply countb_nonneg|]. apply countb_lt; auto. Qed.
Lemma gH_newH h : liveH m h -> gH (newH m h) = h.
Proof. intros L. apply getZ_sel; [apply L|]. apply liveHb_iff; auto. apply L. Qed.
Lemma gV_newV v : liveV m v -> gV (newV m v) = v.
Proof. intros L. apply getZ_sel; [apply L|]. apply liveVb_iff; auto. apply L. Qed.
Lemma gF_rF f : liveFL m f -> gF (rF f) = f.
Proof. intros L. apply liveFL_q in L as [L R]. apply getZ_sel; auto. Qed.
Lemma gH_live k : 0 <= k < nHalfedges m -> liveH m (gH k) /\ newH m (gH k) = k.
Proof.
  rewrite (ct_he _ CT). intros K. destruct (sel_getZ _ _ _ K) as (A & B & C). split; auto. apply liveHb_iff; auto.
Qed.
Lemma gV_live k : 0 <= k < nVertices m -> liveV m (gV k) /\ newV m (gV k) = k.
Proof.
  rewrite (ct_v _ CT). intros K. destruct (sel_getZ _ _ _ K) as (A & B & C). split; auto. apply liveVb_iff; auto.
Qed.
Lemma gF_live k : 0 <= k < nFaces m + nLoops m -> liveFL m (gF k) /\ rF (gF k) = k.
Proof.
  rewrite <- rF_total. intros K. destruct (sel_getZ _ _ _ K) as (A & B & C). split; auto. apply qF_iff; auto.
Qed.

(** *** running compress *)
Lemma dead_h i : 0 <= i < heFill m -> heIsDead m i = Ok (negb (liveHb m i)).
Proof. intros H. unfold heIsDead. rewrite next_ok by (destruct ST; lia). cbn [bind]. unfold liveHb. rewrite negb_involutive. reflexivity. Qed.

Lemma compress_run : exists m', compress m = Ok m' /\
  zlen (heNext m') = nHalfedges m /\ zlen (heVertex m') = nHalfedges m /\ zlen (heFace m') = nHalfedges m /\
  zlen (vHalfedge m') = nVertices m /\ zlen (fHalfedge m') = nFaces m + nLoops m /\ counts m' = counts m /\
  heFill m' = nHalfedges m /\ heCap m' = nHalfedges m /\ eFill m' = nEdges m /\ eCap m' = nEdges m /\
  vFill m' = nVertices m /\ vCap m' = nVertices m /\ fFill m' = nFaces m /\ bFill m' = nLoops m /\ fCap m' = nFaces m + nLoops m /\
  compressed m' = true /\
  cblog m' = CbPermute KVertex (sel (liveVb m) (vFill m)) ::
             CbPermute KLoop (map (fun i => fCap m - 1 - i) (filter (fun i => fCap m - bFill m <=? i) (sel qF (fCap m)))) ::
             CbPermute KFace (resizeZ (sel qF (fCap m)) (nFaces m)) ::
             CbPermute KEdge (map (fun i => i / 2) (filter (fun i => i mod 2 =? 0) (sel (liveHb m) (heFill m)))) ::
             CbPermute KHalfedge (sel (liveHb m) (heFill m)) :: cblog m /\
  (forall k, 0 <= k < nHalfedges m -> nx m' k = newH m (nx m (gH k)) /\ ve m' k = newV m (ve m (gH k)) /\ fa m' k = rF (fa m (gH k))) /\
  (forall k, 0 <= k < nVertices m -> vh m' k = newH m (vh m (gV k))) /\
  (forall k, 0 <= k < nFaces m + nLoops m -> fh m' k = newH m (fh m (gF k))).
Proof.
  pose proof (st_he _ ST) as S1. pose proof (st_v _ ST) as S2. destruct (st_f _ ST) as (F1 & F2 & F3).
  pose proof (st_next _ ST) as T1. pose proof (st_vert _ ST) as T2. pose proof (st_face _ ST) as T3. pose proof (st_vhe _ ST) as T4. pose proof (st_fhe _ ST) as T5.
  unfold compress. rewrite NC. unfold compressHalfedges.
  destruct (indexMaps_ok (fun _ => true) (heIsDead m) (liveHb m) (heFill m)) as (oH & E1 & Z1 & G1); [lia|intros; apply dead_h; auto|].
  cbn [andb] in E1, G1. change (sel (fun i => liveHb m i) (heFill m)) with (sel (liveHb m) (heFill m)) in E1. rewrite E1. cbn [bind].
  set (sH := sel (liveHb m) (heFill m)).
  assert (LH : zlen sH = nHalfedges m) by (symmetry; apply (ct_he _ CT)).
  assert (IH : forall i, In i sH -> liveH m i) by (intros i K; apply sel_In in K as [K1 K2]; apply liveHb_iff; auto).
  assert (RH : forall h, liveH m h -> ren oH h = newH m h).
  { intros h L. unfold ren. destruct (Z.eqb_spec h (-1)); [destruct L; lia|]. rewrite G1 by apply L. rewrite (proj2 (liveHb_iff h (proj1 L)) L). reflexivity. }
  rewrite (applyPerm_ok (heNext m)) by (intros i K; apply IH in K; destruct K; lia). cbn [bind].
  rewrite (applyPerm_ok (heVertex m)) by (intros i K; apply IH in K; destruct K; lia). cbn [bind].
  rewrite (applyPerm_ok (heFace m)) by (intros i K; apply IH in K; destruct K; lia). cbn [bind].
  assert (UV : forall x, In x (vHalfedge m) -> x = -1 \/ 0 <= x < zlen oH).
  { intros x K. apply (In_nth _ _ INVALID) in K as (i & K1 & K2). assert (Kv : vh m (Z.of_nat i) = x).
    { unfold vh, getZ. destruct (Z.ltb_spec (Z.of_nat i) 0); [lia|]. rewrite Nat2Z.id. exact K2. }
    rewrite Z1. destruct (Z_lt_le_dec (Z.of_nat i) (vFill m)).
    - destruct (Z.eq_dec x (-1)); auto. right. rewrite <- Kv. apply (cn_vh _ CN). split; [lia|congruence].
    - pose proof (sg_v _ SL (Z.of_nat i)) as K. rewrite Kv in K. unfold zlen in T4. lia. }
  assert (UF : forall x, In x (fHalfedge m) -> x = -1 \/ 0 <= x < zlen oH).
  { intros x K. apply (In_nth _ _ INVALID) in K as (i & K1 & K2). assert (Kv : fh m (Z.of_nat i) = x).
    { unfold fh, getZ. destruct (Z.ltb_spec (Z.of_nat i) 0); [lia|]. rewrite Nat2Z.id. exact K2. }
    rewrite Z1. unfold zlen in T5. assert (D : 0 <= Z.of_nat i < fFill m \/ fCap m - bFill m <= Z.of_nat i < fCap m \/ fFill m <= Z.of_nat i < fCap m - bFill m) by lia.
    destruct D as [D|[D|D]].
    - destruct (Z.eq_dec x (-1)); auto. right. rewrite <- Kv. apply (cn_fh _ CN). left. split; [lia|congruence].
    - destruct (Z.eq_dec x (-1)); auto. right. rewrite <- Kv. apply (cn_fh _ CN). right. split; [lia|congruence].
    - pose proof (sg_f _ SL (Z.of_nat i) D) as K. rewrite Kv in K. lia. }
  rewrite (updateValues_ok (vHalfedge m)) by exact UV. cbn [bind].
  rewrite (updateValues_ok (fHalfedge m)) by exact UF. cbn [bind].
  rewrite updateValues_ok.
  2:{ intros x K. apply in_map_iff in K as (i & <- & K). right. rewrite Z1. apply (cn_nx _ CN). apply IH. auto. }
  cbn [bind].
  match goal with |- exists m', bind (compressFaces ?x) _ = _ /\ _ => set (m1 := x) end.
  unfold compressFaces.
  assert (VH1 : forall v, liveV m v -> vh m1 v = newH m (vh m v)).
  { intros v L. unfold vh at 1, m1. pj. rewrite getZ_map by (destruct L; lia). apply RH. apply (cn_vh _ CN v L). }
  assert (VH2 : forall v, 0 <= v < vFill m -> vh m v = -1 -> vh m1 v = -1).
  { intros v R K. unfold vh, m1. pj. rewrite getZ_map by lia. unfold vh in K. rewrite K. reflexivity. }
  assert (FH1 : forall f, liveFL m f -> fh m1 f = newH m (fh m f)).
  { intros f L. unfold fh at 1, m1. pj. rewrite getZ_map by (apply liveFL_q in L; lia). apply RH. apply (cn_fh _ CN f L). }
  assert (FH2 : forall f, 0 <= f < fCap m -> fh m f = -1 -> fh m1 f = -1).
  { intros f R K. unfold fh, m1. pj. rewrite getZ_map by lia. unfold fh in K. rewrite K. reflexivity. }
  destruct (indexMaps_ok (fun i => (i <? fFill m1) || (fCap m1 - bFill m1 <=? i)) (fIsDead m1) (liveFb m) (fCap m1)) as (oF & E2 & Z2 & G2).
  { unfold m1. pj. lia. }
  { intros i R U. unfold fIsDead. rewrite fHe_ok by (unfold m1; pj; rewrite zlen_map; unfold m1 in R; revert R; pj; lia). cbn [bind].
    change INVALID with (-1). unfold liveFb. rewrite negb_involutive. f_equal. change (fCap m1) with (fCap m) in R.
    destruct (Z.eqb_spec (fh m i) (-1)) as [K|K].
    - rewrite FH2 by auto. reflexivity.
    - assert (L : liveFL m i) by (apply qF_iff; auto; unfold qF, useF; apply andb_true_iff; split; [exact U|apply liveFb_iff; exact K]).
      rewrite FH1 by auto. apply Z.eqb_neq. pose proof (newH_ran _ (proj1 (cn_fh _ CN i L))). lia. }
  change (sel _ (fCap m1)) with (sel qF (fCap m)) in E2. change (fCap m1) with (fCap m) in *. change (fFill m1) with (fFill m) in *. change (bFill m1) with (bFill m) in *.
  rewrite E2. cbn [bind]. set (sF := sel qF (fCap m)).
  assert (LF : zlen sF = nFaces m + nLoops m) by (apply rF_total).
  assert (IF : forall i, In i sF -> liveFL m i) by (intros i K; apply sel_In in K as [K1 K2]; apply qF_iff; auto).
  assert (RF : forall f, liveFL m f -> ren oF f = rF f).
  { intros f L. pose proof (liveFL_q f L) as [Q R]. unfold ren. destruct (Z.eqb_spec f (-1)); [lia|]. rewrite G2 by exact R.
    change ((f <? fFill m) || (fCap m - bFill m <=? f)) with (useF f). fold (qF f). rewrite Q. reflexivity. }
  rewrite applyPerm_ok by (intros i K; apply IF in K; apply liveFL_q in K; unfold m1; pj; rewrite zlen_map; lia). cbn [bind].
  rewrite updateValues_ok.
  2:{ intros x K. apply in_map_iff in K as (i & <- & K). right. rewrite Z2. apply liveFL_q. apply (cn_fa _ CN). apply IH. auto. }
  cbn [bind].
  match goal with |- exists m', bind (compressVertices ?x) _ = _ /\ _ => set (m2 := x) end.
  unfold compressVertices.
  destruct (indexMaps_ok (fun _ => true) (vIsDead m2) (liveVb m) (vFill m2)) as (oV & E3 & Z3 & G3).
  { unfold m2, m1. pj. lia. }
  { intros i R _. change (vFill m2) with (vFill m) in R. unfold vIsDead. rewrite vHe_ok by (unfold m2, m1; pj; rewrite zlen_map; lia). cbn [bind].
    change INVALID with (-1). unfold liveVb. rewrite negb_involutive. f_equal. change (vh m2 i) with (vh m1 i).
    destruct (Z.eqb_spec (vh m i) (-1)) as [K|K].
    - rewrite VH2 by auto. reflexivity.
    - assert (L : liveV m i) by (split; auto). rewrite VH1 by auto. apply Z.eqb_neq. pose proof (newH_ran _ (proj1 (cn_vh _ CN i L))). lia. }
  cbn [andb] in E3, G3. change (sel _ (vFill m2)) with (sel (liveVb m) (vFill m)) in E3. change (vFill m2) with (vFill m) in *.
  rewrite E3. cbn [bind]. set (sV := sel (liveVb m) (vFill m)).
  assert (LV : zlen sV = nVertices m) by (symmetry; apply (ct_v _ CT)).
  assert (IV : forall i, In i sV -> liveV m i) by (intros i K; apply sel_In in K as [K1 K2]; apply liveVb_iff; auto).
  assert (RV : forall v, liveV m v -> ren oV v = newV m v).
  { intros v L. unfold ren. destruct (Z.eqb_spec v (-1)); [destruct L; lia|]. rewrite G3 by apply L. rewrite (proj2 (liveVb_iff v (proj1 L)) L). reflexivity. }
  rewrite applyPerm_ok by (intros i K; apply IV in K; destruct K; unfold m2, m1; pj; rewrite zlen_map; lia). cbn [bind].
  rewrite updateValues_ok.
  2:{ intros x K. apply in_map_iff in K as (i & <- & K). right. rewrite Z3. apply (cn_ve _ CN). apply IH. auto. }
  cbn [bind]. eexists. split; [reflexivity|].
  split; [unfold m2, m1; pj; rewrite !zlen_map; auto|]. split; [unfold m2, m1; pj; rewrite !zlen_map; auto|]. split; [unfold m2, m1; pj; rewrite !zlen_map; auto|].
  split; [unfold m2, m1; pj; rewrite !zlen_map; auto|]. split; [unfold m2, m1; pj; rewrite !zlen_map; auto|].
  do 12 (split; [reflexivity|]).
  split; [|split].
  - intros k K. pose proof (gH_live k K) as [L _]. unfold nx at 1, ve at 1, fa at 1. unfold m2, m1. pj. rewrite !getZ_map by (rewrite ?zlen_map; lia).
    split; [|split].
    + change (getZ sH k) with (gH k). apply RH. apply CN. auto.
    + change (getZ sH k) with (gH k). apply RV. apply (cn_ve _ CN). auto.
    + change (getZ sH k) with (gH k). apply RF. apply (cn_fa _ CN). auto.
  - intros k K. pose proof (gV_live k K) as [L _]. unfold vh at 1, m2. pj. rewrite getZ_map by lia. change (getZ sV k) with (gV k). apply VH1. auto.
  - intros k K. pose proof (gF_live k K) as [L _]. unfold fh at 1, m2. pj. rewrite getZ_map by lia. change (getZ sF k) with (gF k). apply FH1. auto.
Qed.

(** *** the result *)
Lemma fFill_le : newF m (fFill m) = nFaces m.
Proof. symmetry. apply (ct_f _ CT). Qed.
Lemma rF_liveF f : liveF m f -> rF f = newF m f /\ 0 <= newF m f < nFaces m.
Proof.
  intros [R L]. split; [apply rF_face; lia|]. split; [apply countb_nonneg|]. rewrite (ct_f _ CT). apply countb_lt; auto. apply liveFb_iff; auto.
Qed.
Lemma rF_liveL f : liveL m f -> nFaces m <= rF f < nFaces m + nLoops m /\ nFaces m + nLoops m - 1 - rF f = newL m (fCap m - 1 - f).
Proof.
  intros L. pose proof (rF_ran f (or_intror L)) as R. destruct (st_f _ ST) as (F1 & F2 & F3). pose proof L as [R1 K].
  pose proof (rF_loop (fCap m - 1 - f + 1) ltac:(lia) ltac:(lia)) as E. replace (fCap m - (fCap m - 1 - f + 1)) with f in E by lia.
  rewrite rF_total in E. unfold newL in *. rewrite countb_S in E by lia. replace (fCap m - 1 - (fCap m - 1 - f)) with f in E by lia.
  rewrite (proj2 (liveFb_iff f) K) in E. cbn [b2z] in E. split; [|lia]. split; [|lia].
  pose proof (rF_gap (fCap m - bFill m - fFill m) ltac:(lia) ltac:(lia)) as K2. replace (fFill m + _) with (fCap m - bFill m) in K2 by lia.
  rewrite <- K2. apply countb_mono. lia.
Qed.
Lemma gF_liveF k : 0 <= k < nFaces m -> liveF m (gF k).
Proof.
  intros K. pose proof (ct_l _ CT) as N. pose proof (countb_nonneg (fun i => liveFb m (fCap m - 1 - i)) (bFill m)) as N2.
  destruct (gF_live k ltac:(lia)) as [[L|L] E]; auto. apply rF_liveL in L. lia.
Qed.
Lemma gF_liveL k : nFaces m <= k < nFaces m + nLoops m -> liveL m (gF k).
Proof.
  intros K. pose proof (ct_f _ CT) as N. pose proof (countb_nonneg (liveFb m) (fFill m)) as N2.
  destruct (gF_live k ltac:(lia)) as [[L|L] E]; auto. apply rF_liveF in L. lia.
Qed.
Lemma liveBL_iff i : liveBL m i <-> liveL m (fCap m - 1 - i).
Proof. unfold liveBL, liveL. split; intros [A B]; split; auto; lia. Qed.

Theorem compress_spec : exists m', compress m = Ok m' /\ Valid m' /\ Compact m' /\ compressed m' = true /\ counts m' = counts m /\ Renumbered m m' /\
  exists ph pe pv pf pl,
    cblog m' = CbPermute KVertex pv :: CbPermute KLoop pl :: CbPermute KFace pf :: CbPermute KEdge pe :: CbPermute KHalfedge ph :: cblog m /\
    zlen ph = nHalfedges m /\ zlen pe = nEdges m /\ zlen pv = nVertices m /\ zlen pf = nFaces m /\ zlen pl = nLoops m /\
    (forall h, liveH m h -> getZ ph (newH m h) = h) /\
    (forall e, liveH m (2 * e) -> getZ pe (newE m e) = e) /\
    (forall v, liveV m v -> getZ pv (newV m v) = v) /\
    (forall f, liveF m f -> getZ pf (newF m f) = f) /\
    (forall i, liveBL m i -> getZ pl (nLoops m - 1 - newL m i) = i).
Proof.
  destruct compress_run as (m' & E & Z1 & Z2 & Z3 & Z4 & Z5 & CO & H1 & H2 & E1 & E2 & V1 & V2 & F1 & B1 & F2 & C1 & CB & AH & AV & AF).
  exists m'. split; [exact E|]. pose proof nH2 as N2.
  assert (NN : 0 <= nHalfedges m /\ 0 <= nVertices m /\ 0 <= nFaces m /\ 0 <= nLoops m).
  { rewrite (ct_he _ CT), (ct_v _ CT), (ct_f _ CT), (ct_l _ CT). repeat split; apply countb_nonneg. }
  unfold counts in CO. injection CO as O1 O2 O3 O4 O5 O6.
  assert (ST' : Stored m') by (split; lia).
  assert (NXr : forall k, 0 <= k < nHalfedges m -> 0 <= nx m' k < nHalfedges m).
  { intros k K. destruct (AH k K) as (-> & _ & _). apply newH_ran. apply CN. apply gH_live. auto. }
  assert (VHr : forall k, 0 <= k < nVertices m -> 0 <= vh m' k < nHalfedges m).
  { intros k K. rewrite AV by auto. apply newH_ran. apply (cn_vh _ CN). apply gV_live. auto. }
  assert (FHr : forall k, 0 <= k < nFaces m + nLoops m -> 0 <= fh m' k < nHalfedges m).
  { intros k K. rewrite AF by auto. apply newH_ran. apply (cn_fh _ CN). apply gF_live. auto. }
  assert (LH : forall k, liveH m' k <-> 0 <= k < nHalfedges m).
  { intros k. unfold liveH. rewrite H1. split; [tauto|]. intros K. split; auto. pose proof (NXr k K). lia. }
  assert (LV : forall k, liveV m' k <-> 0 <= k < nVertices m).
  { intros k. unfold liveV. rewrite V1. split; [tauto|]. intros K. split; auto. pose proof (VHr k K). lia. }
  assert (LF : forall k, liveF m' k <-> 0 <= k < nFaces m).
  { intros k. unfold liveF. rewrite F1. split; [tauto|]. intros K. split; auto. pose proof (FHr k). lia. }
  assert (LL : forall k, liveL m' k <-> nFaces m <= k < nFaces m + nLoops m).
  { intros k. unfold liveL. rewrite F2, B1. split; [lia|]. intros K. split; [lia|]. pose proof (FHr k). lia. }
  assert (I : Iso m m' (newH m) gH (newV m) gV rF gF).
  { split.
    - intros h L. rewrite LH. split; [apply newH_ran|apply gH_newH]; auto.
    - intros k K. apply LH in K. apply gH_live. auto.
    - intros v L. rewrite LV. split; [apply newV_ran|apply gV_newV]; auto.
    - intros k K. apply LV in K. apply gV_live. auto.
    - intros f L. rewrite LF. split; [|apply gF_rF; left; auto]. destruct (rF_liveF f L) as [-> K]. exact K.
    - intros k K. apply LF in K. split; [apply gF_liveF; auto|]. apply gF_live. lia.
    - intros f L. rewrite LL. split; [|apply gF_rF; right; auto]. apply rF_liveL. auto.
    - intros k K. apply LL in K. split; [apply gF_liveL; auto|]. apply gF_live. lia.
    - apply newH_tw.
    - intros h L. destruct (AH (newH m h) (newH_ran h L)) as (-> & _ & _). rewrite gH_newH by auto. auto.
    - intros h L. destruct (AH (newH m h) (newH_ran h L)) as (_ & -> & _). rewrite gH_newH by auto. auto.
    - intros h L. destruct (AH (newH m h) (newH_ran h L)) as (_ & _ & ->). rewrite gH_newH by auto. auto. }
  assert (VHn : forall v, liveV m v -> vh m' (newV m v) = newH m (vh m v)).
  { intros v L. rewrite AV by (apply newV_ran; auto). rewrite gV_newV by auto. auto. }
  assert (FHn : forall f, liveFL m f -> fh m' (rF f) = newH m (fh m f)).
  { intros f L. rewrite AF by (apply rF_ran; auto). rewrite gF_rF by auto. auto. }
  assert (CN' : Connected m').
  { apply (iso_connected m m' (newH m) gH (newV m) gV rF gF); auto.
    - intros v L. exists (vh m v). destruct (cn_vh _ CN v L) as [K1 K2]. split; auto.
    - intros f L. rewrite FHn by auto. destruct (cn_fh _ CN f L) as [K1 K2]. rewrite gH_newH by auto. auto.
    - intros h L X K. pose proof (newH_eq h L) as Q. apply (cn_ebd _ CN h L); auto. lia. }
  assert (CT' : Counted m').
  { split.
    - rewrite O1, H1. symmetry. apply countb_full; [lia|]. intros k K. apply negb_true_iff, Z.eqb_neq. pose proof (NXr k K). lia.
    - rewrite O2, (ct_int _ CT), H1, (ct_he _ CT). rewrite (countb_sel (intHb m) (liveHb m)).
      + apply countb_ext. intros k K. rewrite <- (ct_he _ CT) in K. change (getZ (sel (liveHb m) (heFill m)) k) with (gH k).
        destruct (gH_live k K) as [L Q]. unfold intHb. rewrite (proj2 (liveHb_iff (gH k) (proj1 L)) L).
        assert (X : liveHb m' k = true) by (apply negb_true_iff, Z.eqb_neq; pose proof (NXr k K); lia). rewrite X. cbn [andb]. f_equal.
        pose proof (iso_ext _ _ _ _ _ _ _ _ ST ST' CN I (gH k) L) as Y. rewrite Q in Y. unfold ext in Y. apply eq_true_iff_eq. rewrite !Z.leb_le. tauto.
      + intros i _ K. unfold intHb in K. apply andb_prop in K. apply K.
    - rewrite O3, E1. symmetry. apply countb_full; [lia|]. intros k K. apply negb_true_iff, Z.eqb_neq. pose proof (NXr (2 * k) ltac:(lia)). lia.
    - rewrite O4, V1. symmetry. apply countb_full; [lia|]. intros k K. apply negb_true_iff, Z.eqb_neq. pose proof (VHr k K). lia.
    - rewrite O5, F1. symmetry. apply countb_full; [lia|]. intros k K. apply negb_true_iff, Z.eqb_neq. pose proof (FHr k ltac:(lia)). lia.
    - rewrite O6, B1. symmetry. apply countb_full; [lia|]. intros k K. apply negb_true_iff, Z.eqb_neq. rewrite F2. pose proof (FHr (nFaces m + nLoops m - 1 - k) ltac:(lia)). lia. }
  split; [split; auto; split; lia|].
  split.
  { split; try lia; rewrite ?H1, ?V1, ?F1, ?B1.
    - intros h K. apply LH. auto.
    - intros v K. apply LV. auto.
    - intros f K. apply LF. auto.
    - intros i K. split; [lia|]. rewrite F2. pose proof (FHr (nFaces m + nLoops m - 1 - i) ltac:(lia)). lia. }
  split; [exact C1|]. split; [unfold counts; congruence|].
  split.
  { assert (BL : forall k, liveBL m' k <-> 0 <= k < nLoops m).
    { intros k. unfold liveBL. rewrite F2, B1. split; [tauto|]. intros K. split; auto. pose proof (FHr (nFaces m + nLoops m - 1 - k) ltac:(lia)). lia. }
    assert (NLb : forall i, liveBL m i -> 0 <= newL m i < nLoops m /\ nFaces m + nLoops m - 1 - newL m i = rF (fCap m - 1 - i)).
    { intros i L. apply liveBL_iff in L. destruct (rF_liveL _ L) as [K1 K2]. replace (fCap m - 1 - (fCap m - 1 - i)) with i in K2 by lia. lia. }
    split.
    - apply I.
    - apply I.
    - intros f L. apply LF. apply rF_liveF. auto.
    - intros i L. apply BL. apply NLb. auto.
    - intros k K. exists (gH k). apply LH in K. apply gH_live. auto.
    - intros k K. exists (gV k). apply LV in K. apply gV_live. auto.
    - intros k K. exists (gF k). apply LF in K. pose proof (gF_liveF k K) as L. split; auto. rewrite <- (proj1 (rF_liveF _ L)). apply gF_live. lia.
    - intros k K. apply BL in K. pose proof (gF_liveL (nFaces m + nLoops m - 1 - k) ltac:(lia)) as L. exists (fCap m - 1 - gF (nFaces m + nLoops m - 1 - k)).
      split; [apply liveBL_iff; replace (fCap m - 1 - _) with (gF (nFaces m + nLoops m - 1 - k)) by lia; auto|]. rewrite <- (proj2 (rF_liveL _ L)).
      rewrite (proj2 (gF_live (nFaces m + nLoops m - 1 - k) ltac:(lia))). lia.
    - apply newH_tw.
    - apply newH_edge.
    - apply I.
    - apply I.
    - intros h L. unfold side. rewrite (is_fa _ _ _ _ _ _ _ _ I h L), F1, F2. destruct (cn_fa _ CN h L) as [K|K].
      + destruct (rF_liveF _ K) as [-> R]. destruct (Z.leb_spec (nFaces m) (newF m (fa m h))); [lia|]. destruct K as [K _]. destruct (Z.leb_spec (fFill m) (fa m h)); [lia|]. reflexivity.
      + destruct (rF_liveL _ K) as [R Q]. destruct (Z.leb_spec (nFaces m) (rF (fa m h))); [|lia]. destruct K as [K _]. destruct (st_f _ ST) as (? & ? & ?).
        destruct (Z.leb_spec (fFill m) (fa m h)); [|lia]. cbn. rewrite Q. reflexivity.
    - exact VHn.
    - intros f L. rewrite <- (proj1 (rF_liveF f L)). apply FHn. left. auto.
    - intros i L. rewrite F2. rewrite (proj2 (NLb i L)). apply FHn. right. apply liveBL_iff. auto. }
  do 5 eexists. split; [exact CB|].
  assert (EV : map (fun i => i / 2) (filter (fun i => i mod 2 =? 0) (sel (liveHb m) (heFill m))) = sel (fun e => liveHb m (2 * e)) (eFill m)).
  { destruct (st_edge _ ST) as [Ee _]. rewrite Ee. pose proof (st_he _ ST) as Sh. assert (P0 : 0 <= eFill m) by lia.
    assert (X : forall e, 0 <= e -> map (fun i => i / 2) (filter (fun i => i mod 2 =? 0) (sel (liveHb m) (2 * e))) = sel (fun e => liveHb m (2 * e)) e); [|apply X; auto].
    intros e He. pattern e. apply Z_ind_nonneg; [reflexivity| |exact He]. clear e He. intros e He IH.
    replace (2 * (e + 1)) with (2 * e + 1 + 1) by lia. rewrite !sel_S by lia. rewrite !filter_app, !map_app, IH. rewrite <- app_assoc. f_equal.
    assert (M1 : (2 * e) mod 2 = 0) by lia. assert (M2 : (2 * e + 1) mod 2 = 1) by lia. assert (M3 : 2 * e / 2 = e) by lia.
    destruct (liveHb m (2 * e)), (liveHb m (2 * e + 1)); cbn [filter map app]; rewrite ?M1, ?M2; cbn [Z.eqb Pos.eqb map]; rewrite ?M3; reflexivity. }
  assert (SB : exists t, sel qF (fCap m) = sel (liveFb m) (fFill m) ++ t /\ filter (fun i => fCap m - bFill m <=? i) (sel qF (fCap m)) = t /\
     forall i, liveBL m i -> getZ t (nLoops m - 1 - newL m i) = fCap m - 1 - i).
  { destruct (st_f _ ST) as (S1 & S2 & S3).
    assert (X : forall k, 0 <= k -> fFill m + k <= fCap m -> exists t, sel qF (fFill m + k) = sel (liveFb m) (fFill m) ++ t /\ filter (fun i => fCap m - bFill m <=? i) (sel qF (fFill m + k)) = t).
    { intros k Hk. pattern k. apply Z_ind_nonneg; [| |exact Hk].
      - intros _. exists []. rewrite Z.add_0_r, app_nil_r. split.
        + unfold sel. apply filter_ext_in. intros i Hi. apply zseq_In in Hi. unfold qF, useF. destruct (Z.ltb_spec i (fFill m)); [auto|lia].
        + unfold sel. rewrite (filter_ext_in _ (fun _ => false)); [induction (filter qF _); auto|]. intros i Hi. apply filter_In in Hi as [Hi _]. apply zseq_In in Hi. apply Z.leb_gt. lia.
      - clear k Hk. intros k Hk IH K. destruct IH as (t & T1 & T2); [lia|]. exists (t ++ if qF (fFill m + k) then [fFill m + k] else []).
        rewrite Z.add_assoc, sel_S by lia. rewrite filter_app, T1, app_assoc. split; [auto|]. rewrite T1 in T2. rewrite T2. f_equal.
        destruct (qF (fFill m + k)) eqn:Q; auto. cbn [filter]. unfold qF, useF in Q. destruct (Z.ltb_spec (fFill m + k) (fFill m)); [lia|]. cbn [orb] in Q.
        apply andb_prop in Q as [-> _]. reflexivity. }
    destruct (X (fCap m - fFill m) ltac:(lia) ltac:(lia)) as (t & T1 & T2). replace (fFill m + (fCap m - fFill m)) with (fCap m) in T1, T2 by lia.
    exists t. split; auto. split; auto. intros i L. apply liveBL_iff in L. destruct (rF_liveL _ L) as [K1 K2]. replace (fCap m - 1 - (fCap m - 1 - i)) with i in K2 by lia.
    replace (nLoops m - 1 - newL m i) with (rF (fCap m - 1 - i) - nFaces m) by lia. pose proof (gF_rF _ (or_intror L)) as G. unfold gF in G. rewrite T1 in G.
    pose proof (getZ_app_r (sel (liveFb m) (fFill m)) t (rF (fCap m - 1 - i) - nFaces m) ltac:(lia)) as A. rewrite zlen_sel, <- (ct_f _ CT) in A.
    replace (nFaces m + (rF (fCap m - 1 - i) - nFaces m)) with (rF (fCap m - 1 - i)) in A by lia. rewrite <- A. exact G. }
  destruct SB as (t & T1 & T2 & T3). rewrite EV, T2, T1.
  assert (Zt : zlen t = nLoops m).
  { pose proof rF_total as R. unfold rF in R. rewrite <- zlen_sel, T1, zlen_app, zlen_sel, <- (ct_f _ CT) in R. lia. }
  assert (Zf : zlen (sel (liveFb m) (fFill m)) = nFaces m) by (symmetry; apply (ct_f _ CT)).
  split; [symmetry; apply (ct_he _ CT)|]. split; [symmetry; apply (ct_e _ CT)|]. split; [symmetry; apply (ct_v _ CT)|]. split; [apply zlen_resizeZ; lia|].
  split; [rewrite zlen_map; auto|]. split; [apply gH_newH|]. split.
  { intros e L. destruct (st_edge _ ST) as [Ee _]. apply getZ_sel; [destruct L; lia|]. apply liveHb_iff; auto. apply L. }
  split; [apply gV_newV|]. split.
  { intros f L. pose proof (rF_liveF f L) as [_ R]. rewrite getZ_resizeZ by (rewrite ?zlen_app; pose proof (zlen_nonneg t); lia). rewrite getZ_app_l by lia.
    apply getZ_sel; [apply L|]. apply liveFb_iff. apply L. }
  intros i L. pose proof (T3 i L) as G. pose proof L as L2. apply liveBL_iff in L. destruct (rF_liveL _ L) as [K1 K2]. replace (fCap m - 1 - (fCap m - 1 - i)) with i in K2 by lia.
  rewrite getZ_map by lia. rewrite G. lia.
Qed.
End Compress.

Lemma newIndex_monotone m :
  (forall h g, liveH m h -> liveH m g -> h < g -> newH m h < newH m g) /\
  (forall v w, liveV m v -> liveV m w -> v < w -> newV m v < newV m w) /\
  (forall f g, liveF m f -> liveF m g -> f < g -> newF m f < newF m g) /\
  (forall i j, liveBL m i -> liveBL m j -> i < j -> newL m i < newL m j).
Proof.
  split; [|split; [|split]].
  - intros h g [R L] _ K. apply countb_lt; [lia|]. apply negb_true_iff, Z.eqb_neq; auto.
  - intros h g [R L] _ K. apply countb_lt; [lia|]. apply negb_true_iff, Z.eqb_neq; auto.
  - intros h g [R L] _ K. apply countb_lt; [lia|]. apply negb_true_iff, Z.eqb_neq; auto.
  - intros h g [R L] _ K. apply countb_lt; [lia|]. apply negb_true_iff, Z.eqb_neq; auto.
Qed.
Lemma compress_compressed m : compressed m = true -> compress m = Ok m.
Proof. intros H. unfold compress. rewrite H. reflexivity. Qed.
