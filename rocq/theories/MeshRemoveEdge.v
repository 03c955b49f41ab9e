(** ManifoldSurfaceMesh::removeEdge *)
From Verif Require Import Base MeshModel MeshSpec MeshBase MeshExec MeshOrbit MeshAlloc MeshFlip MeshInsert MeshOpSpec MeshConnect MeshDel MeshThms.
Open Scope Z_scope.

Lemma ring_loop_ok : forall l fuel m e start cur acc, chain (nx m) cur l start -> ~ In start l ->
  (forall x, In x l -> 0 <= x < zlen (heNext m) /\ edge x <> e) -> (length l <= fuel)%nat -> ring_loop fuel m e start cur acc = Ok (Some (acc ++ l)).
Proof.
  induction l as [|x t IH]; intros fuel m e start cur acc C NI B Hf.
  - cbn in C. subst. destruct fuel; cbn; rewrite Z.eqb_refl, app_nil_r; auto.
  - destruct C as [-> C]. destruct fuel as [|fuel]; [cbn in Hf; lia|]. cbn [ring_loop].
    destruct (Z.eqb_spec cur start) as [->|]; [exfalso; apply NI; left; auto|]. destruct (B cur (or_introl eq_refl)) as [B1 B2].
    destruct (Z.eqb_spec (edge cur) e); [congruence|]. rewrite next_ok by auto. cbn [bind]. rewrite IH; auto.
    + rewrite <- app_assoc. reflexivity.
    + intros K; apply NI; right; auto.
    + intros y Hy. apply B. right; auto.
    + cbn in Hf. lia.
Qed.
Lemma ring_loop_none : forall l fuel m e start cur acc x t, chain (nx m) cur (l ++ x :: t) start -> ~ In start (l ++ x :: t) ->
  (forall y, In y l -> 0 <= y < zlen (heNext m) /\ edge y <> e) -> edge x = e -> (length l < fuel)%nat -> ring_loop fuel m e start cur acc = Ok None.
Proof.
  induction l as [|y l IH]; intros fuel m e start cur acc x t C NI B E Hf; (destruct fuel as [|fuel]; [cbn in Hf; lia|]); destruct C as [-> C]; cbn [ring_loop].
  - destruct (Z.eqb_spec cur start) as [->|]; [exfalso; apply NI; left; auto|]. rewrite E, Z.eqb_refl. reflexivity.
  - destruct (Z.eqb_spec cur start) as [->|]; [exfalso; apply NI; left; auto|]. destruct (B cur (or_introl eq_refl)) as [B1 B2].
    destruct (Z.eqb_spec (edge cur) e); [congruence|]. rewrite next_ok by auto. cbn [bind]. apply IH with x t; auto.
    + intros K; apply NI; right; auto.
    + intros z Hz. apply B. right; auto.
    + cbn in Hf. lia.
Qed.

Lemma link_ring_ok : forall r m first f, NoDup r -> (forall x, In x r -> 0 <= x < zlen (heNext m) /\ 0 <= x < zlen (heFace m)) ->
  exists m', link_ring m r first f = Ok m' /\ Kept m m' /\ chain (nx m') (hd first r) r first /\ (forall h, ~ In h r -> nx m' h = nx m h) /\
    (forall h, fa m' h = if inl h r then f else fa m h) /\ heVertex m' = heVertex m /\ vHalfedge m' = vHalfedge m /\ fHalfedge m' = fHalfedge m.
Proof.
  induction r as [|x t IH]; intros m first f ND B.
  - exists m. cbn. split; auto. split; [apply kept_refl|]. auto 8.
  - apply NoDup_cons_iff in ND as [N1 N2]. destruct (B x (or_introl eq_refl)) as [B1 B2]. cbn [link_ring].
    rewrite setNext_ok by auto. cbn [bind]. rewrite setFace_ok by (proj; auto). cbn [bind].
    set (y := match t with [] => first | y :: _ => y end). set (m1 := with_face (with_next m x y) x f).
    assert (K1 : Kept m m1) by (eapply kept_trans; [apply stored_wnext|apply stored_wface]).
    destruct (IH m1 first f N2) as (m' & R & K & C & NO & FA & E1 & E2 & E3).
    { intros z Hz. unfold m1. proj. rewrite !zlen_updZ. apply B. right; auto. }
    exists m'. split; [exact R|]. split; [eapply kept_trans; eauto|].
    assert (Nx : nx m' x = y). { rewrite NO by auto. unfold m1. rewrite nx_wface, nx_wnext by auto. rewrite Z.eqb_refl. reflexivity. }
    split. { cbn. split; auto. rewrite Nx. replace y with (hd first t) by (unfold y; destruct t; auto). exact C. }
    split. { intros h Hh. rewrite NO by (intros K2; apply Hh; right; auto). unfold m1. rewrite nx_wface, nx_wnext by auto. destruct (Z.eqb_spec h x) as [->|]; auto. exfalso; apply Hh; left; auto. }
    split; [|split; [exact E1|split; [exact E2|exact E3]]]. intros h. rewrite FA. unfold inl. cbn [existsb]. fold (inl h t). destruct (inl h t); [rewrite orb_true_r; auto|].
    rewrite orb_false_r. unfold m1. rewrite fa_wface by (proj; auto). rewrite fa_wnext. reflexivity.
Qed.

Section RE.
Context (m : mesh) (e : Z) (V : Valid m).
Let a := eHe e.
Let b := tw a.
Context (La : liveH m a) (Ib : ~ ext m b).
Let CN := va_cn _ V.
Let Lb : liveH m b := cn_tw _ CN _ La.
Let Ia : ~ ext m a. Proof. apply (cn_ebd _ CN); auto. unfold a, eHe. lia. Qed.

(** the face of x without x *)
Lemma rest_cycle x : liveH m x -> exists l, chain (nx m) (nx m x) l x /\ NoDup (x :: l) /\ (forall y, In y (x :: l) <-> liveH m y /\ fa m y = fa m x) /\ (S (length l) <= Z.to_nat (heFill m))%nat.
Proof.
  intros Hx. destruct (face_cycle m V x Hx) as (l & Hl & C & ND & R & B). destruct l as [|y l]; [congruence|]. destruct C as [-> C]. exists l. split; auto. split; auto. split; auto.
  cbn [length] in B. lia.
Qed.

Lemma removeEdge_same : fa m a = fa m b -> removeEdge m e = Ok (m, None).
Proof.
  intros F. pose proof (va_st _ V) as ST.
  destruct (rest_cycle a La) as (l & C & ND & R & B). unfold removeEdge. rewrite eIsBoundary_ok by auto. cbn [bind]. fold a. fold b.
  unfold ext in Ib. destruct (Z.leb_spec (fFill m) (fa m b)); [tauto|]. cbn [negb guard bind].
  rewrite next_ok by (pose proof (liveH_bnd m V a La); lia). cbn [bind].
  assert (Hb : In b l). { assert (K : In b (a :: l)) by (apply R; auto). destruct K as [K|K]; auto. exfalso. apply (tw_neq a). auto. }
  apply in_split in Hb as (l1 & l2 & ->). apply NoDup_cons_iff in ND as [N1 N2].
  rewrite (ring_loop_none l1 (loopFuel m) m e a (nx m a) [] b l2); auto.
  - intros y Hy. split. { assert (K : liveH m y) by (apply R; right; apply in_or_app; auto). apply liveH_bnd in K; auto. lia. }
    intros E. rewrite <- (edge_eHe e) in E. apply edge_eq in E as [->|E].
    + apply N1. apply in_or_app; auto.
    + apply NoDup_remove_2 in N2. apply N2. fold a in E. fold b in E. subst y. apply in_or_app; auto.
  - unfold b, a. rewrite tw_edge, edge_eHe. auto.
  - rewrite app_length in B. cbn in B. pose proof (loopFuel_big m V). lia.
Qed.

Let s0 := if nx m b =? b then nx m a else nx m b.
Let s1 := if nx m a =? a then nx m b else nx m a.

Lemma removeEdge_merge : fa m a <> fa m b -> ~ (nx m a = a /\ nx m b = b) ->
  exists m', removeEdge m e = Ok (m', Some (fa m a)) /\ Valid m' /\
    (nHalfedges m', nInterior m', nEdges m', nVertices m', nFaces m', nLoops m') =
    (nHalfedges m - 2, nInterior m - 2, nEdges m - 1, nVertices m, nFaces m - 1, nLoops m) /\ dims m' = dims m /\
    (forall h, liveH m' h <-> liveH m h /\ h <> a /\ h <> b) /\ (forall v, liveV m' v <-> liveV m v) /\ (forall f, liveFL m' f <-> liveFL m f /\ f <> fa m b) /\
    (forall h, liveH m' h -> ve m' h = ve m h /\ fa m' h = (if fa m h =? fa m b then fa m a else fa m h) /\
       nx m' h = (if nx m h =? a then s0 else if nx m h =? b then s1 else nx m h)) /\
    (forall v, liveV m v -> vh m v <> a -> vh m v <> b -> vh m' v = vh m v).
Proof.
  intros FN NM. pose proof (va_st _ V) as ST. destruct ST as [T1 T2 T3 T4 T5 T6 T7 T8 T9].
  destruct (rest_cycle a La) as (l0 & C0 & ND0 & R0 & B0). destruct (rest_cycle b Lb) as (l1 & C1 & ND1 & R1 & B1).
  assert (ab : b <> a) by (apply tw_neq).
  assert (tb : tw b = a) by apply tw_tw.
  assert (BL : forall x, liveH m x -> 0 <= x < heFill m) by (intros x [K _]; exact K).
  assert (BN : forall x, liveH m x -> 0 <= x < zlen (heNext m) /\ 0 <= x < zlen (heFace m) /\ 0 <= x < zlen (heVertex m)) by (intros x K; apply BL in K; lia).
  assert (L0 : forall x, In x l0 -> liveH m x /\ fa m x = fa m a /\ x <> a /\ x <> b).
  { intros x Hx. assert (K : liveH m x /\ fa m x = fa m a) by (apply R0; right; auto). destruct K as [K1 K2]. split; auto. split; auto. split; [|congruence].
    intros ->. apply NoDup_cons_iff in ND0. tauto. }
  assert (L1 : forall x, In x l1 -> liveH m x /\ fa m x = fa m b /\ x <> a /\ x <> b).
  { intros x Hx. assert (K : liveH m x /\ fa m x = fa m b) by (apply R1; right; auto). destruct K as [K1 K2]. split; auto. split; auto. split; [congruence|].
    intros ->. apply NoDup_cons_iff in ND1. tauto. }
  assert (NE : forall x, x <> a -> x <> b -> edge x <> e). { intros x K1 K2 E. rewrite <- (edge_eHe e) in E. apply edge_eq in E as [->| ->]; auto. }
  assert (FRa : 0 <= fa m a < fFill m). { destruct (cn_fa _ CN _ La) as [[K _]|[K _]]; [exact K|]. exfalso. apply Ia. unfold ext. lia. }
  assert (FRb : 0 <= fa m b < fFill m). { destruct (cn_fa _ CN _ Lb) as [[K _]|[K _]]; [exact K|]. exfalso. apply Ib. unfold ext. lia. }
  assert (Hla : liveFL m (fa m a)) by (apply CN; auto). assert (Hlb : liveFL m (fa m b)) by (apply CN; auto).
  assert (HA : fh m (fa m a) <> -1) by (destruct Hla as [[_ K]|[_ K]]; exact K). assert (HB : fh m (fa m b) <> -1) by (destruct Hlb as [[_ K]|[_ K]]; exact K).
  assert (Zfa : 0 <= fa m a < zlen (fHalfedge m)) by (clear - FRa T5 T9; lia).
  unfold removeEdge. rewrite eIsBoundary_ok by auto. cbn [bind]. fold a. fold b.
  destruct (Z.leb_spec (fFill m) (fa m b)); [lia|]. cbn [negb guard bind].
  rewrite next_ok by (apply BN; auto). cbn [bind].
  pose proof (loopFuel_big m V) as LFu.
  rewrite (ring_loop_ok l0); auto; [|intros K; apply L0 in K; tauto|intros x Hx; apply L0 in Hx as (K1 & _ & K2 & K3); split; [apply BN; auto|auto]|lia].
  cbn [bind app]. rewrite next_ok by (apply BN; auto). cbn [bind].
  rewrite (ring_loop_ok l1); auto; [|intros K; apply L1 in K; tauto|intros x Hx; apply L1 in Hx as (K1 & _ & K2 & K3); split; [apply BN; auto|auto]|lia].
  cbn [bind]. rewrite faceOf_ok by (apply BN; auto). cbn [bind]. rewrite faceOf_ok by (apply BN; auto). cbn [bind].
  destruct (Z.eqb_spec (fa m a) (fa m b)) as [|_]; [contradiction|].
  do 2 (rewrite vertexOf_ok by (apply BN; auto); cbn [bind]).
  set (ring := l0 ++ l1).
  assert (LR : forall x, In x ring <-> liveH m x /\ x <> a /\ x <> b /\ (fa m x = fa m a \/ fa m x = fa m b)).
  { intros x. unfold ring. rewrite in_app_iff. split.
    - intros [K|K]; [apply L0 in K|apply L1 in K]; tauto.
    - intros (K1 & K2 & K3 & [K4|K4]).
      + left. assert (K : In x (a :: l0)) by (apply R0; auto). destruct K as [K|K]; auto. congruence.
      + right. assert (K : In x (b :: l1)) by (apply R1; auto). destruct K as [K|K]; auto. congruence. }
  assert (NDR : NoDup ring).
  { apply NoDup_cons_iff in ND0 as [_ ND0]. apply NoDup_cons_iff in ND1 as [_ ND1]. unfold ring. clear - ND0 ND1 L0 L1 FN. 
    induction l0 as [|x t IH]; auto. cbn. apply NoDup_cons_iff in ND0 as [N1 N2]. constructor; [|apply IH; auto; intros y Hy; apply L0; right; auto].
    intros K. apply in_app_or in K as [K|K]; [auto|]. apply L1 in K. destruct (L0 x (or_introl eq_refl)) as (_ & K2 & _). destruct K as (_ & K & _). congruence. }
  assert (RN : exists first, hd_error ring = Some first /\ hd INVALID ring = first /\ In first ring).
  { unfold ring. destruct l0 as [|x t]; cbn.
    - destruct l1 as [|y u]; cbn; [exfalso; apply NM; cbn in C0, C1; auto|]. exists y. auto.
    - exists x. auto. }
  destruct RN as (first & RE & RH & RI). assert (RM : match ring with [] => UB | x :: _ => Ok x end = Ok first) by (destruct ring; cbn in RE; [discriminate|congruence]).
  assert (Lf : liveH m first) by (apply LR in RI; tauto).
  destruct (link_ring_ok ring m (hd INVALID ring) (fa m a) NDR) as (m1 & RL & K1 & CH & NO & FA & EV & EVh & EFh).
  { intros x Hx. apply LR in Hx as (Hx & _). apply BN in Hx. tauto. }
  rewrite RH in CH, RL. replace (hd first ring) with first in CH by (destruct ring; cbn in RH |- *; congruence).
  rewrite RH, RL. cbn [bind].
  assert (SL1 : SameLive m m1).
  { split; auto.
    - intros h. destruct (in_dec Z.eq_dec h ring) as [K|K]; [|rewrite NO by auto; tauto].
      assert (K2 : In (nx m1 h) ring) by (apply cycle_closed with first; auto; intros K2; rewrite K2 in K; contradiction).
      apply LR in K as (K & _). apply LR in K2 as (K2 & _). destruct K, K2. clear - H0 H1 H2 H3. split; intros; lia.
    - intros h _. rewrite FA. destruct (inl h ring) eqn:Ei; [|tauto]. apply inl_In, LR in Ei as (_ & _ & _ & [->| ->]); lia.
    - intros v. unfold vh. rewrite EVh. tauto.
    - intros f. unfold fh. rewrite EFh. tauto. }
  (* representatives of the two ends *)
  set (src := ve m a). set (dst := ve m b).
  assert (Ls : liveV m src) by (apply CN; auto). assert (Ld : liveV m dst) by (apply CN; auto).
  assert (Bs : 0 <= src < zlen (vHalfedge m)) by (clear - Ls T4 T8; destruct Ls; lia). assert (Bd : 0 <= dst < zlen (vHalfedge m)) by (clear - Ld T4 T8; destruct Ld; lia).
  assert (nab : nx m a <> b). { intros K. apply FN. rewrite <- (cn_fnx _ CN a La), K. auto. }
  assert (nba : nx m b <> a). { intros K. apply FN. rewrite <- (cn_fnx _ CN b Lb), K. auto. }
  assert (Lna : liveH m (nx m a)) by (apply CN; auto). assert (Lnb : liveH m (nx m b)) by (apply CN; auto).
  assert (Nna : nx m a <> -1) by (destruct La; auto). assert (Nnb : nx m b <> -1) by (destruct Lb; auto).
  assert (Va : ve m (nx m a) = dst) by (apply (cn_vnx _ CN); auto). assert (Vb : ve m (nx m b) = src) by (rewrite (cn_vnx _ CN) by auto; rewrite tb; auto).
  assert (P0 : liveH m s0 /\ s0 <> a /\ s0 <> b /\ ve m s0 = src).
  { unfold s0. destruct (Z.eqb_spec (nx m b) b) as [K|K]; [|auto]. split; auto. split; [intros K2; apply NM; auto|]. split; auto. rewrite Va. rewrite K in Vb. auto. }
  assert (P1 : liveH m s1 /\ s1 <> a /\ s1 <> b /\ ve m s1 = dst).
  { unfold s1. destruct (Z.eqb_spec (nx m a) a) as [K|K]; [|auto]. split; auto. split; auto. split; [intros K2; apply NM; auto|]. rewrite Vb. rewrite K in Va. auto. }
  assert (ED : forall x, (edge x =? e) = true <-> x = a \/ x = b). { intros x. rewrite Z.eqb_eq. split; [intros K; rewrite <- (edge_eHe e) in K; apply edge_eq in K; auto|]. intros [->| ->]; [apply edge_eHe|unfold b, a; rewrite tw_edge; apply edge_eHe]. }
  assert (VV : exists m2, (let* x := vHe m1 src in let* mm := (if edge x =? e then setVHe m1 src (nx m b) else Ok m1) in
        let* x := vHe mm dst in (if edge x =? e then setVHe mm dst (nx m a) else Ok mm)) = Ok m2 /\ SameLive m1 m2 /\
      heNext m2 = heNext m1 /\ heVertex m2 = heVertex m1 /\ heFace m2 = heFace m1 /\ fHalfedge m2 = fHalfedge m1 /\
      (forall v, liveV m v -> vh m v <> a -> vh m v <> b -> vh m2 v = vh m v) /\
      (forall v, liveV m v -> vh m2 v <> a /\ vh m2 v <> b /\ liveH m (vh m2 v) /\ ve m (vh m2 v) = v) /\
      (forall v, v <> src -> v <> dst -> vh m2 v = vh m v)).
  { rewrite vHe_ok by (rewrite EVh; auto). cbn [bind]. change (vh m1 src) with (getZ (vHalfedge m1) src). rewrite EVh. change (getZ (vHalfedge m) src) with (vh m src).
    assert (VE0 : forall v, vh m1 v = vh m v) by (intros v; unfold vh; rewrite EVh; auto).
    assert (EQb : forall x, (edge x =? e) = false -> x <> a /\ x <> b) by (intros x K; split; intros ->; rewrite (proj2 (ED _)) in K; auto; discriminate).
    assert (ST : forall v x, liveV m v -> vh m v = x -> x = a \/ x = b -> v = src \/ v = dst).
    { intros v x Hv Ex [->| ->]; [left|right]; destruct (cn_vh _ CN v Hv) as [_ K]; rewrite Ex in K; auto. }
    destruct (edge (vh m src) =? e) eqn:E1.
    - rewrite setVHe_ok by (rewrite EVh; auto). cbn [bind]. set (m1' := with_vhe m1 src (nx m b)).
      assert (Vm : forall v, vh m1' v = if v =? src then nx m b else vh m v) by (intros v; unfold m1'; rewrite vh_wvhe by (rewrite EVh; auto); rewrite VE0; auto).
      assert (SLa : SameLive m1 m1') by (apply sl_wvhe; [rewrite EVh; auto|rewrite VE0; apply Ls|exact Nnb]).
      assert (Zv : zlen (vHalfedge m1') = zlen (vHalfedge m)) by (unfold m1'; proj; rewrite zlen_updZ, EVh; auto).
      rewrite vHe_ok by (rewrite Zv; auto). cbn [bind]. rewrite Vm.
      destruct (edge (if dst =? src then nx m b else vh m dst) =? e) eqn:E2.
      + rewrite setVHe_ok by (rewrite Zv; auto). eexists. split; [reflexivity|].
        set (m2 := with_vhe m1' dst (nx m a)).
        assert (Vm2 : forall v, vh m2 v = if v =? dst then nx m a else if v =? src then nx m b else vh m v) by (intros v; unfold m2; rewrite vh_wvhe by (rewrite Zv; auto); rewrite Vm; auto).
        assert (Nd : nx m a <> a).
        { intros K. rewrite K in Va. apply ED in E2. destruct (Z.eqb_spec dst src) as [Kd|Kd]; [|apply Kd; symmetry; exact Va]. destruct E2 as [E2|E2]; [auto|]. apply NM. auto. }
        assert (Ndb : src = dst \/ nx m b <> b).
        { destruct (Z.eq_dec (nx m b) b) as [K|K]; auto. left. rewrite K in Vb. auto. }
        split. { apply (same_live_trans _ m1'); auto. apply sl_wvhe; [rewrite Zv; auto|rewrite Vm; destruct (dst =? src); [exact Nnb|apply Ld]|exact Nna]. }
        split; [reflexivity|]. split; [reflexivity|]. split; [reflexivity|]. split; [reflexivity|]. split; [|split].
        * intros v Hv Ka Kb. rewrite Vm2. apply ED in E1. destruct (Z.eqb_spec v dst) as [->|]; [|destruct (Z.eqb_spec v src) as [->|]; [tauto|auto]].
          apply ED in E2. destruct (Z.eqb_spec dst src) as [->|]; [tauto|tauto].
        * intros v Hv. rewrite Vm2. destruct (Z.eqb_spec v dst) as [->|]; [auto|]. destruct (Z.eqb_spec v src) as [->|].
          -- destruct Ndb; [congruence|]. auto.
          -- destruct (cn_vh _ CN v Hv) as [A1 A2]. split; [|split; [|auto]]; intros K; destruct (ST v _ Hv eq_refl); auto.
        * intros v K1' K2'. rewrite Vm2. destruct (Z.eqb_spec v dst); [congruence|]. destruct (Z.eqb_spec v src); [congruence|]. reflexivity.
      + apply EQb in E2 as [E2 E2']. eexists. split; [reflexivity|]. split; [exact SLa|]. split; [reflexivity|]. split; [reflexivity|]. split; [reflexivity|]. split; [reflexivity|]. split; [|split].
        * intros v Hv Ka Kb. rewrite Vm. destruct (Z.eqb_spec v src) as [->|]; [|auto]. apply ED in E1. tauto.
        * intros v Hv. rewrite Vm. destruct (Z.eqb_spec v src) as [->|Ks].
          -- split; auto. split; [|auto]. intros K. rewrite K in Vb. assert (Kd : dst = src) by exact Vb. rewrite Kd, Z.eqb_refl in E2'. auto.
          -- destruct (cn_vh _ CN v Hv) as [A1 A2].
             assert (Q : vh m v = a \/ vh m v = b -> False). { intros Q. destruct (ST v _ Hv eq_refl Q) as [->| ->]; auto. destruct (Z.eqb_spec dst src); [auto|]. tauto. }
             split; [|split; [|auto]]; intros K; apply Q; auto.
        * intros v K1' K2'. rewrite Vm. destruct (Z.eqb_spec v src); [congruence|]. reflexivity.
    - cbn [bind]. rewrite vHe_ok by (rewrite EVh; auto). cbn [bind]. rewrite VE0. apply EQb in E1 as [E1 E1'].
      destruct (edge (vh m dst) =? e) eqn:E2.
      + rewrite setVHe_ok by (rewrite EVh; auto). eexists. split; [reflexivity|]. set (m2 := with_vhe m1 dst (nx m a)).
        assert (Vm : forall v, vh m2 v = if v =? dst then nx m a else vh m v) by (intros v; unfold m2; rewrite vh_wvhe by (rewrite EVh; auto); rewrite VE0; auto).
        assert (Sd : dst <> src) by (intros K; apply ED in E2; rewrite K in E2; tauto).
        assert (Nd : nx m a <> a) by (intros K; rewrite K in Va; auto).
        split; [apply sl_wvhe; [rewrite EVh; auto|rewrite VE0; apply Ld|exact Nna]|]. split; [reflexivity|]. split; [reflexivity|]. split; [reflexivity|]. split; [reflexivity|]. split; [|split].
        * intros v Hv Ka Kb. rewrite Vm. destruct (Z.eqb_spec v dst) as [->|]; [|auto]. apply ED in E2. tauto.
        * intros v Hv. rewrite Vm. destruct (Z.eqb_spec v dst) as [->|Ks]; [auto|]. destruct (cn_vh _ CN v Hv) as [A1 A2].
          assert (Q : vh m v = a \/ vh m v = b -> False). { intros Q. destruct (ST v _ Hv eq_refl Q) as [->| ->]; auto. tauto. }
          split; [|split; [|auto]]; intros K; apply Q; auto.
        * intros v K1' K2'. rewrite Vm. destruct (Z.eqb_spec v dst); [congruence|]. reflexivity.
      + apply EQb in E2 as [E2 E2']. exists m1. split; [reflexivity|]. split; [apply same_live_refl|]. split; [reflexivity|]. split; [reflexivity|]. split; [reflexivity|]. split; [reflexivity|]. split; [|split].
        * intros; apply VE0.
        * intros v Hv. rewrite VE0. destruct (cn_vh _ CN v Hv) as [A1 A2].
          assert (Q : vh m v = a \/ vh m v = b -> False). { intros Q. destruct (ST v _ Hv eq_refl Q) as [->| ->]; tauto. }
          split; [|split; [|auto]]; intros K; apply Q; auto.
        * intros v _ _. apply VE0. }
  destruct VV as (m2 & RV & SL2 & EN2 & EV2 & EF2 & EFh2 & VU & VL & VG).
  fold src dst.
  match goal with |- exists m', ?X = _ /\ _ => replace X with (let* mm := (let* x := vHe m1 src in let* mm := (if edge x =? e then setVHe m1 src (nx m b) else Ok m1) in
        let* x := vHe mm dst in (if edge x =? e then setVHe mm dst (nx m a) else Ok mm)) in
        let* first := match ring with [] => UB | x :: _ => Ok x end in let* mm := setFHe mm (fa m a) first in let* mm := deleteFace mm (fa m b) in let* mm := deleteEdgeBundle mm e in Ok (mm, Some (fa m a))) end.
  2: { clear. destruct (vHe m1 src); cbn [bind]; auto. destruct (if edge a0 =? e then setVHe m1 src (nx m b) else Ok m1); cbn [bind]; auto.
       destruct (vHe a1 dst); cbn [bind]; auto. }
  rewrite RV. cbn [bind]. rewrite RM. cbn [bind].
  assert (SL : SameLive m m2) by (eapply same_live_trans; eauto).
  assert (DM2 := kept_dims _ _ (sl_kept _ _ SL)).
  unfold dims, lens in DM2. injection DM2 as G1 G2 G3 G4 G5 G6 G7 G8 G9 G10 G11 G12 G13 G14.
  rewrite setFHe_ok by (rewrite G14; exact Zfa). cbn [bind]. set (m3 := with_fhe m2 (fa m a) first).
  assert (FH2 : forall f, fh m2 f = fh m f) by (intros f; unfold fh; rewrite EFh2, EFh; auto).
  assert (SL3 : SameLive m m3). { eapply same_live_trans; [exact SL|]. apply sl_wfhe; [rewrite G14; exact Zfa|rewrite FH2; auto|apply BL in Lf; clear - Lf; lia]. }
  assert (FH3 : forall f, fh m3 f = if f =? fa m a then first else fh m f) by (intros f; unfold m3; rewrite fh_wfhe by (rewrite G14; exact Zfa); rewrite FH2; auto).
  assert (DM3 := kept_dims _ _ (sl_kept _ _ SL3)).
  assert (ST3 : Stored m3) by (eapply dims_stored; [exact DM3|apply V]).
  destruct (deleteFace_ok m3 (fa m b) ST3) as (m4 & E4 & DM4 & CT4 & A4 & VH4 & FH4 & CN4).
  { eapply same_live_counted; [exact SL3|apply V]. } { change (fFill m3) with (fFill m2). rewrite G4. exact FRb. } { rewrite FH3. destruct (Z.eqb_spec (fa m b) (fa m a)); [congruence|auto]. }
  rewrite E4. cbn [bind].
  assert (NX3 : forall h, nx m3 h = nx m1 h) by (intros h; unfold nx, m3; proj; rewrite EN2; auto).
  assert (VE3 : forall h, ve m3 h = ve m h) by (intros h; unfold ve, m3; proj; rewrite EV2, EV; auto).
  assert (FA3 : forall h, fa m3 h = if inl h ring then fa m a else fa m h) by (intros h; rewrite <- FA; unfold fa, m3; proj; rewrite EF2; auto).
  assert (aR : ~ In a ring) by (intros K; apply LR in K; tauto). assert (bR : ~ In b ring) by (intros K; apply LR in K; tauto).
  assert (DM4' : dims m4 = dims m) by congruence. pose proof DM4' as DM4x. unfold dims, lens in DM4x. injection DM4x as I1 I2 I3 I4 I5 I6 I7 I8 I9 I10 I11 I12 I13 I14.
  destruct (deleteEdge_ok m4 e) as (m5 & E5 & DM5 & CT5 & NX5 & VF5 & VH5 & FH5 & CN5).
  { eapply dims_stored; [exact DM4'|apply V]. } { exact CT4. } { rewrite I1. apply BL; auto. }
  { destruct (A4 (eHe e)) as (-> & _ & _). rewrite NX3, NO by auto. apply La. } { destruct (A4 (tw (eHe e))) as (-> & _ & _). rewrite NX3, NO by auto. apply Lb. }
  { destruct (A4 (eHe e)) as (_ & _ & ->). rewrite FA3. fold a. rewrite (proj2 (inl_nIn _ _) aR). apply FRa. } { destruct (A4 (tw (eHe e))) as (_ & _ & ->). rewrite FA3. fold a. fold b. rewrite (proj2 (inl_nIn _ _) bR). apply FRb. }
  rewrite E5. cbn [bind]. fold a in NX5, VF5, CN5. fold b in NX5, VF5, CN5.
  destruct (A4 a) as (_ & _ & Fa4). destruct (A4 b) as (_ & _ & Fb4). rewrite FA3, (proj2 (inl_nIn _ _) aR) in Fa4. rewrite FA3, (proj2 (inl_nIn _ _) bR) in Fb4.
  rewrite Fa4, Fb4, I4 in CN5. replace (fa m a <? fFill m) with true in CN5 by (clear - FRa; lia). replace (fa m b <? fFill m) with true in CN5 by (clear - FRb; lia). change (b2z true + b2z true) with 2 in CN5.
  exists m5. split; [reflexivity|].
  assert (DM5' : dims m5 = dims m) by congruence. pose proof DM5' as DMx. unfold dims, lens in DMx. injection DMx as J1 J2 J3 J4 J5 J6 J7 J8 J9 J10 J11 J12 J13 J14.
  assert (NXf : forall h, h <> a -> h <> b -> nx m5 h = nx m1 h).
  { intros h Ha Hb. rewrite NX5. destruct (Z.eqb_spec h a); [congruence|]. destruct (Z.eqb_spec h b); [congruence|]. cbn [orb]. destruct (A4 h) as (-> & _ & _). apply NX3. }
  assert (VHf : forall v, vh m5 v = vh m2 v) by (intros v; rewrite VH5, VH4; reflexivity).
  assert (FHf : forall f, fh m5 f = if f =? fa m b then -1 else if f =? fa m a then first else fh m f) by (intros f; rewrite FH5, FH4, FH3; reflexivity).
  assert (LHf : forall h, liveH m5 h <-> liveH m h /\ h <> a /\ h <> b).
  { intros h. unfold liveH. rewrite J1. split.
    - intros [H1 H2]. rewrite NX5 in H2. destruct (Z.eqb_spec h a); [cbn in H2; congruence|]. destruct (Z.eqb_spec h b); [cbn in H2; congruence|]. cbn [orb] in H2.
      destruct (A4 h) as (A & _ & _). rewrite A, NX3 in H2. split; auto. split; auto. intros K. apply H2. apply (sl_h _ _ SL1). auto.
    - intros ((H1 & H2) & Ha & Hb). split; auto. rewrite NXf by auto. intros K. apply H2. apply (sl_h _ _ SL1). auto. }
  assert (LVf : forall v, liveV m5 v <-> liveV m v).
  { intros v. unfold liveV. rewrite J3, VHf. pose proof (sl_v _ _ SL v) as K. split; intros [H1 H2]; (split; [auto|tauto]). }
  assert (LFf : forall f, liveFL m5 f <-> liveFL m f /\ f <> fa m b).
  { intros f. unfold liveFL, liveF, liveL. rewrite J4, J5, J9, FHf. destruct (Z.eqb_spec f (fa m b)) as [->|Kb].
    - split; [intros [[_ K]|[_ K]]; congruence|tauto].
    - destruct (Z.eqb_spec f (fa m a)) as [->|Ka]; [|tauto]. destruct Lf as [Lf _]. split; [intros [[K _]|[K _]]; split; auto|]. intros [K _]. destruct K as [[K _]|[K _]]; [left|right]; (split; [auto|clear - Lf; lia]). }
  assert (VEf : forall h, liveH m5 h -> ve m5 h = ve m h).
  { intros h Hh. apply LHf in Hh as (_ & Ha & Hb). destruct (VF5 h Ha Hb) as [-> _]. destruct (A4 h) as (_ & -> & _). apply VE3. }
  assert (FAf : forall h, liveH m5 h -> fa m5 h = if fa m h =? fa m b then fa m a else fa m h).
  { intros h Hh. apply LHf in Hh as (Hl & Ha & Hb). destruct (VF5 h Ha Hb) as [_ ->]. destruct (A4 h) as (_ & _ & ->). rewrite FA3. destruct (inl h ring) eqn:Ei.
    - apply inl_In, LR in Ei as (_ & _ & _ & [K|K]); rewrite K; [|rewrite Z.eqb_refl; auto]. destruct (fa m a =? fa m b); auto.
    - apply inl_nIn in Ei. destruct (Z.eqb_spec (fa m h) (fa m b)) as [K|]; auto. exfalso. apply Ei, LR. auto. }
  (* next along the ring *)
  assert (NXR : forall h, liveH m5 h -> nx m5 h = if nx m h =? a then s0 else if nx m h =? b then s1 else nx m h).
  { intros h Hh. apply LHf in Hh as (Hl & Ha & Hb). rewrite NXf by auto. destruct (in_dec Z.eq_dec h ring) as [K|K].
    - assert (G : forall l s t n, chain (nx m) s l t -> (forall x, In x l -> x <> t) -> chain (nx m1) s l n -> forall x, In x l -> nx m1 x = if nx m x =? t then n else nx m x).
      { clear. induction l as [|y u IH]; intros s t n C NT C' x Hx; [contradiction|]. destruct C as [-> C]. destruct C' as [_ C'].
        destruct Hx as [<-|Hx].
        - destruct u as [|z u]; [cbn in C, C'; subst t; rewrite Z.eqb_refl; auto|]. destruct C as [EC _], C' as [E' _]. subst z.
          destruct (Z.eqb_spec (nx m s) t) as [Et|Et]; [|auto]. exfalso. apply (NT (nx m s)); auto. right; left; auto.
        - destruct u as [|z u]; [contradiction|]. assert (E : nx m s = z) by (destruct C; auto). assert (E' : nx m1 s = z) by (destruct C'; auto).
          rewrite E in C. rewrite E' in C'. apply (IH z t n); auto. intros w Hw. apply NT. right; auto. }
      unfold ring in K, CH. apply chain_app in CH as (c & CH0 & CH1).
      assert (Hc : c = s0 /\ (l0 <> [] -> first = nx m a) /\ (l0 = [] -> c = first /\ nx m a = a)).
      { destruct l1 as [|y u].
        - cbn in C1, CH1. rewrite app_nil_r in *. unfold s0. rewrite C1, Z.eqb_refl. subst c. destruct l0 as [|z w]; [exfalso; apply NM; cbn in C0; auto|]. cbn in RE. destruct C0 as [E0 _]. split; [congruence|]. split; [congruence|discriminate].
        - assert (Ey : y = nx m b) by (destruct C1; auto). assert (Ec : y = c) by (destruct CH1; auto). split.
          + unfold s0. destruct (Z.eqb_spec (nx m b) b) as [E|E]; [|congruence]. exfalso. destruct (L1 y (or_introl eq_refl)) as (_ & _ & _ & Kb). congruence.
          + split; [|intros ->]. { intros Hl0. destruct l0 as [|z w]; [congruence|]. cbn in RE. destruct C0 as [E0 _]. congruence. } cbn in CH0, C0. auto. }
      destruct Hc as (Hc & Hf1 & Hf2).
      apply in_app_or in K as [K|K].
      + assert (Hl0 : l0 <> []) by (intros ->; contradiction). rewrite (G l0 (nx m a) a c); auto.
        * rewrite Hc. destruct (Z.eqb_spec (nx m h) a); auto. destruct (Z.eqb_spec (nx m h) b) as [E|]; auto. exfalso. apply L0 in K as (_ & K & _). apply FN. rewrite <- K, <- (cn_fnx _ CN h Hl), E. auto.
        * intros x Hx. apply L0 in Hx. tauto.
        * rewrite <- Hf1 by auto. exact CH0.
      + assert (Hl1 : l1 <> []) by (intros ->; contradiction). assert (Ec : c = nx m b) by (destruct l1 as [|y u]; [congruence|]; destruct CH1 as [E1 _], C1 as [E2 _]; congruence).
        rewrite (G l1 (nx m b) b first); auto.
        * apply L1 in K as (_ & K & _). destruct (Z.eqb_spec (nx m h) a) as [E|]; [exfalso; apply FN; rewrite <- K, <- (cn_fnx _ CN h Hl), E; auto|].
          destruct (Z.eqb_spec (nx m h) b); auto. unfold s1. destruct (list_eq_dec Z.eq_dec l0 []) as [E0|E0].
          { destruct (Hf2 E0) as [E2 E3]. rewrite E3, Z.eqb_refl. congruence. }
          rewrite Hf1 by auto. destruct (Z.eqb_spec (nx m a) a) as [E|]; auto. exfalso. destruct l0 as [|z w]; [congruence|]. destruct C0 as [E1 _]. destruct (L0 z (or_introl eq_refl)) as (_ & _ & Kz & _). congruence.
        * intros x Hx. apply L1 in Hx. tauto.
        * rewrite <- Ec. exact CH1.
    - rewrite NO by auto. destruct (Z.eqb_spec (nx m h) a) as [E|]; [exfalso; apply K, LR; split; auto; split; auto; split; auto; left; rewrite <- (cn_fnx _ CN h Hl), E; auto|].
      destruct (Z.eqb_spec (nx m h) b) as [E|]; [exfalso; apply K, LR; split; auto; split; auto; split; auto; right; rewrite <- (cn_fnx _ CN h Hl), E; auto|]. auto. }
  assert (V' : Valid m5).
  { split; [eapply dims_stored; [exact DM5'|apply V]|exact CT5| |].
    2: { destruct (va_sl _ V) as [G1x G2x]. split; rewrite J1, ?J3, ?J4, ?J5, ?J8, ?J9.
      - intros w Hw. rewrite VHf, VG; [apply G1x; exact Hw|intros ->; destruct Ls as [K _]; clear -K Hw; lia|intros ->; destruct Ld as [K _]; clear -K Hw; lia].
      - intros f Hf. rewrite FHf. destruct (Z.eqb_spec f (fa m b)) as [->|_]; [clear -Hf FRb; lia|]. destruct (Z.eqb_spec f (fa m a)) as [->|_]; [clear -Hf FRa; lia|]. apply G2x. exact Hf. }
    set (d := fun h => (h =? a) || (h =? b)). set (mg := fun f => (f =? fa m a) || (f =? fa m b)).
    set (phi := fun h => if h =? a then s0 else if h =? b then s1 else h).
    assert (Dt : forall h, d h = true <-> h = a \/ h = b) by (intros h; unfold d; clear; lia).
    assert (Df : forall h, d h = false <-> h <> a /\ h <> b) by (intros h; unfold d; clear; lia).
    assert (Mt : forall f, mg f = true <-> f = fa m a \/ f = fa m b) by (intros f; unfold mg; clear; lia).
    apply (del_connected m m5 d mg phi (fa m a) first ring); auto.
    - intros h Hh. destruct (d h) eqn:E.
      + apply Dt. apply Dt in E as [->| ->]; auto. 
      + apply Df. apply Df in E as [K1' K2']. split; intros K; [apply K2'; rewrite <- (tw_tw h), K; auto|apply K1'; rewrite <- (tw_tw h), K; auto].
    - intros h. rewrite LHf, Df. tauto.
    - intros h Hh E. apply Mt. apply Dt in E as [->| ->]; auto.
    - intros f E. apply Mt in E as [->| ->]; auto.
    - intros h Hh. apply LVf. apply CN. apply LHf in Hh; tauto.
    - intros h Hh E. apply Df in E as [K1' K2']. unfold phi. destruct (Z.eqb_spec h a); [congruence|]. destruct (Z.eqb_spec h b); [congruence|auto].
    - intros h Hh E _. unfold phi. apply Dt in E as [->| ->].
      + rewrite Z.eqb_refl. destruct P0 as (Q1 & Q2 & Q3 & Q4). split; [apply LHf; auto|]. split; [exact Q4|]. fold b.
        destruct (Z.eqb_spec (nx m b) a); [congruence|]. unfold s0, s1. destruct (Z.eqb_spec (nx m b) b) as [E|E]; auto. destruct (Z.eqb_spec (nx m a) a); [exfalso; apply NM; auto|auto].
      + rewrite Z.eqb_refl. destruct (Z.eqb_spec b a); [congruence|]. destruct P1 as (Q1 & Q2 & Q3 & Q4). split; [apply LHf; auto|]. split; [exact Q4|]. rewrite tb.
        unfold s0, s1. destruct (Z.eqb_spec (nx m a) a) as [E|E].
        * destruct (Z.eqb_spec (nx m b) b); [exfalso; apply NM; auto|auto].
        * destruct (Z.eqb_spec (nx m a) b); [congruence|auto].
    - intros h Hh. rewrite FAf by auto. unfold mg. destruct (Z.eqb_spec (fa m h) (fa m b)); [rewrite orb_true_r; auto|]. rewrite orb_false_r. destruct (Z.eqb_spec (fa m h) (fa m a)); auto.
    - unfold mg. rewrite Z.eqb_refl. auto.
    - eapply chain_ext; [|exact CH]. intros x Hx. symmetry. apply NXf; intros ->; auto.
    - intros x. rewrite LR, LHf, Mt. tauto.
    - intros f. rewrite LFf. split; intros [K K']; (split; [auto|]).
      + destruct (Z.eq_dec f (fa m a)); auto. left. destruct (mg f) eqn:E; auto. apply Mt in E as [E|E]; contradiction.
      + intros ->. destruct K' as [K'|K']; [|congruence]. assert (mg (fa m b) = true) by (apply Mt; auto). congruence.
    - apply LFf. split; auto.
    - intros v Hv. apply LVf in Hv. split; auto. destruct (VL v Hv) as (Q1 & Q2 & Q3 & Q4). rewrite VHf. split; [apply LHf; auto|]. split; auto.
      intros E. apply Df in E as [K1' K2']. apply VU; auto.
    - intros f Hf Kf. rewrite FHf. apply LFf in Hf as [_ Hf]. destruct (Z.eqb_spec f (fa m b)); [congruence|]. destruct (Z.eqb_spec f (fa m a)); [congruence|auto].
    - rewrite FHf. destruct (Z.eqb_spec (fa m a) (fa m b)); [congruence|]. rewrite Z.eqb_refl. exact RI. }
  split; [exact V'|]. split.
  { rewrite CN5. pose proof (sl_kept _ _ SL3) as [S3 _]. unfold scal in S3. injection S3 as S1 S2 S3 S4 S5 S6 _ _ _ _ _ _ _ _ _. injection CN4 as U1 U2 U3 U4 U5 U6. congruence. }
  split; [exact DM5'|]. split; [exact LHf|]. split; [exact LVf|]. split; [exact LFf|]. split; [intros h Hh; auto|].
  intros v Hv Ka Kb. rewrite VHf. apply VU; auto.
Qed.
End RE.

Lemma remove_edge_spec m e : Valid m -> liveH m (eHe e) ->
  let a := eHe e in let b := tw a in ~ (nx m a = a /\ nx m b = b) ->
  (ext m b -> removeEdge m e = Throw) /\
  (~ ext m b -> fa m a = fa m b -> removeEdge m e = Ok (m, None)) /\
  (~ ext m b -> fa m a <> fa m b -> exists m', removeEdge m e = Ok (m', Some (fa m a)) /\ Valid m' /\
    nVertices m' = nVertices m /\ nEdges m' = nEdges m - 1 /\ nHalfedges m' = nHalfedges m - 2 /\ nInterior m' = nInterior m - 2 /\ nFaces m' = nFaces m - 1 /\ nLoops m' = nLoops m /\
    (NoDeadLoops m -> NoDeadLoops m') /\
    (forall h, liveH m' h <-> liveH m h /\ h <> a /\ h <> b) /\ (forall v, liveV m' v <-> liveV m v) /\ (forall f, liveFL m' f <-> liveFL m f /\ f <> fa m b) /\
    (forall h, liveH m' h -> ve m' h = ve m h) /\
    (forall h, liveH m' h -> fa m' h = fa m a <-> fa m h = fa m a \/ fa m h = fa m b) /\
    (forall h, liveH m' h -> fa m h <> fa m b -> fa m' h = fa m h) /\
    (forall h, liveH m' h -> nx m h <> a -> nx m h <> b -> nx m' h = nx m h) /\
    (forall h, liveH m' h -> nx m h = a -> nx m' h = if nx m b =? b then nx m a else nx m b) /\
    (forall h, liveH m' h -> nx m h = b -> nx m' h = if nx m a =? a then nx m b else nx m a)).
Proof.
  intros V La a b NM. split; [|split].
  - intros E. unfold removeEdge. rewrite eIsBoundary_ok by auto. cbn [bind]. fold a. fold b. unfold ext in E. destruct (Z.leb_spec (fFill m) (fa m b)); [|lia]. reflexivity.
  - intros I F. apply removeEdge_same; auto.
  - intros I F. destruct (removeEdge_merge m e V La I F NM) as (m' & R & V' & C & D & LH & LV & LF & INC & _). fold a in LH, LF, INC, C, R. fold b in LH, LF, INC, C, R.
    injection C as C1 C2 C3 C4 C5 C6. exists m'. split; [exact R|]. split; [exact V'|]. do 6 (split; [auto|]).
    split. { unfold NoDeadLoops. rewrite C6. unfold dims in D. injection D as _ _ _ _ D5 _ _ _ _. intros ->. auto. }
    split; [exact LH|]. split; [exact LV|]. split; [exact LF|]. split; [intros h Hh; apply INC; auto|].
    split. { intros h Hh. destruct (INC h Hh) as (_ & -> & _). destruct (Z.eqb_spec (fa m h) (fa m b)); [tauto|]. split; [auto|]. intros [K|K]; auto; contradiction. }
    split. { intros h Hh K. destruct (INC h Hh) as (_ & -> & _). destruct (Z.eqb_spec (fa m h) (fa m b)); [contradiction|auto]. }
    split; [|split].
    + intros h Hh K1 K2. destruct (INC h Hh) as (_ & _ & ->). destruct (Z.eqb_spec (nx m h) a); [contradiction|]. destruct (Z.eqb_spec (nx m h) b); [contradiction|auto].
    + intros h Hh K. destruct (INC h Hh) as (_ & _ & ->). rewrite K, Z.eqb_refl. reflexivity.
    + intros h Hh K. destruct (INC h Hh) as (_ & _ & ->). rewrite K, Z.eqb_refl. assert (b <> a) by apply tw_neq. destruct (Z.eqb_spec b a); [contradiction|]. reflexivity.
Qed.
