From Coq Require Import Reals Lra Permutation.
From Verif Require Import Base DataModel DataSpec DataProofs MeshModel MeshSpec MeshBase MeshExec MeshOrbit MeshOpSpec MeshFlip MeshThms MeshSplit MeshHistorySpec MeshHistory MeshDataModel CollapseProofs CollapseTop CountSpec
  MatrixModel MatrixSpec MatrixProofs GeoModel IntrinsicModel IntrinsicSpec Intrinsic1 Intrinsic2 Intrinsic3 Intrinsic4 Intrinsic5 Intrinsic6 Intrinsic7 Intrinsic8 Intrinsic9 Intrinsic11.
Open Scope R_scope.
Section M.
Context (m : mesh) (V : Valid m) (TR : triangular m) (len : mdata R) (MT : Metric m len).
Let CN := va_cn m V.
Local Notation intH := (intH m).
Local Notation L := (lh len).
Definition ccw (h : Z) : Z := tw (nx m (nx m h)).
Lemma ro_ccw h : intH h -> ro m (ccw h) = h.
Proof. intros K. unfold ro, ccw. rewrite tw_tw. apply (three m V TR h K). Qed.
Lemma ccw_live h : intH h -> liveH m (ccw h) /\ ve m (ccw h) = ve m h.
Proof.
  intros K. pose proof (intH_nx m V h K) as K1. pose proof (intH_nx m V _ K1) as K2. split; [apply (cn_tw _ CN), K2|]. unfold ccw. rewrite <- (cn_vnx _ CN) by apply K2. destruct (three m V TR h K) as (-> & _). reflexivity.
Qed.
Fixpoint back (x : Z) (t : list Z) : Prop := match t with [] => True | y :: t' => ro m y = x /\ back y t' end.
Lemma chain_back l : forall a s, chain (ro m) a l s -> back s (rev l).
Proof.
  induction l as [|z l IH] using rev_ind; intros a s C; cbn; auto. apply chain_app in C as (c & C1 & C2). cbn in C2. destruct C2 as [-> C2]. rewrite rev_app_distr. cbn. split; eauto.
Qed.
Definition around (v : Z) : list Z := match vertHalfedges m v with Ok (x :: t) => x :: rev t | _ => [] end.
Lemma around_ok v : liveV m v -> exists t, around v = vh m v :: t /\ (forall h, In h (vh m v :: t) <-> liveH m h /\ ve m h = v) /\ NoDup (vh m v :: t) /\ back (vh m v) t /\ last (vh m v :: t) INVALID = ro m (vh m v) /\ (length (vh m v :: t) < loopFuel m)%nat.
Proof.
  intros Lv. destruct (vertHalfedges_ok m V v Lv) as (l & El & Hl & C & ND & R). destruct l as [|x rest]; [congruence|]. cbn in C. destruct C as [-> C]. exists (rev rest). unfold around. rewrite El. split; auto.
  assert (P : Permutation (vh m v :: rest) (vh m v :: rev rest)) by (constructor; apply Permutation_rev). split; [|split; [|split; [|split]]].
  - intros h. rewrite <- R. split; apply Permutation_in; auto. apply Permutation_sym; auto.
  - eapply Permutation_NoDup; eauto.
  - eapply chain_back; eauto.
  - destruct rest as [|y rest]; [cbn in *; auto|]. cbn in C. destruct C as [-> _]. cbn [rev]. rewrite app_comm_cons. rewrite last_last. reflexivity.
  - rewrite (Permutation_length (Permutation_sym P)). pose proof (loopFuel_big m) as LB. destruct (cn_vh _ CN v Lv) as [Lh E]. destruct (vert_cycle m V _ Lh) as (l' & _ & _ & ND' & R' & B').
    assert (length (vh m v :: rest) = length l'). { apply Permutation_length, NoDup_Permutation; auto. intros h. rewrite R, R', E. tauto. } rewrite H. lia.
Qed.
Context (scaled : mdata R) (LS : length (dat scaled) = Z.to_nat (heCap m)).
Local Notation sc := (valAt scaled).
Fixpoint before (h : Z) (l : list Z) : R := match l with [] => 0 | x :: t => if (x =? h)%Z then 0 else sc x + before h t end.
Definition theta (h : Z) : R := before h (around (ve m h)).
Definition vecV (h : Z) : V2 := mul2 (fromAngle (theta h)) (L h).
Fixpoint steps (th : Z -> R) (x : Z) (t : list Z) : Prop := match t with [] => True | y :: t' => th y = th x + sc x /\ steps th y t' end.
Lemma before_at p h q : ~ In h p -> before h (p ++ h :: q) = Rsum sc p.
Proof. induction p as [|x p IH]; cbn [app before In]; intros N; [rewrite Z.eqb_refl; auto|]. rewrite (proj2 (Z.eqb_neq x h)) by tauto. rewrite IH by tauto. rewrite Rsum_cons. reflexivity. Qed.
Lemma steps_before l : NoDup l -> forall p x t, l = p ++ x :: t -> steps (fun h => before h l) x t.
Proof.
  intros N p x t. revert p x. induction t as [|y t IH]; intros p x E; cbn; auto. split; [|apply (IH (p ++ [x])); rewrite E, <- app_assoc; reflexivity].
  assert (NP : ~ In x p) by (rewrite E in N; apply NoDup_remove_2 in N; intros K; apply N, in_or_app; auto).
  assert (NY : ~ In y (p ++ [x])) by (rewrite E in N; replace (p ++ x :: y :: t) with ((p ++ [x]) ++ y :: t) in N by (rewrite <- app_assoc; reflexivity); apply NoDup_remove_2 in N; intros K; apply N, in_or_app; auto).
  rewrite E at 2. rewrite before_at by auto. replace l with ((p ++ [x]) ++ y :: t) by (rewrite E, <- app_assoc; reflexivity). rewrite before_at by auto. rewrite Rsum_app, Rsum_cons, Rsum_nil. ring.
Qed.
Lemma ext_last x y : liveH m y -> ro m y = x -> ext m x -> vh m (ve m y) = y.
Proof. intros K E X. apply (cn_vbd _ CN); auto. rewrite <- (ext_nx m V) by (apply (cn_tw _ CN); auto). change (nx m (tw y)) with (ro m y). rewrite E. auto. Qed.
Lemma loop_fold s t : forall x fuel coord d, s = vh m (ve m s) -> back x t -> (forall h, In h (x :: t) -> liveH m h /\ ve m h = ve m s) -> liveH m s -> ~ In s t -> last (x :: t) INVALID = ro m s -> (length t < fuel)%nat -> coord = theta x -> steps theta x t -> length (dat d) = Z.to_nat (heCap m) ->
  vertexVectors_loop fuel m len scaled s x coord d = foldM (fun d h => setAt d h (vecV h)) (x :: t) d.
Proof.
  induction t as [|y t IH]; intros x fuel coord d HS HB HL Ls NI HLast HF HC HT Ld.
  all: destruct fuel as [|fuel]; [lia|]; destruct (HL x (or_introl eq_refl)) as [Lx Vx]; cbn [vertexVectors_loop foldM]; rewrite (len_ok m V len MT) by auto; cbn [bind].
  all: assert (E1 : mul2 (fromAngle coord) (L x) = vecV x) by (rewrite HC; reflexivity); rewrite E1; destruct (setAt d x (vecV x)) as [d1| |] eqn:Q1; cbn [bind]; auto; rewrite (dataAt_in 0) by (rewrite LS; apply (he_cap m V); auto); cbn [bind]; rewrite isInterior_ok by auto; cbn [bind].
  - destruct (fFill m <=? fa m x)%Z eqn:X; cbn [negb]; auto. assert (K : intH x) by (split; auto; apply (not_ext m); auto). destruct (ccw_live x K) as [Lc _]. pose proof (intH_nx m V x K) as K1. rewrite next_live by auto. cbn [bind]. rewrite next_live by (auto; apply K1). cbn [bind]. change (tw (nx m (nx m x))) with (ccw x).
    cbn [last] in HLast. assert (ccw x = s) as -> by (apply (ro_inj m V); auto; rewrite ro_ccw by auto; auto). rewrite Z.eqb_refl. reflexivity.
  - destruct (HL y (or_intror (or_introl eq_refl))) as [Ly Vy]. cbn in HB. destruct HB as [HB1 HB2]. destruct (fFill m <=? fa m x)%Z eqn:X; cbn [negb].
    + exfalso. apply NI. left. pose proof (ext_last x y Ly HB1 (proj1 (extb_spec m x) X)) as Q. rewrite Vy in Q. congruence.
    + assert (K : intH x) by (split; auto; apply (not_ext m); auto). destruct (ccw_live x K) as [Lc _]. pose proof (intH_nx m V x K) as K1. rewrite next_live by auto. cbn [bind]. rewrite next_live by (auto; apply K1). cbn [bind]. change (tw (nx m (nx m x))) with (ccw x).
      assert (ccw x = y) as -> by (apply (ro_inj m V); auto; rewrite ro_ccw by auto; auto). rewrite (proj2 (Z.eqb_neq y s)) by (intros ->; apply NI; left; auto). cbn in HT. destruct HT as [HT1 HT2].
      apply IH; auto.
      * intros h Hh. apply HL. right. auto.
      * intros Q. apply NI. right. auto.
      * cbn in HF. lia.
      * rewrite HT1, HC. reflexivity.
      * apply setAt_len in Q1. congruence.
Qed.
Lemma steps_ext th th' t : forall x, (forall h, In h (x :: t) -> th h = th' h) -> steps th x t -> steps th' x t.
Proof. induction t as [|y t IH]; intros x H; cbn; auto. intros [A B]. rewrite <- (H x), <- (H y) by (cbn; auto). split; auto. apply IH; auto. intros h Hh. apply H. right; auto. Qed.
Lemma vertexVectors_ok : exists d, halfedgeVectorsInVertex m len scaled = Ok d /\ length (dat d) = Z.to_nat (heCap m) /\ forall h, liveH m h -> at_ (mk2 0 0) d h = vecV h.
Proof.
  destruct (els_ok m EVertex V) as (E & N & _ & I). destruct (newData_R m EHalfedge (mk2 0 0) (mk2 0 0)) as [NL NV]. cbn [capacity] in NL. unfold halfedgeVectorsInVertex. rewrite E. cbn [bind]. rewrite forEach_map. fold (zl m EVertex).
  rewrite (foldM_nested_len (Z.to_nat (heCap m)) (fun _ d h => setAt d h (vecV h)) around); auto.
  2: { intros d v Ld Hv. apply zl_In in Hv; auto. cbn [liveE] in Hv. destruct (around_ok v Hv) as (t & EA & R & ND & B & LA & LL). destruct (cn_vh _ CN v Hv) as [Lh Ev]. rewrite vHe_ok by (apply (liveV_bnd m V) in Hv; lia). change (getZ (vHalfedge m) v) with (vh m v). cbn [bind]. rewrite EA.
       assert (TH : forall h, In h (vh m v :: t) -> before h (vh m v :: t) = theta h) by (intros h Hh; apply R in Hh as [_ Q]; unfold theta; rewrite Q, EA; reflexivity).
       apply loop_fold; auto.
       - congruence.
       - intros h Hh. apply R in Hh. rewrite Ev. auto.
       - inversion ND; auto.
       - cbn [length] in LL. lia.
       - rewrite <- TH by (left; auto). cbn. rewrite Z.eqb_refl. reflexivity.
       - apply (steps_ext (fun h => before h (vh m v :: t))); auto. apply (steps_before _ ND []). reflexivity. }
  2: { intros a s b s' Ls Es. apply setAt_len in Es. congruence. }
  set (ps := flat_map _ _). assert (PS : forall q, In q ps <-> liveH m (snd q) /\ ve m (snd q) = fst q).
  { intros [v h]. unfold ps. rewrite in_flat_map. cbn [fst snd]. split.
    - intros (v' & Hv & Hp). apply zl_In in Hv; auto. apply in_map_iff in Hp as (h' & Q & Hh). injection Q as <- <-. destruct (around_ok v' Hv) as (t & EA & R & _). rewrite EA in Hh. apply R in Hh. auto.
    - intros (A & B). exists v. assert (Lv : liveV m v) by (rewrite <- B; apply (cn_ve _ CN); auto). split; [apply zl_In; auto|]. destruct (around_ok v Lv) as (t & EA & R & _). apply in_map_iff. exists h. split; auto. rewrite EA. apply R. auto. }
  assert (NP : NoDup (map snd ps)).
  { assert (Q : forall l, NoDup l -> (forall v, In v l -> liveV m v) -> NoDup (map (@snd Z Z) (flat_map (fun v => map (pair v) (around v)) l)) /\ forall h, In h (map (@snd Z Z) (flat_map (fun v => map (pair v) (around v)) l)) -> In (ve m h) l).
    { induction l as [|v t IH]; intros Nl Il; [cbn; split; [constructor|auto]|]. inversion Nl as [|? ? N1 N2]; subst. destruct (IH N2 (fun f K => Il f (or_intror K))) as [IH1 IH2]. cbn [flat_map]. rewrite map_app, map_map. cbn [snd]. rewrite map_id. destruct (around_ok v (Il v (or_introl eq_refl))) as (t' & EA & R & ND & _). rewrite EA.
      assert (SE : forall h, In h (vh m v :: t') -> ve m h = v) by (intros h Hh; apply R in Hh as [_ Q]; congruence). split.
      - apply NoDup_app_intro; auto. intros h H1 H2. apply SE in H1. apply IH2 in H2. congruence.
      - intros h Hh. apply in_app_or in Hh as [Hh|Hh]; [left; symmetry; auto|right; auto]. }
    apply Q; [apply zl_NoDup; auto|]. intros f Hf. apply zl_In in Hf; auto. }
  destruct (fill_key (mk2 0 0) (fun (d : mdata V2) (q : Z * Z) => setAt d (snd q) (vecV (snd q))) snd (fun q => vecV (snd q)) (Z.to_nat (heCap m)) ps (newData m EHalfedge (mk2 0 0)) NL NP) as (d & F & Ld & Vd & _).
  - intros q Hq. apply PS in Hq as (A & _). apply (he_cap m V). apply A.
  - intros; reflexivity.
  - exists d. split; [exact F|]. split; auto. intros h K. apply (Vd (ve m h, h)). apply PS. cbn [fst snd]. auto.
Qed.
(** the angles *)
Context (PS : forall h, intH h -> 0 < sc h) (SUM : forall v, liveV m v -> Rsum sc (cornersAt m v) = turn m v).
Lemma vecV_norm h : liveH m h -> norm2_2 (vecV h) = L h * L h.
Proof. intros K. unfold norm2_2, vecV, mul2, fromAngle. cbn [px py]. pose proof (sin2_cos2 (theta h)) as S. unfold Rsqr in S. replace (cos (theta h) * L h * (cos (theta h) * L h) + sin (theta h) * L h * (sin (theta h) * L h)) with ((sin (theta h) * sin (theta h) + cos (theta h) * cos (theta h)) * (L h * L h)) by ring. rewrite S. ring. Qed.
Lemma theta_first v : liveV m v -> theta (vh m v) = 0.
Proof. intros Lv. destruct (cn_vh _ CN v Lv) as [_ E]. unfold theta. rewrite E. destruct (around_ok v Lv) as (t & -> & _). cbn. rewrite Z.eqb_refl. reflexivity. Qed.
(** the interior ones among the halfedges around v are its corners *)
Lemma sum_around v t : liveV m v -> (forall h, In h t <-> liveH m h /\ ve m h = v) -> NoDup t -> Rsum sc (filter (fun h => negb (extb m h)) t) = turn m v.
Proof.
  intros Lv R N. rewrite <- SUM by auto. apply Rsum_set; [apply filter_NoDup; auto|apply cornersAt_ok; auto|]. intros h. rewrite filter_In, R. destruct (cornersAt_ok m V v) as [_ I]. rewrite I, negb_true_iff. pose proof (extb_spec m h). destruct (extb m h); intuition congruence.
Qed.
Lemma back_split p x y q s : back s (p ++ x :: y :: q) -> ro m y = x.
Proof. revert s. induction p as [|a p IH]; cbn; intros s H; [apply H|]. destruct H. eauto. Qed.
Lemma theta_spec h : liveH m h -> exists p q, around (ve m h) = p ++ h :: q /\ theta h = Rsum sc p /\ (forall x, In x p -> intH x) /\ Rsum sc p + (if extb m h then 0 else sc h) + Rsum sc (filter (fun h => negb (extb m h)) q) = turn m (ve m h) /\ (ext m h -> q = []) /\
  (q = [] -> ro m (vh m (ve m h)) = h) /\ (forall y q', q = y :: q' -> ro m y = h /\ theta y = theta h + sc h).
Proof.
  intros K. assert (Lv : liveV m (ve m h)) by (apply (cn_ve _ CN); auto). destruct (around_ok _ Lv) as (t & EA & R & ND & B & LA & _). assert (I : In h (vh m (ve m h) :: t)) by (apply R; auto). apply in_split in I as (p & q & E). exists p, q. rewrite EA. split; auto.
  assert (NP : ~ In h p) by (rewrite E in ND; apply NoDup_remove_2 in ND; intros Q; apply ND, in_or_app; auto).
  assert (TH : theta h = Rsum sc p) by (unfold theta; rewrite EA, E; apply before_at; auto).
  assert (EL : forall x y a b, vh m (ve m h) :: t = a ++ x :: y :: b -> ro m y = x). { intros x y a b Q. destruct a as [|a0 a]; cbn in Q; injection Q as Q1 Q2; [subst; cbn in B; apply B|]. subst t. eapply back_split; eauto. }
  assert (EX : forall x y a b, vh m (ve m h) :: t = a ++ x :: y :: b -> ~ ext m x). { intros x y a b Q X. pose proof (EL _ _ _ _ Q) as RY. assert (Iy : In y (vh m (ve m h) :: t)) by (rewrite Q; apply in_or_app; right; right; left; auto). apply R in Iy as [Ly Vy]. pose proof (ext_last x y Ly RY X) as W. rewrite Vy in W.
    destruct a as [|a0 a]; cbn in Q; injection Q as Q1 Q2; rewrite Q2 in ND; inversion ND as [|? ? N1 N2]; apply N1; [left; symmetry; exact W|]. rewrite W. apply in_or_app; right; right; left; auto. }
  assert (PI' : forall x, In x p -> intH x). { intros x Hx. split; [apply R; rewrite E; apply in_or_app; auto|]. apply in_split in Hx as (p1 & p2 & ->). rewrite <- app_assoc in E. cbn in E. destruct p2 as [|y p2]; cbn in E; eapply EX; eauto. }
  split; auto. split; auto. split; [|split; [|split]].
  - pose proof (sum_around (ve m h) (p ++ h :: q) Lv) as SA. rewrite <- E in SA. specialize (SA R ND). rewrite E in SA. rewrite filter_app in SA. cbn [filter] in SA. rewrite Rsum_app in SA.
    replace (Rsum sc (filter (fun h => negb (extb m h)) p)) with (Rsum sc p) in SA.
    + rewrite <- SA. destruct (extb m h); cbn [negb]; rewrite ?Rsum_cons; ring.
    + clear - PI'. induction p as [|x p IH]; cbn [filter]; auto. assert (intH x) as KX by (apply PI'; left; auto). destruct (extb m x) eqn:Q; [exfalso; apply KX; apply (extb_spec m); auto|]. cbn [negb]. rewrite !Rsum_cons, IH; auto. intros; apply PI'; right; auto.
  - intros X. destruct q as [|y q]; auto. exfalso. eapply EX; eauto.
  - intros ->. rewrite E, last_last in LA. auto.
  - intros y q' ->. split; [eapply EL; eauto|]. pose proof (steps_before _ ND p h (y :: q') E) as S. cbn in S. destruct S as [S _]. assert (Vy : ve m y = ve m h) by (apply R; rewrite E; apply in_or_app; right; right; left; auto). unfold theta. rewrite Vy, EA. auto.
Qed.
Lemma theta_range h : liveH m h -> 0 <= theta h < 2 * PI.
Proof.
  intros K. destruct (theta_spec h K) as (p & q & E & T & PI' & S & X & _). rewrite T. assert (P0 : 0 <= Rsum sc p) by (apply Rsum_nonneg; intros x Hx; apply Rlt_le, PS; auto). split; auto.
  assert (Q0 : 0 <= Rsum sc (filter (fun h => negb (extb m h)) q)). { apply Rsum_nonneg. intros x Hx. apply filter_In in Hx as [Hx XX]. apply Rlt_le, PS. split; [|apply (not_ext m); destruct (extb m x); auto; discriminate]. assert (Lv : liveV m (ve m h)) by (apply (cn_ve _ CN); auto). destruct (around_ok _ Lv) as (t & EA & R & _). apply R. rewrite <- EA, E. apply in_or_app. right; right; auto. }
  pose proof PI_RGT_0. destruct (extb m h) eqn:XX.
  - assert (turn m (ve m h) = PI). { unfold turn. assert (Lv : liveV m (ve m h)) by (apply (cn_ve _ CN); auto). assert (bdb m (ve m h) = true) as ->; auto. pose proof (X (proj1 (extb_spec m h) XX)) as Q. subst q. destruct (theta_spec h K) as (p' & q' & E' & _ & _ & _ & X' & RL & _). rewrite (X' (proj1 (extb_spec m h) XX)) in RL. specialize (RL eq_refl). unfold bdb. destruct (cn_vh _ CN _ Lv) as [Lh _].
      apply (extb_spec m). rewrite <- (ext_nx m V) by (apply (cn_tw _ CN); auto). change (nx m (tw (vh m (ve m h)))) with (ro m (vh m (ve m h))). rewrite RL. apply (extb_spec m). auto. }
    lra.
  - assert (0 < sc h) by (apply PS; split; auto; apply (not_ext m); auto). assert (turn m (ve m h) <= 2 * PI) by (unfold turn; destruct (bdb m (ve m h)); lra). lra.
Qed.
Lemma theta_ext h : liveH m h -> ext m h -> theta h = PI.
Proof.
  intros K X. destruct (theta_spec h K) as (p & q & E & T & _ & S & XQ & RL & _). specialize (XQ X). subst q. cbn [filter] in S. rewrite Rsum_nil in S. rewrite (proj2 (extb_spec m h) X) in S. specialize (RL eq_refl).
  assert (Lv : liveV m (ve m h)) by (apply (cn_ve _ CN); auto). destruct (cn_vh _ CN _ Lv) as [Lh _]. assert (bdb m (ve m h) = true) as B. { unfold bdb. apply (extb_spec m). rewrite <- (ext_nx m V) by (apply (cn_tw _ CN); auto). change (nx m (tw (vh m (ve m h)))) with (ro m (vh m (ve m h))). rewrite RL. auto. }
  unfold turn in S. rewrite B in S. lra.
Qed.
Lemma theta_step h : intH h -> theta (ccw h) = theta h + sc h \/ (ccw h = vh m (ve m h) /\ theta h + sc h = 2 * PI).
Proof.
  intros K. destruct (theta_spec h (proj1 K)) as (p & q & E & T & _ & S & _ & RL & ST). destruct (ccw_live h K) as [Lc Vc]. assert (Lv : liveV m (ve m h)) by (apply (cn_ve _ CN); apply K). destruct (cn_vh _ CN _ Lv) as [Lh Evh].
  destruct (extb m h) eqn:XX; [exfalso; apply K, (extb_spec m); auto|]. destruct q as [|y q].
  - right. specialize (RL eq_refl). assert (C : ccw h = vh m (ve m h)) by (apply (ro_inj m V); auto; rewrite ro_ccw by auto; auto). split; auto. cbn [filter] in S. rewrite Rsum_nil in S. rewrite T. unfold turn in S.
    assert (B : bdb m (ve m h) = false). { unfold bdb. destruct (extb m (tw (vh m (ve m h)))) eqn:Q; auto. exfalso. apply K. rewrite <- RL. unfold ro. apply (ext_nx m V); [apply (cn_tw _ CN); auto|]. apply (extb_spec m). auto. }
    rewrite B in S. lra.
  - left. destruct (ST y q eq_refl) as [RY TY]. assert (C : ccw h = y). { assert (Ly : liveH m y). { destruct (around_ok _ Lv) as (t & EA & R & _). apply R. rewrite <- EA, E. apply in_or_app. right; right; left; auto. } apply (ro_inj m V); auto. rewrite ro_ccw by auto. auto. }
    rewrite C. auto.
Qed.
End M.
