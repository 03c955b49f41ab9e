(** separateNonmanifoldVertices: handing out the vertices *)
From Verif Require Import Base MeshModel MeshSpec MeshBase GenModel GenSpec GenBase GenBuild1 GenBuild4 GenOpsModel GenOps1 GenOps2 GenSepSpec
  DisjointSetsModel GenTopoModel GenTopoSpec GenTopo1.
Open Scope Z_scope.

Lemma zlen_growData l n x : zlen (growData l n x) = Z.max (zlen l) n.
Proof. unfold growData. rewrite zlen_app. unfold zlen at 2. rewrite repeat_length. pose proof (zlen_nonneg l). lia. Qed.
Lemma getZ_growData l n x i : 0 <= i < zlen l -> getZ (growData l n x) i = getZ l i.
Proof. intros H. unfold growData. apply getZ_app1; lia. Qed.
Lemma getZ_rep (x : Z) n i : 0 <= i < Z.of_nat n -> getZ (repeat x n) i = x.
Proof. intros H. unfold getZ. destruct (Z.ltb_spec i 0); [lia|]. rewrite (nth_indep _ _ x) by (rewrite repeat_length; lia). apply nth_repeat. Qed.
Lemma zlen_rep (x : Z) n : zlen (repeat x n) = Z.of_nat n. Proof. unfold zlen. rewrite repeat_length. reflexivity. Qed.

Section A.
Context (m0 : gmesh) (V : GValid m0) (rt : Z -> Z) (RI : forall a, inH m0 a -> inH m0 (rt a))
  (RL : forall a b, inH m0 a -> inH m0 b -> (rt a = rt b <-> edgeLinked m0 a b)).
Notation N := (gHeFill m0).
Record Inv (k : Z) (m : gmesh) (par ent used : list Z) : Prop := {
  i_len : forall a, zlen (ga m a) = gCap m (typeOf a);
  i_sz : forall t, 0 <= gFill m t <= gCap m t;
  i_oth : forall a, typeOf a <> TVe -> a <> AVert -> ga m a = ga m0 a;
  i_frm : forall t, t <> TVe -> gFill m t = gFill m0 t /\ gCap m t = gCap m0 t;
  i_cnt : gHe m = gHe m0 /\ gInt m = gInt m0 /\ gEd m = gEd m0 /\ gFc m = gFc m0 /\ gVe m = gVFill m;
  i_more : gVFill m0 <= gVFill m;
  i_lens : zlen par = gVCap m /\ zlen used = gVCap m /\ zlen ent = N;
  i_rest : forall h, k <= h < N -> ev m AVert h = ev m0 AVert h;
  i_done : forall h, 0 <= h < k -> ev m AVert h = getZ ent (rt h) /\ 0 <= getZ ent (rt h) < gVFill m;
  i_ent : forall r, 0 <= r < N -> getZ ent r <> -1 -> exists h, 0 <= h < k /\ rt h = r;
  i_inj : forall a b, 0 <= a < k -> 0 <= b < k -> getZ ent (rt a) = getZ ent (rt b) -> rt a = rt b;
  i_par : forall h, 0 <= h < k -> getZ par (getZ ent (rt h)) = ev m0 AVert h;
  i_used : forall v, 0 <= v < gVFill m0 -> (getZ used v <> 0 <-> exists h, 0 <= h < k /\ getZ ent (rt h) = v);
  i_touch : forall h, 0 <= h < k -> getZ used (ev m0 AVert h) <> 0;
  i_new : forall v, gVFill m0 <= v < gVFill m -> exists h, 0 <= h < k /\ getZ ent (rt h) = v;
  i_vhe : forall h, 0 <= h < k -> 0 <= ev m AVHe (getZ ent (rt h)) < k /\ ev m AVert (ev m AVHe (getZ ent (rt h))) = getZ ent (rt h);
  i_id : forall v, 0 <= v < gVFill m0 -> getZ used v <> 0 -> getZ par v = v }.

(** the entry for the corner [c] is there *)
Record Got (c : Z) (m : gmesh) (par ent used : list Z) (t : Z) (m1 : gmesh) (par1 ent1 used1 : list Z) : Prop := {
  g_len : forall a, zlen (ga m1 a) = gCap m1 (typeOf a);
  g_sz : forall t, 0 <= gFill m1 t <= gCap m1 t;
  g_oth : forall a, typeOf a <> TVe -> ga m1 a = ga m a;
  g_vhe : forall v, 0 <= v < gVFill m -> ev m1 AVHe v = ev m AVHe v;
  g_frm : forall t, t <> TVe -> gFill m1 t = gFill m t /\ gCap m1 t = gCap m t;
  g_cnt : gHe m1 = gHe m /\ gInt m1 = gInt m /\ gEd m1 = gEd m /\ gFc m1 = gFc m /\ gVe m1 = gVFill m1;
  g_more : gVFill m <= gVFill m1;
  g_lens : zlen par1 = gVCap m1 /\ zlen used1 = gVCap m1 /\ zlen ent1 = N;
  g_t : 0 <= t < gVFill m1;
  g_ent : forall r, 0 <= r < N -> getZ ent1 r = if r =? rt c then t else getZ ent r;
  g_par : forall v, 0 <= v < gVFill m -> v <> t -> getZ par1 v = getZ par v;
  g_part : getZ par1 t = ev m0 AVert c;
  g_used : forall v, 0 <= v < gVFill m0 -> (getZ used1 v <> 0 <-> getZ used v <> 0 \/ v = t);
  g_touch : getZ used1 (ev m0 AVert c) <> 0;
  g_id : t < gVFill m0 -> getZ par1 t = t;
  g_new : forall v, gVFill m <= v < gVFill m1 -> v = t;
  g_old : (exists h, 0 <= h < c /\ rt h = rt c /\ getZ ent (rt h) = t) \/ (forall h, 0 <= h < c -> rt h <> rt c /\ getZ ent (rt h) <> t) }.

Lemma rt_tail a b : inH m0 a -> inH m0 b -> rt a = rt b -> ev m0 AVert a = ev m0 AVert b.
Proof. intros A B E. apply (linked_tail m0 V). apply RL; auto. Qed.

Lemma got_inv c m par ent used t m1 par1 ent1 used1 : inH m0 c -> Inv c m par ent used -> Got c m par ent used t m1 par1 ent1 used1 ->
  Inv (c + 1) (wA (wA m1 AVert c t) AVHe t c) par1 ent1 used1.
Proof.
  intros Hc I G. assert (DM : forall h, 0 <= h < c -> inH m0 h) by (unfold inH in *; intros; lia).
  assert (LV : zlen (ga m1 AVert) = gHeCap m0) by (rewrite (g_len _ _ _ _ _ _ _ _ _ _ G); cbn [typeOf]; destruct (g_frm _ _ _ _ _ _ _ _ _ _ G THe ltac:(discriminate)) as [_ C1], (i_frm _ _ _ _ _ I THe ltac:(discriminate)) as [_ C2]; cbn [gCap] in *; congruence).
  assert (NC : N <= gHeCap m0) by (pose proof (gv_fill m0 V THe) as Q; cbn [gFill gCap] in Q; lia).
  assert (BV : 0 <= c < zlen (ga m1 AVert)) by (unfold inH in *; lia).
  assert (BH : 0 <= t < zlen (ga (wA m1 AVert c t) AVHe)). { rewrite len_wA, (g_len _ _ _ _ _ _ _ _ _ _ G). cbn [typeOf gCap]. pose proof (g_t _ _ _ _ _ _ _ _ _ _ G). pose proof (g_sz _ _ _ _ _ _ _ _ _ _ G TVe) as Q. cbn [gFill gCap] in Q. lia. }
  assert (EV : forall h, ev (wA (wA m1 AVert c t) AVHe t c) AVert h = if h =? c then t else ev m AVert h).
  { intros h. rewrite ev_other by discriminate. rewrite ev_same by auto. destruct (h =? c); auto. unfold ev. rewrite (g_oth _ _ _ _ _ _ _ _ _ _ G) by discriminate. reflexivity. }
  assert (EH : forall v, ev (wA (wA m1 AVert c t) AVHe t c) AVHe v = if v =? t then c else ev m1 AVHe v).
  { intros v. rewrite ev_same by auto. destruct (v =? t); reflexivity. }
  assert (EN : forall h, inH m0 h -> getZ ent1 (rt h) = if rt h =? rt c then t else getZ ent (rt h)) by (intros h Hh; apply (g_ent _ _ _ _ _ _ _ _ _ _ G); apply RI in Hh; exact Hh).
  assert (ENK : forall h, 0 <= h < c -> getZ ent1 (rt h) = getZ ent (rt h)).
  { intros h Hh. rewrite EN by auto. destruct (Z.eqb_spec (rt h) (rt c)) as [E|]; auto. destruct (g_old _ _ _ _ _ _ _ _ _ _ G) as [(h1 & H1 & E1 & <-)|Q]; [congruence|]. destruct (Q h Hh). congruence. }
  assert (ENC : getZ ent1 (rt c) = t) by (rewrite EN, Z.eqb_refl; auto).
  assert (SPL : forall h, 0 <= h < c + 1 -> h = c \/ 0 <= h < c) by (intros; lia).
  pose proof (g_t _ _ _ _ _ _ _ _ _ _ G) as Ht.
  constructor.
  - intros a. rewrite !len_wA, (g_len _ _ _ _ _ _ _ _ _ _ G), !cap_wA. reflexivity.
  - intros u. rewrite !fill_wA, !cap_wA. apply (g_sz _ _ _ _ _ _ _ _ _ _ G).
  - intros a Ta Na. transitivity (ga m1 a); [|rewrite (g_oth _ _ _ _ _ _ _ _ _ _ G) by auto; apply (i_oth _ _ _ _ _ I); auto].
    unfold wA, setA, put. cbn [ga]. rewrite (arr_eqb_neq AVHe a) by (intros <-; apply Ta; reflexivity). rewrite (arr_eqb_neq AVert a) by auto. reflexivity.
  - intros u Hu. rewrite !fill_wA, !cap_wA. destruct (g_frm _ _ _ _ _ _ _ _ _ _ G u Hu), (i_frm _ _ _ _ _ I u Hu). split; congruence.
  - pose proof (g_cnt _ _ _ _ _ _ _ _ _ _ G) as (A1 & A2 & A3 & A4 & A5). pose proof (i_cnt _ _ _ _ _ I) as (B1 & B2 & B3 & B4 & _). cbn. repeat split; congruence.
  - change (gVFill m0 <= gVFill m1). pose proof (i_more _ _ _ _ _ I). pose proof (g_more _ _ _ _ _ _ _ _ _ _ G). lia.
  - exact (g_lens _ _ _ _ _ _ _ _ _ _ G).
  - intros h Hh. rewrite EV. destruct (Z.eqb_spec h c); [lia|]. apply (i_rest _ _ _ _ _ I). lia.
  - intros h Hh. rewrite EV. change (gVFill (wA (wA m1 AVert c t) AVHe t c)) with (gVFill m1). destruct (SPL h Hh) as [->|Hl].
    + rewrite Z.eqb_refl, ENC. auto.
    + rewrite (proj2 (Z.eqb_neq h c)) by lia. rewrite ENK by auto. destruct (i_done _ _ _ _ _ I h Hl) as [D1 D2]. pose proof (g_more _ _ _ _ _ _ _ _ _ _ G). split; [auto|lia].
  - intros r Hr Nr. rewrite (g_ent _ _ _ _ _ _ _ _ _ _ G r Hr) in Nr. destruct (Z.eqb_spec r (rt c)) as [->|]; [exists c; unfold inH in *; split; [lia|auto]|].
    destruct (i_ent _ _ _ _ _ I r Hr Nr) as (h & Hh & E). exists h. split; [lia|auto].
  - intros a b Ha Hb E. destruct (SPL a Ha) as [->|La], (SPL b Hb) as [->|Lb]; auto.
    + rewrite ENC, ENK in E by auto. destruct (g_old _ _ _ _ _ _ _ _ _ _ G) as [(h1 & H1 & E1 & Et)|Q]; [|destruct (Q b Lb); congruence].
      rewrite <- E1. apply (i_inj _ _ _ _ _ I); auto. congruence.
    + rewrite ENC, ENK in E by auto. destruct (g_old _ _ _ _ _ _ _ _ _ _ G) as [(h1 & H1 & E1 & Et)|Q]; [|destruct (Q a La); congruence].
      rewrite <- E1. apply (i_inj _ _ _ _ _ I); auto. congruence.
    + rewrite !ENK in E by auto. apply (i_inj _ _ _ _ _ I); auto.
  - intros h Hh. destruct (SPL h Hh) as [->|Hl]; [rewrite ENC; apply (g_part _ _ _ _ _ _ _ _ _ _ G)|]. rewrite ENK by auto.
    destruct (Z.eq_dec (getZ ent (rt h)) t) as [E|E].
    + rewrite E. rewrite (g_part _ _ _ _ _ _ _ _ _ _ G). destruct (g_old _ _ _ _ _ _ _ _ _ _ G) as [(h1 & H1 & E1 & Et)|Q]; [|destruct (Q h Hl); congruence].
      apply rt_tail; auto. rewrite <- E1. apply (i_inj _ _ _ _ _ I); auto. congruence.
    + rewrite (g_par _ _ _ _ _ _ _ _ _ _ G) by (auto; apply (i_done _ _ _ _ _ I h Hl)). apply (i_par _ _ _ _ _ I); auto.
  - intros v Hv. rewrite (g_used _ _ _ _ _ _ _ _ _ _ G) by auto. rewrite (i_used _ _ _ _ _ I) by auto. split.
    + intros [(h & Hh & E)| ->]; [exists h; split; [lia|rewrite ENK; auto]|exists c; split; [unfold inH in *; lia|auto]].
    + intros (h & Hh & E). destruct (SPL h Hh) as [->|Hl]; [right; congruence|left; exists h; split; auto; rewrite <- ENK; auto].
  - intros h Hh. destruct (SPL h Hh) as [->|Hl]; [apply (g_touch _ _ _ _ _ _ _ _ _ _ G)|]. apply (g_used _ _ _ _ _ _ _ _ _ _ G); [apply (gv_tail m0 V); auto|]. left. apply (i_touch _ _ _ _ _ I); auto.
  - intros v Hv. change (gVFill (wA (wA m1 AVert c t) AVHe t c)) with (gVFill m1) in Hv. destruct (Z_lt_dec v (gVFill m)) as [L|L].
    + destruct (i_new _ _ _ _ _ I v ltac:(lia)) as (h & Hh & E). exists h. split; [lia|rewrite ENK; auto].
    + exists c. split; [unfold inH in *; lia|]. rewrite ENC. symmetry. apply (g_new _ _ _ _ _ _ _ _ _ _ G). lia.
  - assert (ONE : forall w, 0 <= ev (wA (wA m1 AVert c t) AVHe t c) AVHe t < c + 1 /\ (w = t -> ev (wA (wA m1 AVert c t) AVHe t c) AVert (ev (wA (wA m1 AVert c t) AVHe t c) AVHe t) = w)).
    { intros w. rewrite EH, Z.eqb_refl, EV, Z.eqb_refl. split; [unfold inH in *; lia|auto]. }
    intros h Hh. destruct (Z.eq_dec (getZ ent1 (rt h)) t) as [E|E]; [rewrite E; destruct (ONE t); auto|]. destruct (SPL h Hh) as [->|Hl]; [congruence|]. rewrite ENK in * by auto.
    rewrite EH, (proj2 (Z.eqb_neq _ _) E), (g_vhe _ _ _ _ _ _ _ _ _ _ G) by (apply (i_done _ _ _ _ _ I h Hl)). destruct (i_vhe _ _ _ _ _ I h Hl) as [B1 B2]. split; [lia|].
    rewrite EV. rewrite (proj2 (Z.eqb_neq _ _)) by lia. exact B2.
  - intros v Hv U. destruct (Z.eq_dec v t) as [->|Nv]; [apply (g_id _ _ _ _ _ _ _ _ _ _ G); lia|]. pose proof (i_more _ _ _ _ _ I). rewrite (g_par _ _ _ _ _ _ _ _ _ _ G) by (auto; lia).
    apply (i_id _ _ _ _ _ I); auto. apply (g_used _ _ _ _ _ _ _ _ _ _ G) in U; auto. destruct U; congruence.
Qed.

Lemma assign_ok c m d par ent used : inH m0 c -> Sets m0 rt d -> Inv c m par ent used ->
  exists m' d' par' ent' used', gAssign (m, d, par, ent, used) c = Ok (m', d', par', ent', used') /\ Sets m0 rt d' /\ Inv (c + 1) m' par' ent' used'.
Proof.
  intros Hc S I. unfold gAssign. destruct (sets_find m0 rt d c S Hc (RI c Hc)) as (d' & -> & S'). cbn [bind].
  pose proof (RI c Hc) as Hr. rewrite Z2Nat.id by (unfold inH in Hr; lia). destruct (i_lens _ _ _ _ _ I) as (LP & LU & LE).
  assert (DM : forall h, 0 <= h < c -> inH m0 h) by (unfold inH in *; intros; lia).
  pose proof (gv_fill m0 V THe) as FH. cbn [gFill gCap] in FH. pose proof (i_sz _ _ _ _ _ I TVe) as FV. cbn [gFill gCap] in FV.
  assert (LVC : zlen (ga m AVert) = gHeCap m0) by (rewrite (i_len _ _ _ _ _ I); cbn [typeOf]; destruct (i_frm _ _ _ _ _ I THe ltac:(discriminate)) as [_ C2]; cbn [gCap] in *; congruence).
  pose proof (gv_tail m0 V c Hc) as TV. pose proof (i_more _ _ _ _ _ I) as MO.
  rewrite rdA_ok by (rewrite LVC; unfold inH in *; lia). cbn [bind]. rewrite (i_rest _ _ _ _ _ I c) by (unfold inH in *; lia). set (v := ev m0 AVert c) in *.
  rewrite rdZ_ok by (rewrite LE; exact Hr). cbn [bind].
  (* the final two writes *)
  assert (FIN : forall t m1 par1 ent1 used1, Got c m par ent used t m1 par1 ent1 used1 ->
    exists m' d'0 par' ent' used', (let* targetV := rdZ ent1 (rt c) in let* m2 := wrA m1 AVert c targetV in let* m3 := wrA m2 AVHe targetV c in Ok (m3, d', par1, ent1, used1)) = Ok (m', d'0, par', ent', used') /\ Sets m0 rt d'0 /\ Inv (c + 1) m' par' ent' used').
  { intros t m1 par1 ent1 used1 G. destruct (g_lens _ _ _ _ _ _ _ _ _ _ G) as (LP1 & LU1 & LE1). rewrite rdZ_ok by (rewrite LE1; exact Hr). cbn [bind].
    rewrite (g_ent _ _ _ _ _ _ _ _ _ _ G (rt c) Hr), Z.eqb_refl. rewrite wrA_ok.
    2:{ rewrite (g_len _ _ _ _ _ _ _ _ _ _ G). cbn [typeOf]. destruct (g_frm _ _ _ _ _ _ _ _ _ _ G THe ltac:(discriminate)) as [_ C1], (i_frm _ _ _ _ _ I THe ltac:(discriminate)) as [_ C2]. cbn [gCap] in *. rewrite C1, C2. unfold inH in *. lia. }
    cbn [bind]. rewrite wrA_ok.
    2:{ rewrite len_wA, (g_len _ _ _ _ _ _ _ _ _ _ G). cbn [typeOf gCap]. pose proof (g_t _ _ _ _ _ _ _ _ _ _ G). pose proof (g_sz _ _ _ _ _ _ _ _ _ _ G TVe) as Q. cbn [gFill gCap] in Q. lia. }
    cbn [bind]. do 5 eexists. split; [reflexivity|]. split; auto. eapply got_inv; eauto. }
  assert (NEW : getZ ent (rt c) = -1 -> forall h, 0 <= h < c -> rt h <> rt c).
  { intros E h Hh K. destruct (i_done _ _ _ _ _ I h Hh) as [_ B]. rewrite K in B. lia. }
  unfold INVALID. destruct (Z.eqb_spec (getZ ent (rt c)) (-1)) as [E|E].
  - rewrite rdZ_ok by (rewrite LU; lia). cbn [bind]. destruct (Z.eqb_spec (getZ used v) 0) as [U|U]; cbn [negb].
    + (* the vertex itself *)
      rewrite wrZ_ok by (rewrite LP; lia). cbn [bind]. rewrite wrZ_ok by (rewrite LE; exact Hr). cbn [bind]. rewrite wrZ_ok by (rewrite LU; lia). cbn [bind]. apply (FIN v).
      constructor; try solve [apply I | reflexivity].
      * intros; split; reflexivity.
      * destruct (i_cnt _ _ _ _ _ I) as (_ & _ & _ & _ & Q). auto.
      * rewrite !zlen_updZ. auto.
      * lia.
      * intros r Hr'. rewrite getZ_updZ by (rewrite LE; exact Hr). reflexivity.
      * intros w Hw Nw. rewrite getZ_updZ by lia. rewrite (proj2 (Z.eqb_neq _ _) Nw). reflexivity.
      * rewrite getZ_updZ by lia. rewrite Z.eqb_refl. reflexivity.
      * intros w Hw. rewrite getZ_updZ by lia. destruct (Z.eqb_spec w v) as [->|]; [split; [auto|lia]|]. tauto.
      * rewrite getZ_updZ by lia. fold v. rewrite Z.eqb_refl. lia.
      * intros _. rewrite getZ_updZ by lia. rewrite Z.eqb_refl. reflexivity.
      * lia.
      * right. intros h Hh. split; [apply NEW; auto|]. intros Q. apply (proj2 (i_used _ _ _ _ _ I v TV)); auto. exists h. auto.
    + (* a new vertex *)
      assert (SZ : Sized m TVe) by (split; [intros a Ta; rewrite <- Ta; apply I|apply (i_sz _ _ _ _ _ I)]).
      destruct (newVertex_ok m SZ ltac:(lia)) as (m1 & E1 & (G1 & G2 & G3 & G4 & G5 & G6 & G7) & K1 & K2 & K3 & K4 & K5). rewrite E1. cbn [gFill gCap] in G1, G3, G4.
      assert (ZP : zlen (growData par (gVCap m1) INVALID) = gVCap m1) by (rewrite zlen_growData, LP; lia).
      assert (ZU : zlen (growData used (gVCap m1) 0) = gVCap m1) by (rewrite zlen_growData, LU; lia).
      rewrite wrZ_ok by (rewrite LE; exact Hr). cbn [bind]. unfold INVALID in *. rewrite wrZ_ok by (rewrite ZP; lia). cbn [bind]. apply (FIN (gVFill m)). constructor.
      * intros a. destruct (typeOf a) eqn:Ta; [| | |]; try (rewrite G6 by (rewrite Ta; discriminate); rewrite (i_len _ _ _ _ _ I), Ta; symmetry; apply G7; discriminate). apply G2; auto.
      * intros t. destruct t; try (destruct (G7 THe ltac:(discriminate)) as [-> ->] || destruct (G7 TFc ltac:(discriminate)) as [-> ->] || destruct (G7 TEd ltac:(discriminate)) as [-> ->]; apply (i_sz _ _ _ _ _ I)).
        cbn [gFill gCap]. lia.
      * auto.
      * intros w Hw. apply G5. cbn [typeOf gFill]. auto.
      * intros t Nt. apply G7; auto.
      * destruct (i_cnt _ _ _ _ _ I) as (_ & _ & _ & _ & Q). repeat split; congruence.
      * lia.
      * rewrite !zlen_updZ, ZP, ZU. auto.
      * lia.
      * intros r Hr'. rewrite getZ_updZ by (rewrite LE; exact Hr). reflexivity.
      * intros w Hw Nw. rewrite getZ_updZ by (rewrite ZP; lia). rewrite (proj2 (Z.eqb_neq _ _) Nw). apply getZ_growData. lia.
      * rewrite getZ_updZ by (rewrite ZP; lia). rewrite Z.eqb_refl. reflexivity.
      * intros w Hw. rewrite getZ_growData by lia. split; [auto|]. intros [Q| ->]; [auto|lia].
      * rewrite getZ_growData by (fold v; lia). exact U.
      * lia.
      * lia.
      * right. intros h Hh. split; [apply NEW; auto|]. destruct (i_done _ _ _ _ _ I h Hh) as [_ Q]. lia.
  - cbn [bind]. destruct (i_ent _ _ _ _ _ I (rt c) Hr E) as (h1 & H1 & E1). destruct (i_done _ _ _ _ _ I h1 H1) as [D1 D2]. rewrite E1 in D1, D2.
    pose proof (i_par _ _ _ _ _ I h1 H1) as P1. rewrite E1 in P1. pose proof (rt_tail h1 c (DM h1 H1) Hc E1) as TT.
    apply (FIN (getZ ent (rt c))). constructor; try solve [apply I | reflexivity | auto | lia].
    + destruct (i_cnt _ _ _ _ _ I) as (_ & _ & _ & _ & Q). auto.
    + intros r Hr'. destruct (Z.eqb_spec r (rt c)) as [->|]; reflexivity.
    + intros w Hw. split; [auto|]. intros [Q| ->]; [auto|]. apply (i_used _ _ _ _ _ I); auto. exists h1. split; [auto|]. rewrite E1. reflexivity.
    + rewrite <- TT. apply (i_touch _ _ _ _ _ I); auto.
    + intros L. apply (i_id _ _ _ _ _ I); [lia|]. apply (i_used _ _ _ _ _ I); [lia|]. exists h1. split; [auto|]. rewrite E1. reflexivity.
    + left. exists h1. split; auto. split; auto. rewrite E1. reflexivity.
Qed.

Lemma assignAll_ok n : forall k m d par ent used, (k + Z.of_nat n = N) -> 0 <= k -> Sets m0 rt d -> Inv k m par ent used ->
  exists m' d' par' ent' used', foldM gAssign (map (fun i => k + Z.of_nat i) (seq 0 n)) (m, d, par, ent, used) = Ok (m', d', par', ent', used') /\ Inv N m' par' ent' used'.
Proof.
  induction n as [|n IH]; intros k m d par ent used E K S I.
  - cbn. do 5 eexists. split; [reflexivity|]. replace N with k by lia. auto.
  - cbn [seq map foldM]. rewrite Z.add_0_r. destruct (assign_ok k m d par ent used ltac:(unfold inH; lia) S I) as (m1 & d1 & par1 & ent1 & used1 & -> & S1 & I1). cbn [bind].
    destruct (IH (k + 1) m1 d1 par1 ent1 used1 ltac:(lia) ltac:(lia) S1 I1) as (m2 & d2 & par2 & ent2 & used2 & E2 & I2). exists m2, d2, par2, ent2, used2. split; auto.
    rewrite <- E2. f_equal. rewrite <- seq_shift, map_map. apply map_ext. intros i. lia.
Qed.
Lemma inv0 : Inv 0 m0 (repeat INVALID (Z.to_nat (gVCap m0))) (repeat INVALID (Z.to_nat N)) (repeat 0 (Z.to_nat (gVCap m0))).
Proof.
  pose proof (gv_fill m0 V) as F. pose proof (F THe) as F1. pose proof (F TVe) as F2. cbn [gFill gCap] in F1, F2. constructor; try solve [intros; lia | apply V | auto].
  - destruct (gv_count m0 V) as (_ & _ & _ & Q & _). auto.
  - rewrite !zlen_rep. lia.
  - intros r Hr Q. rewrite getZ_rep in Q by lia. unfold INVALID in Q. lia.
  - intros v Hv. rewrite getZ_rep by lia. split; [lia|]. intros (h & Hh & _). lia.
  - intros v Hv Q. rewrite getZ_rep in Q by lia. lia.
Qed.
End A.
