(** flip on a general mesh *)
From Verif Require Import Base MeshModel MeshSpec MeshBase MeshOrbit BuildList GenModel GenSpec GenOpsSpec GenBase GenBuild1 GenBuild4 GenBuild6 GenOpsModel GenOps1 GenOps2 GenOps3 GenOps4.
Open Scope Z_scope.

Lemma flipOriented_exec m prevent a1 a2 a3 b1 b2 b3 : gFlipOriented m prevent a1 a2 a3 b1 b2 b3 =
  let* va := rdA m AVert a1 in let* vb := rdA m AVert b1 in let* vc := rdA m AVert a3 in let* vd := rdA m AVert b3 in
  let* dup := (if prevent then dupExec m vc vd else Ok false) in if dup : bool then Ok (m, false) else
  let* fa := rdA m AFace a1 in let* fb := rdA m AFace b1 in
  let* m1 := gRemoveFromVertexLists m a1 in let* m1 := gRemoveFromVertexLists m1 b1 in
  let* m2 := (let* x := rdA m1 AVHe va in let* m1 := (if x =? a1 then wrA m1 AVHe va b2 else Ok m1) in
    let* x := rdA m1 AVHe vb in let* m1 := (if x =? b1 then wrA m1 AVHe vb a2 else Ok m1) in
    let* m1 := wrA m1 AFHe fa a1 in let* m1 := wrA m1 AFHe fb b1 in
    let* m1 := wrA m1 ANext a1 b3 in let* m1 := wrA m1 ANext b3 a2 in let* m1 := wrA m1 ANext a2 a1 in
    let* m1 := wrA m1 ANext b1 a3 in let* m1 := wrA m1 ANext a3 b2 in let* m1 := wrA m1 ANext b2 b1 in
    let* m1 := wrA m1 AVert a1 vc in let* m1 := wrA m1 AVert b1 vd in
    let* m1 := wrA m1 AFace a3 fb in wrA m1 AFace b3 fa) in
  let* m' := (let* m3 := gAddToVertexLists m2 a1 in gAddToVertexLists m3 b1) in Ok (m', true).
Proof.
  unfold gFlipOriented, dupExec. destruct (rdA m AVert a1) as [va| |]; cbn [bind]; auto. destruct (rdA m AVert b1) as [vb| |]; cbn [bind]; auto.
  destruct (rdA m AVert a3) as [vc| |]; cbn [bind]; auto. destruct (rdA m AVert b3) as [vd| |]; cbn [bind]; auto.
  destruct (if prevent then _ else _) as [dup| |]; cbn [bind]; auto. destruct dup; auto.
  destruct (rdA m AFace a1) as [fa| |]; cbn [bind]; auto. destruct (rdA m AFace b1) as [fb| |]; cbn [bind]; auto.
  destruct (gRemoveFromVertexLists m a1) as [x| |]; cbn [bind]; auto. destruct (gRemoveFromVertexLists x b1) as [y| |]; cbn [bind]; auto.
  destruct (rdA y AVHe va) as [z| |]; cbn [bind]; auto. destruct (if z =? a1 then _ else _) as [w| |]; cbn [bind]; auto.
  destruct (rdA w AVHe vb) as [q| |]; cbn [bind]; auto. destruct (if q =? b1 then _ else _) as [m0| |]; cbn [bind]; auto.
  repeat (match goal with |- context [bind (wrA ?m ?a ?i ?x) _] => destruct (wrA m a i x) as [?m| |]; cbn [bind]; auto end).
  match goal with |- context [gAddToVertexLists ?m a1] => destruct (gAddToVertexLists m a1) as [?m| |]; cbn [bind]; auto end.
Qed.

Section Oriented5.
Context (m : gmesh) (V : GValid m) (NM : NoMonogon m) (e : Z) (He : 0 <= e < gEFill m) (a b : Z) (T : TwoTriangles m e a b).
Notation nx := (ev m ANext).
Let a2 := nx a. Let a3 := nx a2. Let b2 := nx b. Let b3 := nx b2.
Lemma tt_all : ev m AEHe e = a /\ ev m ASib a = b /\ a <> b /\ ev m ASib b = a /\ nx a3 = a /\ nx b3 = b /\ a2 <> b /\ b2 <> a /\ inH m a /\ inH m b.
Proof.
  destruct T as (T1 & T2 & T3 & T4 & T5 & T6). destruct (gv_ehe m V e He) as [I _]. rewrite T1 in I.
  assert (J : inH m b) by (rewrite T2; apply (ring_in _ _ _ (gv_sib m V)); auto).
  split; auto. split; auto. split; auto. split; auto. split; [apply (T6 a); auto|]. split; [apply (T6 b); auto|].
  split; [intros K; apply T5; rewrite <- K; symmetry; apply (ring_key _ _ _ (gv_next m V)); auto|].
  split; [intros K; apply T5; rewrite <- K; apply (ring_key _ _ _ (gv_next m V)); auto|auto].
Qed.
Lemma turned_flipped m' : ev m AOri a <> ev m AOri b -> Turned m a a2 a3 b b2 b3 m' -> NoMonogon m' /\ Flipped m m' e a b.
Proof.
  intros Or U. destruct tt_all as (T1 & T2 & T3 & T4 & T5 & T6 & T7 & T8 & I & J).
  pose proof (f_distinct m V NM e He a a2 a3 b b2 b3 T1 eq_refl eq_refl T5 T2 eq_refl eq_refl T6 T3 T7 T8) as ND.
  destruct (f_ends m V e He a a2 a3 b b2 b3 T1 eq_refl eq_refl T2 eq_refl eq_refl Or) as [Eb Ea].
  destruct (f_in m V e He a a2 a3 b b2 b3 T1 eq_refl eq_refl T2 eq_refl eq_refl) as (I1 & I2 & I3 & J1 & J2 & J3).
  destruct (f_faces m V e He a a2 a3 b b2 b3 T1 eq_refl eq_refl T2 eq_refl eq_refl) as (F1 & F2 & F3 & F4).
  assert (D : a <> a2 /\ a <> a3 /\ a <> b /\ a <> b2 /\ a <> b3 /\ a2 <> a3 /\ a2 <> b /\ a2 <> b2 /\ a2 <> b3 /\ a3 <> b /\ a3 <> b2 /\ a3 <> b3 /\ b <> b2 /\ b <> b3 /\ b2 <> b3).
  { clear - ND. repeat (apply NoDup_cons_iff in ND as [? ND]). simpl in *. intuition congruence. }
  split.
  - intros h Hh. assert (Hh' : inH m h) by (red in Hh; pose proof (tu_fill _ _ _ _ _ _ _ _ U THe) as K; cbn [gFill] in K; rewrite K in Hh; exact Hh).
    rewrite (tu_next _ _ _ _ _ _ _ _ U). clear - D NM Hh'.
    destruct (Z.eqb_spec h a); [subst h; intuition congruence|]. destruct (Z.eqb_spec h b3); [subst h; intuition congruence|].
    destruct (Z.eqb_spec h a2); [subst h; intuition congruence|]. destruct (Z.eqb_spec h b); [subst h; intuition congruence|].
    destruct (Z.eqb_spec h a3); [subst h; intuition congruence|]. destruct (Z.eqb_spec h b2); [subst h; intuition congruence|]. apply NM; auto.
  - unfold Flipped. cbv zeta. change (gTipOf m (nx a)) with (ev m AVert a3). change (gTipOf m (nx b)) with (ev m AVert b3).
    split; [apply U|]. split; [intros p h Hp; apply (tu_arr _ _ _ _ _ _ _ _ U); simpl in *; tauto|].
    assert (Ta : gTailOf m' a = ev m AVert a3) by (unfold gTailOf; rewrite (tu_vert _ _ _ _ _ _ _ _ U), Z.eqb_refl; auto).
    assert (Tb : gTailOf m' b = ev m AVert b3).
    { unfold gTailOf; rewrite (tu_vert _ _ _ _ _ _ _ _ U). destruct (Z.eqb_spec b a); [congruence|]. rewrite Z.eqb_refl; auto. }
    assert (Pa : gTipOf m' a = ev m AVert b3) by (rewrite (tu_tip _ _ _ _ _ _ _ _ U), Z.eqb_refl by auto; auto).
    assert (Pb : gTipOf m' b = ev m AVert a3).
    { rewrite (tu_tip _ _ _ _ _ _ _ _ U) by auto. destruct (Z.eqb_spec b a); [congruence|]. rewrite Z.eqb_refl; auto. }
    split; [left; auto|]. split; [right; auto|].
    assert (Oth : forall h, inH m h -> h <> a -> h <> b -> gTailOf m' h = gTailOf m h /\ gTipOf m' h = gTipOf m h).
    { intros h Hh Q1 Q2. rewrite (tu_tip _ _ _ _ _ _ _ _ U) by auto. unfold gTailOf. rewrite (tu_vert _ _ _ _ _ _ _ _ U).
      destruct (Z.eqb_spec h a), (Z.eqb_spec h b); try contradiction. auto. }
    split; [intros h Hh Q1 Q2; left; apply Oth; auto|]. split.
    + exists a2, a3, b3, b2. split; [left; auto|]. split; [right; auto|]. split; [|split].
      * exists (ev m AVert b). split; [right; exact Eb|]. split; [left; split; [symmetry; exact Eb|reflexivity]|right; split; [reflexivity|]]. unfold gTipOf. rewrite T6. auto.
      * exists (ev m AVert a). split; [left; reflexivity|]. split; [right; split; [reflexivity|]; unfold gTipOf; rewrite T5; auto|left; split; [symmetry; exact Ea|reflexivity]].
      * intros h Hh. apply (tu_face _ _ _ _ _ _ _ _ U).
    + intros h Hh Q1 Q2. assert (h <> a /\ h <> b) as [N1 N2] by (split; intros ->; congruence). destruct (Oth h Hh N1 N2) as [O1 O2].
      split; [|split; [auto|split; [auto|apply (tu_arr _ _ _ _ _ _ _ _ U); simpl; tauto]]]. rewrite (tu_next _ _ _ _ _ _ _ _ U).
      destruct (Z.eqb_spec h a); [contradiction|]. destruct (Z.eqb_spec h b3); [subst h; congruence|].
      destruct (Z.eqb_spec h a2); [subst h; congruence|]. destruct (Z.eqb_spec h b); [contradiction|].
      destruct (Z.eqb_spec h a3); [subst h; congruence|]. destruct (Z.eqb_spec h b2); [subst h; congruence|]. auto.
Qed.
Lemma flipOriented_ok prevent : ev m AOri a <> ev m AOri b ->
  exists m' r, gFlipOriented m prevent a a2 a3 b b2 b3 = Ok (m', r) /\
  (r = true <-> (prevent = true -> ~ Joined m (gTipOf m a2) (gTipOf m b2))) /\
  (r = false -> m' = m) /\ (r = true -> GValid m' /\ NoMonogon m' /\ Flipped m m' e a b).
Proof.
  intros Or. destruct tt_all as (T1 & T2 & T3 & T4 & T5 & T6 & T7 & T8 & I & J).
  destruct (f_in m V e He a a2 a3 b b2 b3 T1 eq_refl eq_refl T2 eq_refl eq_refl) as (I1 & I2 & I3 & J1 & J2 & J3).
  pose proof (valid_fits m V) as F. rewrite flipOriented_exec. rewrite !rdA_ok by (apply rdH; auto). cbn [bind].
  change (gTipOf m a2) with (ev m AVert a3). change (gTipOf m b2) with (ev m AVert b3).
  assert (Dp : exists dup, (if prevent then dupExec m (ev m AVert a3) (ev m AVert b3) else Ok false) = Ok dup /\
    (dup = false <-> (prevent = true -> ~ Joined m (ev m AVert a3) (ev m AVert b3)))).
  { destruct prevent.
    - destruct (dup_ok m (ev m AVert a3) (ev m AVert b3) V (gv_tail m V _ I3)) as (dup & E & K). exists dup. split; auto.
      split; [intros -> _ Q; apply K in Q; discriminate|]. intros Q. destruct dup; auto. exfalso. apply (Q eq_refl). apply K; auto.
    - exists false. split; auto. split; [discriminate|auto]. }
  destruct Dp as (dup & -> & K). cbn [bind]. destruct dup.
  - exists m, false. split; [reflexivity|]. split; [split; [discriminate|intros Q; apply K in Q; discriminate]|]. split; [auto|discriminate].
  - destruct (turn_ok m V NM e He a a2 a3 b b2 b3 T1 eq_refl eq_refl T5 T2 eq_refl eq_refl T6 T3 T4 T7 T8 Or) as (m' & E & U).
    exists m', true. split; [|split; [|split; [discriminate|]]].
    + destruct (gRemoveFromVertexLists m a) as [x| |]; cbn [bind] in *; try discriminate. destruct (gRemoveFromVertexLists x b) as [y| |]; cbn [bind] in *; try discriminate.
      change (flipBody m a a2 a3 b b2 b3 y) with (let* x0 := rdA y AVHe (ev m AVert a) in let* m1 := (if x0 =? a then wrA y AVHe (ev m AVert a) b2 else Ok y) in
        let* x0 := rdA m1 AVHe (ev m AVert b) in let* m1 := (if x0 =? b then wrA m1 AVHe (ev m AVert b) a2 else Ok m1) in
        let* m1 := wrA m1 AFHe (ev m AFace a) a in let* m1 := wrA m1 AFHe (ev m AFace b) b in
        let* m1 := wrA m1 ANext a b3 in let* m1 := wrA m1 ANext b3 a2 in let* m1 := wrA m1 ANext a2 a in
        let* m1 := wrA m1 ANext b a3 in let* m1 := wrA m1 ANext a3 b2 in let* m1 := wrA m1 ANext b2 b in
        let* m1 := wrA m1 AVert a (ev m AVert a3) in let* m1 := wrA m1 AVert b (ev m AVert b3) in
        let* m1 := wrA m1 AFace a3 (ev m AFace b) in wrA m1 AFace b3 (ev m AFace a)) in E.
      match goal with |- (let* m2 := ?X in _) = _ => destruct X as [z| |]; cbn [bind] in *; try discriminate end.
      rewrite E. reflexivity.
    + tauto.
    + intros _. split; [apply U|]. apply turned_flipped; auto.
Qed.
End Oriented5.

(** ** twice inverted *)
Lemma inv_noMono m m' f : GValid m -> NoMonogon m -> Inverted m m' f -> NoMonogon m'.
Proof.
  intros V NM I h Hh. assert (H : inH m h) by (red in Hh; pose proof (iv_size _ _ _ I THe) as K; cbn [gFill] in K; rewrite K in Hh; exact Hh).
  destruct (Z.eq_dec (ev m AFace h) f) as [E|E].
  - destruct (ring_back _ _ _ (gv_next m V) h H) as (p & P1 & P2 & P3). destruct (iv_in _ _ _ I p P1 ltac:(congruence)) as (_ & _ & _ & K). rewrite P2 in K.
    rewrite K. intros Q. rewrite Q in P2. apply (NM h H). exact P2.
  - destruct (iv_out _ _ _ I h H E) as (_ & _ & _ & K). rewrite K. auto.
Qed.
Lemma inv_inH m m' f h : Inverted m m' f -> (inH m' h <-> inH m h).
Proof. intros I. unfold inH. pose proof (iv_size _ _ _ I THe) as K. cbn [gFill] in K. rewrite K. reflexivity. Qed.
Lemma inv_ends m m' f h x y : Inverted m m' f -> inH m h -> (endsOf m' h x y <-> endsOf m h x y).
Proof.
  intros I H. unfold endsOf, sameEnds. destruct (Z.eq_dec (ev m AFace h) f) as [E|E].
  - destruct (iv_in _ _ _ I h H E) as (-> & -> & _). tauto.
  - destruct (iv_out _ _ _ I h H E) as (-> & -> & _). tauto.
Qed.
Lemma inv_inv m m1 m2 f : GValid m -> Inverted m m1 f -> Inverted m1 m2 f -> sameConnectivity m m2.
Proof.
  intros V I1 I2. split; [intros t; rewrite (iv_size _ _ _ I2), (iv_size _ _ _ I1); auto|].
  split; [intros a h Ha; rewrite (iv_arr _ _ _ I2), (iv_arr _ _ _ I1); auto|].
  intros h Hh. assert (Hh1 : inH m1 h) by (apply (inv_inH _ _ _ _ I1); auto). assert (Ef : ev m1 AFace h = ev m AFace h) by (apply (iv_arr _ _ _ I1); simpl; auto).
  destruct (Z.eq_dec (ev m AFace h) f) as [E|E].
  - destruct (iv_in _ _ _ I1 h Hh E) as (A1 & A2 & A3 & A4). destruct (iv_in _ _ _ I2 h Hh1 ltac:(congruence)) as (B1 & B2 & B3 & B4).
    split; [|split; [change (gTailOf m2 h = gTailOf m h); congruence|lia]].
    set (g := ev m ANext h) in *. assert (Hg : inH m g) by (apply (ring_in _ _ _ (gv_next m V)); auto).
    assert (Eg : ev m1 AFace g = f) by (rewrite (iv_arr _ _ _ I1) by (simpl; auto); rewrite <- E; apply (ring_key _ _ _ (gv_next m V)); auto).
    destruct (iv_in _ _ _ I2 g ltac:(apply (inv_inH _ _ _ _ I1); auto) Eg) as (_ & _ & _ & K). rewrite A4 in K. exact K.
  - destruct (iv_out _ _ _ I1 h Hh E) as (A1 & A2 & A3 & A4). destruct (iv_out _ _ _ I2 h Hh1 ltac:(congruence)) as (B1 & B2 & B3 & B4).
    split; [congruence|]. split; [change (gTailOf m2 h = gTailOf m h); congruence|congruence].
Qed.

(** a flip between two inversions is a flip *)
Lemma tt_inverted m m1 e a b : GValid m -> 0 <= e < gEFill m -> TwoTriangles m e a b -> Inverted m m1 (ev m AFace a) ->
  TwoTriangles m1 e a b /\ ev m1 ANext a = ev m ANext (ev m ANext a) /\ ev m1 ANext (ev m ANext (ev m ANext a)) = ev m ANext a /\
  ev m1 ANext b = ev m ANext b /\ ev m1 ANext (ev m ANext b) = ev m ANext (ev m ANext b).
Proof.
  intros V He T I. destruct (tt_all m V e He a b T) as (T1 & T2 & T3 & T4 & T5 & T6 & T7 & T8 & Ha & Hb). destruct T as (_ & _ & _ & _ & FD & _).
  set (f := ev m AFace a) in *. pose proof (gv_next m V) as R.
  assert (X : forall h, inH m h -> inH m (ev m ANext h) /\ ev m AFace (ev m ANext h) = ev m AFace h) by (intros h Hh; split; [apply (ring_in _ _ _ R)|apply (ring_key _ _ _ R)]; auto).
  destruct (X a Ha) as [A1 A2]. destruct (X _ A1) as [A3 A4]. destruct (X b Hb) as [B1 B2]. destruct (X _ B1) as [B3 B4].
  assert (N1 : ev m1 ANext (ev m ANext a) = a) by (apply (iv_in _ _ _ I); auto).
  assert (N2 : ev m1 ANext (ev m ANext (ev m ANext a)) = ev m ANext a) by (apply (iv_in _ _ _ I); auto; exact A2).
  assert (N3 : ev m1 ANext a = ev m ANext (ev m ANext a)) by (destruct (iv_in _ _ _ I _ A3 (eq_trans A4 A2)) as (_ & _ & _ & K); rewrite T5 in K; exact K).
  assert (O1 : ev m1 ANext b = ev m ANext b) by (apply (iv_out _ _ _ I); auto).
  assert (O2 : ev m1 ANext (ev m ANext b) = ev m ANext (ev m ANext b)) by (apply (iv_out _ _ _ I); auto; rewrite B2; auto).
  assert (O3 : ev m1 ANext (ev m ANext (ev m ANext b)) = b) by (destruct (iv_out _ _ _ I _ B3 ltac:(rewrite B4, B2; exact (not_eq_sym FD))) as (_ & _ & _ & K); rewrite T6 in K; exact K).
  split; [|auto]. unfold TwoTriangles. rewrite !(iv_arr _ _ _ I) by (simpl; tauto). split; auto. split; auto. split; auto. split; auto. split; auto.
  intros h [-> | ->]; [rewrite N3, N2, N1; auto|rewrite O1, O2, O3; auto].
Qed.
Lemma flipped_inverted m m1 m2 m3 e a b : GValid m -> GValid m2 -> 0 <= e < gEFill m -> TwoTriangles m e a b -> Inverted m m1 (ev m AFace a) ->
  Flipped m1 m2 e a b -> Inverted m2 m3 (ev m AFace a) -> Flipped m m3 e a b.
Proof.
  intros V V2 He T I1 FL I3. destruct (tt_inverted m m1 e a b V He T I1) as (T' & N1 & N2 & N3 & N4).
  destruct (tt_all m V e He a b T) as (T1 & T2 & T3 & T4 & T5 & T6 & T7 & T8 & Ha & Hb). pose proof (proj1 (proj2 (proj2 (proj2 (proj2 T))))) as FD.
  set (f := ev m AFace a) in *. pose proof (gv_next m V) as R.
  assert (X : forall h, inH m h -> inH m (ev m ANext h) /\ ev m AFace (ev m ANext h) = ev m AFace h) by (intros h Hh; split; [apply (ring_in _ _ _ R)|apply (ring_key _ _ _ R)]; auto).
  destruct (X a Ha) as [A1 A2]. destruct (X _ A1) as [A3 A4]. destruct (X b Hb) as [B1 B2]. destruct (X _ B1) as [B3 B4].
  unfold Flipped in FL. cbv zeta in FL. rewrite N1, N3 in FL.
  assert (Ec : gTipOf m1 (ev m ANext (ev m ANext a)) = gTipOf m (ev m ANext a)).
  { destruct (iv_in _ _ _ I1 (ev m ANext (ev m ANext a)) A3 (eq_trans A4 A2)) as (_ & K & _). exact K. }
  assert (Ed : gTipOf m1 (ev m ANext b) = gTipOf m (ev m ANext b)) by (apply (iv_out _ _ _ I1); auto; congruence).
  rewrite Ec, Ed in FL. set (c := gTipOf m (ev m ANext a)) in *. set (d := gTipOf m (ev m ANext b)) in *.
  destruct FL as (G1 & G2 & G3 & G4 & G5 & (x & x' & y & y' & P1 & P2 & P3 & P4 & P5) & G7).
  assert (H2 : forall h, inH m2 h <-> inH m h).
  { intros h. rewrite <- (inv_inH _ _ _ h I1). unfold inH. pose proof (G1 THe) as K. cbn [gFill] in K. rewrite K. reflexivity. }
  assert (Ea : gTailOf m1 a = gTipOf m a /\ gTipOf m1 a = gTailOf m a) by (destruct (iv_in _ _ _ I1 a Ha eq_refl) as (K1 & K2 & _); auto).
  destruct Ea as [Ea1 Ea2]. unfold Flipped. cbv zeta. fold c d.
  split; [intros t; rewrite (iv_size _ _ _ I3), G1, (iv_size _ _ _ I1); auto|].
  split. { intros p h Hp. rewrite (iv_arr _ _ _ I3) by (simpl in *; tauto). rewrite G2 by auto. apply (iv_arr _ _ _ I1). simpl in *; tauto. }
  split; [apply (inv_ends _ _ _ _ _ _ I3); [apply H2|]; auto|]. split; [apply (inv_ends _ _ _ _ _ _ I3); [apply H2|]; auto|].
  split.
  { intros h Hh Q1 Q2. apply (inv_ends _ _ _ _ _ _ I3); [apply H2; auto|]. specialize (G5 h ltac:(apply (inv_inH _ _ _ _ I1); auto) Q1 Q2).
    unfold endsOf, sameEnds in *. destruct (Z.eq_dec (ev m AFace h) f) as [E|E].
    - destruct (iv_in _ _ _ I1 h Hh E) as (K1 & K2 & _). rewrite K1, K2 in G5. tauto.
    - destruct (iv_out _ _ _ I1 h Hh E) as (K1 & K2 & _). rewrite K1, K2 in G5. tauto. }
  split.
  - exists x, x', y, y'.
    assert (Xx : (x = ev m ANext a /\ x' = ev m ANext x) \/ (x' = ev m ANext a /\ x = ev m ANext x')).
    { rewrite ?N1 in P1. destruct P1 as [[-> ->]|[-> ->]]; rewrite N2; auto. }
    assert (Yy : (y = ev m ANext b /\ y' = ev m ANext y) \/ (y' = ev m ANext b /\ y = ev m ANext y')).
    { rewrite ?N3 in P2. destruct P2 as [[-> ->]|[-> ->]]; rewrite N4; auto. }
    assert (Hx : inH m x /\ inH m x' /\ inH m y /\ inH m y').
    { destruct Xx as [[-> ->]|[-> ->]], Yy as [[-> ->]|[-> ->]]; auto. }
    destruct Hx as (Hx & Hx' & Hy & Hy').
    split; [exact Xx|]. split; [exact Yy|]. split; [|split].
    + destruct P3 as (v & Q1 & Q2 & Q3). exists v. rewrite Ea1, Ea2 in Q1. split; [tauto|]. split; [apply (inv_ends _ _ _ _ _ _ I1) in Q2; auto|apply (inv_ends _ _ _ _ _ _ I1) in Q3; auto].
    + destruct P4 as (v & Q1 & Q2 & Q3). exists v. rewrite Ea1, Ea2 in Q1. split; [tauto|]. split; [apply (inv_ends _ _ _ _ _ _ I1) in Q2; auto|apply (inv_ends _ _ _ _ _ _ I1) in Q3; auto].
    + intros h Hh. rewrite (iv_arr _ _ _ I3) by (simpl; tauto). rewrite P5 by (apply (inv_inH _ _ _ _ I1); auto). rewrite !(iv_arr _ _ _ I1) by (simpl; tauto). reflexivity.
  - intros h Hh Q1 Q2. assert (Hh1 : inH m1 h) by (apply (inv_inH _ _ _ _ I1); auto).
    destruct (G7 h Hh1) as (K1 & K2 & K3 & K4); [rewrite !(iv_arr _ _ _ I1) by (simpl; tauto); auto|rewrite !(iv_arr _ _ _ I1) by (simpl; tauto); auto|].
    destruct (iv_out _ _ _ I1 h Hh Q1) as (L1 & L2 & L3 & L4).
    assert (E2 : ev m2 AFace h <> f).
    { rewrite P5 by auto. rewrite !(iv_arr _ _ _ I1) by (simpl; tauto).
      destruct (Z.eqb_spec h x') as [E|_]; [|destruct (Z.eqb_spec h y) as [E|_]; [|exact Q1]].
      - fold f in FD. congruence.
      - exfalso. apply Q2. subst h. rewrite ?N3 in P2. destruct P2 as [[-> ->]|[-> ->]]; rewrite ?N4; congruence. }
    destruct (iv_out _ _ _ I3 h ltac:(apply H2; auto) E2) as (M1 & M2 & M3 & M4).
    split; [congruence|]. split; [congruence|]. split; congruence.
Qed.
Lemma joined_inverted m m1 f c d : Inverted m m1 f -> (Joined m1 c d <-> Joined m c d).
Proof.
  intros I. split; intros (h & Hh & E); exists h.
  - apply (inv_inH _ _ _ _ I) in Hh. split; auto. apply (inv_ends _ _ _ _ _ _ I) in E; auto.
  - split; [apply (inv_inH _ _ _ _ I); auto|]. apply (inv_ends _ _ _ _ _ _ I); auto.
Qed.

Definition flipWanted (m : gmesh) (e : Z) (prevent : bool) (a b : Z) : Prop :=
  TwoTriangles m e a b /\ (prevent = true -> ~ Joined m (gTipOf m (ev m ANext a)) (gTipOf m (ev m ANext b))).
Lemma sameConn_refl m : sameConnectivity m m. Proof. repeat split. Qed.
Lemma flip_ok d m e prevent : (2 <= d)%nat -> GValid m -> NoMonogon m -> 0 <= e < gEFill m ->
  exists m' r, gFlip d m e prevent = Ok (m', r) /\ GValid m' /\ NoMonogon m' /\
    (r = true <-> exists a b, flipWanted m e prevent a b) /\ (r = false -> sameConnectivity m m') /\
    (r = true -> forall a b, TwoTriangles m e a b -> Flipped m m' e a b).
Proof.
  intros Hd V NM He. pose proof (valid_fits m V) as F. destruct (gv_ehe m V e He) as [Ha Ee]. set (a := ev m AEHe e) in *. set (b := ev m ASib a).
  assert (X : forall h, inH m h -> inH m (ev m ANext h)) by (intros h Hh; apply (ring_in _ _ _ (gv_next m V)); auto).
  assert (Hb : inH m b) by (apply (ring_in _ _ _ (gv_sib m V)); auto).
  assert (Refuse : ~ TwoTriangles m e a b -> exists m' r, Ok (m, false) = Ok (m', r) /\ GValid m' /\ NoMonogon m' /\
    (r = true <-> exists a b, flipWanted m e prevent a b) /\ (r = false -> sameConnectivity m m') /\ (r = true -> forall a b, TwoTriangles m e a b -> Flipped m m' e a b)).
  { intros NT. exists m, false. split; auto. split; auto. split; auto. split; [|split; [intros _; apply sameConn_refl|discriminate]].
    split; [discriminate|]. intros (a' & b' & Q & _). exfalso. apply NT. assert (a' = a) by (symmetry; apply Q). subst a'. assert (b' = b) by apply Q. subst b'. exact Q. }
  assert (Go : TwoTriangles m e a b -> ev m AOri a <> ev m AOri b -> exists m' r, gFlipOriented m prevent a (ev m ANext a) (ev m ANext (ev m ANext a)) b (ev m ANext b) (ev m ANext (ev m ANext b)) = Ok (m', r) /\
    GValid m' /\ NoMonogon m' /\
    (r = true <-> exists a b, flipWanted m e prevent a b) /\ (r = false -> sameConnectivity m m') /\ (r = true -> forall a b, TwoTriangles m e a b -> Flipped m m' e a b)).
  { intros T Or. destruct (flipOriented_ok m V NM e He a b T prevent Or) as (m' & r & E & K1 & K2 & K3). exists m', r. split; [exact E|].
    assert (Q : GValid m' /\ NoMonogon m') by (destruct r; [split; apply K3; auto|rewrite K2 by auto; auto]).
    split; [apply Q|]. split; [apply Q|]. split; [|split; [intros Er; rewrite K2 by auto; apply sameConn_refl|]].
    - rewrite K1. split; [intros P; exists a, b; split; auto|]. intros (a' & b' & Q' & P). assert (a' = a) by (symmetry; apply Q'). subst a'. assert (b' = b) by apply Q'. subst b'. exact P.
    - intros Er a' b' Q'. assert (a' = a) by (symmetry; apply Q'). subst a'. assert (b' = b) by apply Q'. subst b'. apply K3; auto. }
  assert (Prefix : forall d, gFlip (S d) m e prevent =
    if b =? a then Ok (m, false) else if negb (ev m ANext (ev m ANext (ev m ANext a)) =? a) then Ok (m, false) else
    if negb (ev m ANext (ev m ANext (ev m ANext b)) =? b) then Ok (m, false) else if negb (ev m ASib b =? a) then Ok (m, false) else
    if (ev m ANext a =? b) || (ev m ANext b =? a) then Ok (m, false) else
    if ev m AOri a =? ev m AOri b then
      let* m1 := gInvertOrientation m (ev m AFace a) in let* (m2, r) := gFlip d m1 e prevent in let* f := rdA m2 AFace a in let* m3 := gInvertOrientation m2 f in Ok (m3, r)
    else gFlipOriented m prevent a (ev m ANext a) (ev m ANext (ev m ANext a)) b (ev m ANext b) (ev m ANext (ev m ANext b))).
  { intros k. cbn [gFlip]. unfold gEdgeIsBoundary. rewrite rdA_ok by (apply rdE; auto). cbn [bind]. fold a. rewrite rdA_ok by (apply rdH; auto). cbn [bind]. fold b.
    destruct (b =? a); [reflexivity|]. rewrite rdA_ok by (apply rdH; auto). cbn [bind]. rewrite rdA_ok by (apply rdH; auto). cbn [bind]. rewrite rdA_ok by (apply rdH; auto). cbn [bind].
    destruct (negb _); [reflexivity|]. fold b. rewrite rdA_ok by (apply rdH; auto). cbn [bind]. rewrite rdA_ok by (apply rdH; auto). cbn [bind]. rewrite rdA_ok by (apply rdH; auto). cbn [bind].
    destruct (negb _); [reflexivity|]. rewrite rdA_ok by (apply rdH; auto). cbn [bind]. destruct (negb _); [reflexivity|].
    destruct (_ || _); [reflexivity|]. rewrite !rdA_ok by (apply rdH; auto). cbn [bind]. reflexivity. }
  destruct d as [|[|d]]; [lia|lia|]. rewrite Prefix.
  destruct (Z.eqb_spec b a) as [E1|E1]; [apply Refuse; intros (_ & _ & Q & _); apply Q; auto|].
  destruct (Z.eqb_spec (ev m ANext (ev m ANext (ev m ANext a))) a) as [E2|E2]; cbn [negb]; [|apply Refuse; intros (_ & _ & _ & _ & _ & Q); apply E2, Q; auto].
  destruct (Z.eqb_spec (ev m ANext (ev m ANext (ev m ANext b))) b) as [E3|E3]; cbn [negb]; [|apply Refuse; intros (_ & _ & _ & _ & _ & Q); apply E3, Q; auto].
  destruct (Z.eqb_spec (ev m ASib b) a) as [E4|E4]; cbn [negb]; [|apply Refuse; intros (_ & _ & _ & Q & _); contradiction].
  assert (NX : forall h, inH m h -> ev m AFace (ev m ANext h) = ev m AFace h) by (intros h Hh; apply (ring_key _ _ _ (gv_next m V)); auto).
  destruct (Z.eqb_spec (ev m ANext a) b) as [E5|E5]; cbn [orb].
  { apply Refuse. intros (_ & _ & _ & _ & Q & _). apply Q. rewrite <- E5. symmetry. apply NX; auto. }
  destruct (Z.eqb_spec (ev m ANext b) a) as [E6|E6].
  { apply Refuse. intros (_ & _ & _ & _ & Q & _). apply Q. rewrite <- E6. apply NX; auto. }
  assert (T : TwoTriangles m e a b).
  { split; auto. split; auto. split; auto. split; auto. split; [|intros h [-> | ->]; auto]. intros K.
    destruct (triangle_class _ _ _ a (gv_next m V) Ha E2 b Hb (eq_sym K)) as [Q|[Q|Q]]; [congruence|congruence|]. apply E6. rewrite Q. exact E2. }
  destruct (Z.eqb_spec (ev m AOri a) (ev m AOri b)) as [E7|E7]; [|apply Go; auto].
  clear Prefix Refuse Go.
  destruct (invert_ok m (ev m AFace a) V (gv_face m V a Ha)) as (m1 & -> & V1 & I1 & _). cbn [bind].
  destruct (tt_inverted m m1 e a b V He T I1) as (T' & N1 & N2 & N3 & N4).
  assert (He1 : 0 <= e < gEFill m1) by (pose proof (iv_size _ _ _ I1 TEd) as K; cbn [gFill] in K; rewrite K; auto).
  assert (NM1 : NoMonogon m1) by exact (inv_noMono m m1 _ V NM I1).
  assert (Or1 : ev m1 AOri a <> ev m1 AOri b).
  { destruct (iv_in _ _ _ I1 a Ha eq_refl) as (_ & _ & -> & _). destruct (iv_out _ _ _ I1 b Hb) as (_ & _ & -> & _); [intros K; destruct T as (_ & _ & _ & _ & Q & _); apply Q; auto|].
    rewrite E7. destruct (gv_bit m V b Hb) as [->| ->]; lia. }
  destruct (flipOriented_ok m1 V1 NM1 e He1 a b T' prevent Or1) as (m2 & r & E8 & K1 & K2 & K3).
  assert (E9 : gFlip (S d) m1 e prevent = Ok (m2, r)).
  { pose proof (valid_fits m1 V1) as F1. destruct (tt_all m1 V1 e He1 a b T') as (T1 & T2 & T3 & T4 & T5 & T6 & T7 & T8 & Ha1 & Hb1).
    assert (X1 : forall h, inH m1 h -> inH m1 (ev m1 ANext h)) by (intros h Hh; apply (ring_in _ _ _ (gv_next m1 V1)); auto).
    cbn [gFlip]. unfold gEdgeIsBoundary. rewrite rdA_ok by (apply rdE; auto). cbn [bind]. rewrite T1. rewrite rdA_ok by (apply rdH; auto). cbn [bind]. rewrite T2.
    destruct (Z.eqb_spec b a); [congruence|]. rewrite rdA_ok by (apply rdH; auto). cbn [bind]. rewrite rdA_ok by (apply rdH; auto). cbn [bind]. rewrite rdA_ok by (apply rdH; auto). cbn [bind].
    rewrite T5, Z.eqb_refl. cbn [negb]. rewrite rdA_ok by (apply rdH; auto). cbn [bind]. rewrite rdA_ok by (apply rdH; auto). cbn [bind]. rewrite rdA_ok by (apply rdH; auto). cbn [bind].
    rewrite T6, Z.eqb_refl. cbn [negb]. rewrite rdA_ok by (apply rdH; auto). cbn [bind]. rewrite T4, Z.eqb_refl. cbn [negb].
    destruct (Z.eqb_spec (ev m1 ANext a) b); [contradiction|]. destruct (Z.eqb_spec (ev m1 ANext b) a); [contradiction|]. cbn [orb].
    rewrite !rdA_ok by (apply rdH; auto). cbn [bind]. destruct (Z.eqb_spec (ev m1 AOri a) (ev m1 AOri b)); [contradiction|]. exact E8. }
  rewrite E9. cbn [bind].
  assert (V2 : GValid m2) by (destruct r; [apply K3; auto|rewrite K2; auto]).
  assert (NM2 : NoMonogon m2) by (destruct r; [apply K3; auto|rewrite K2; auto]).
  assert (S2 : forall t, gFill m2 t = gFill m t).
  { intros t. rewrite <- (iv_size _ _ _ I1). destruct r; [apply K3; auto|rewrite K2; auto]. }
  assert (Ha2 : inH m2 a) by (red; pose proof (S2 THe) as K; cbn [gFill] in K; rewrite K; exact Ha).
  assert (Fa2 : ev m2 AFace a = ev m AFace a).
  { destruct r; [|rewrite K2 by auto; apply (iv_arr _ _ _ I1); simpl; auto]. destruct (K3 eq_refl) as (_ & _ & FL).
    destruct FL as (_ & _ & _ & _ & _ & (x & x' & y & y' & P1 & P2 & _ & _ & P5) & _). rewrite P5 by (apply (inv_inH _ _ _ _ I1); auto).
    destruct (tt_all m1 V1 e He1 a b T') as (T1 & T2 & T3 & T4 & T5 & T6 & T7 & T8 & Ha1 & Hb1).
    destruct (Z.eqb_spec a x') as [Q|_].
    - exfalso. destruct P1 as [[Px Px']|[Px' Px]]; subst x'.
      + apply (NM1 a Ha1). subst x. rewrite <- Q in T5. exact T5.
      + apply (NM1 a Ha1). auto.
    - destruct (Z.eqb_spec a y) as [Q|_]; [|apply (iv_arr _ _ _ I1); simpl; auto].
      exfalso. destruct T' as (_ & _ & _ & _ & FD & _). apply FD. assert (Y : ev m1 AFace y = ev m1 AFace b).
      { pose proof (gv_next m1 V1) as R1. assert (Hb2 : inH m1 (ev m1 ANext b)) by (apply (ring_in _ _ _ R1); auto).
        destruct P2 as [[-> _]|[-> ->]]; rewrite !(ring_key _ _ _ R1) by auto; auto. }
      congruence. }
  rewrite rdA_ok by (apply rdH; [apply valid_fits; auto|auto|auto]). cbn [bind]. rewrite Fa2.
  destruct (invert_ok m2 (ev m AFace a) V2) as (m3 & -> & V3 & I3 & _).
  { pose proof (S2 TFc) as K. cbn [gFill] in K. rewrite K. apply V; auto. }
  cbn [bind]. exists m3, r. split; [reflexivity|]. split; [exact V3|]. split; [exact (inv_noMono m2 m3 _ V2 NM2 I3)|].
  assert (Eq1 : gTipOf m1 (ev m1 ANext a) = gTipOf m (ev m ANext a)).
  { rewrite N1. assert (H3 : inH m (ev m ANext (ev m ANext a))) by auto. destruct (iv_in _ _ _ I1 _ H3) as (_ & K & _); [rewrite !NX by auto; auto|]. exact K. }
  assert (Eq2 : gTipOf m1 (ev m1 ANext b) = gTipOf m (ev m ANext b)).
  { rewrite N3. apply (iv_out _ _ _ I1); auto. rewrite NX by auto. intros K. destruct T as (_ & _ & _ & _ & Q & _). apply Q. auto. }
  split; [|split].
  - rewrite K1. rewrite Eq1, Eq2. split.
    + intros P. exists a, b. split; auto. intros Hp Q. apply (P Hp). apply (joined_inverted _ _ _ _ _ I1). exact Q.
    + intros (a' & b' & Q' & P). assert (a' = a) by (symmetry; apply Q'). subst a'. assert (b' = b) by apply Q'. subst b'. intros Hp Q. apply (P Hp). apply (joined_inverted _ _ _ _ _ I1). exact Q.
  - intros Er. rewrite K2 in I3 by auto. eapply inv_inv; eauto.
  - intros Er a' b' Q'. assert (a' = a) by (symmetry; apply Q'). subst a'. assert (b' = b) by apply Q'. subst b'.
    apply (flipped_inverted m m1 m2 m3 e a b); auto. apply K3; auto.
Qed.
