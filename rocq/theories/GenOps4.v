(** flip on a general mesh, when the two faces are oriented alike *)
From Verif Require Import Base MeshModel MeshSpec MeshBase MeshOrbit BuildList GenModel GenSpec GenOpsSpec GenBase GenBuild1 GenBuild4 GenBuild6 GenOpsModel GenOps1 GenOps2 GenOps3.
Open Scope Z_scope.

(** ** is there an edge between two vertices? *)
Lemma filterM_ok {A} (p : A -> res bool) (q : A -> bool) l : (forall x, In x l -> p x = Ok (q x)) -> filterM p l = Ok (filter q l).
Proof. induction l as [|x l IH]; intros H; simpl; auto. rewrite H by (left; auto). cbn [bind]. rewrite IH by (intros; apply H; right; auto). reflexivity. Qed.
Lemma canonical_ok m h : GValid m -> inH m h -> gIsCanonical m h = Ok (h =? ev m AEHe (ev m AEdge h)).
Proof.
  intros V Hh. unfold gIsCanonical. pose proof (valid_fits m V) as F. rewrite rdA_ok by (apply rdH; auto). cbn [bind].
  rewrite rdA_ok by (apply rdE; auto; apply V; auto). reflexivity.
Qed.
Lemma ends_rep m h : GValid m -> inH m h -> let r := ev m AEHe (ev m AEdge h) in inH m r /\ ev m AEHe (ev m AEdge r) = r /\
  (gTailOf m r = gTailOf m h /\ gTipOf m r = gTipOf m h \/ gTailOf m r = gTipOf m h /\ gTipOf m r = gTailOf m h).
Proof.
  intros V Hh r. destruct (gv_ehe m V _ (gv_edge m V h Hh)) as [A B]. fold r in A, B. split; auto. split; [rewrite B; reflexivity|].
  pose proof (gv_ori m V r h A Hh B) as K. destruct (ev m AOri r =? ev m AOri h); auto.
Qed.
Definition dupExec (m : gmesh) (vc vd : Z) : res bool :=
  let* lo := gOutHes m vc in let* lo := filterM (gIsCanonical m) lo in let* so := mapM (gTip m) lo in
  let* li := gInHes m vc in let* li := filterM (gIsCanonical m) li in let* si := mapM (gTail m) li in
  Ok (existsb (fun v => v =? vd) (so ++ si)).
Lemma dup_ok m vc vd : GValid m -> 0 <= vc < gVFill m -> exists b, dupExec m vc vd = Ok b /\ (b = true <-> exists h, inH m h /\ endsOf m h vc vd).
Proof.
  intros V Hv. destruct (outHes_ok m V vc Hv) as (lo & A1 & A2 & A3). destruct (inHes_ok m V vc Hv) as (li & B1 & B2 & B3).
  pose proof (valid_fits m V) as F. pose proof (valid_ends m V) as En. unfold dupExec. rewrite A1. cbn [bind].
  set (q := fun h => h =? ev m AEHe (ev m AEdge h)).
  rewrite (filterM_ok _ q) by (intros x Hx; apply canonical_ok; auto; apply A3; auto). cbn [bind].
  rewrite (mapM_all_ok _ (gTipOf m)) by (intros x Hx; apply filter_In in Hx as [Hx _]; apply gTip_ok; auto; apply A3; auto). cbn [bind].
  rewrite B1. cbn [bind]. rewrite (filterM_ok _ q) by (intros x Hx; apply canonical_ok; auto; apply B3; auto). cbn [bind].
  rewrite (mapM_all_ok _ (gTailOf m)) by (intros x Hx; apply filter_In in Hx as [Hx _]; apply gTail_ok; auto; apply B3; auto). cbn [bind].
  eexists. split; [reflexivity|]. rewrite existsb_exists. split.
  - intros (x & Hx & E). apply Z.eqb_eq in E. subst x. apply in_app_or in Hx as [Hx|Hx]; apply in_map_iff in Hx as (h & E & Hh); apply filter_In in Hh as [Hh _].
    + apply A3 in Hh as [H1 H2]. exists h. split; auto. left. auto.
    + apply B3 in Hh as [H1 H2]. exists h. split; auto. right. auto.
  - intros (h & Hh & E). destruct (ends_rep m h V Hh) as (R1 & R2 & R3). cbv zeta in R1, R2, R3. set (r := ev m AEHe (ev m AEdge h)) in *.
    assert (Er : endsOf m r vc vd) by (unfold endsOf, sameEnds in *; destruct R3 as [[-> ->]|[-> ->]]; tauto).
    exists vd. split; [|apply Z.eqb_refl]. apply in_or_app. destruct Er as [[K1 K2]|[K1 K2]]; [left|right]; apply in_map_iff; exists r; (split; [auto|]); apply filter_In; (split; [|unfold q; rewrite R2; apply Z.eqb_refl]).
    + apply A3. auto.
    + apply B3. auto.
Qed.

(** the three sides of a triangle *)
Lemma triangle_class n f key h : Ring n f key -> 0 <= h < n -> f (f (f h)) = h -> forall x, 0 <= x < n -> key x = key h -> x = h \/ x = f h \/ x = f (f h).
Proof.
  intros R Hh T x Hx K. destruct (proj2 R h x Hh Hx (eq_sym K)) as (k & <-). clear K Hx.
  induction k as [|k IH]; [auto|]. simpl. destruct IH as [-> |[-> | ->]]; auto.
Qed.
Lemma reach3 (f : Z -> Z) p q r a b : f p = q -> f q = r -> f r = p -> (a = p \/ a = q \/ a = r) -> (b = p \/ b = q \/ b = r) -> reach f a b.
Proof.
  intros P Q R Ha Hb. destruct Ha as [->|[->| ->]], Hb as [->|[->| ->]]; try apply reach_refl;
    (exists 1%nat; simpl; congruence) || (exists 2%nat; simpl; congruence).
Qed.

Section Oriented.
Context (m : gmesh) (V : GValid m) (NM : NoMonogon m) (e : Z) (He : 0 <= e < gEFill m).
Notation nx := (ev m ANext).
Notation vt := (ev m AVert).
Notation fc := (ev m AFace).
Context (a1 a2 a3 b1 b2 b3 : Z) (A1 : ev m AEHe e = a1) (A2 : nx a1 = a2) (A3 : nx a2 = a3) (A4 : nx a3 = a1).
Context (B1 : ev m ASib a1 = b1) (B2 : nx b1 = b2) (B3 : nx b2 = b3) (B4 : nx b3 = b1) (AB : a1 <> b1) (BA : ev m ASib b1 = a1).
Context (N1 : a2 <> b1) (N2 : b2 <> a1) (Or : ev m AOri a1 <> ev m AOri b1).

Lemma f_in : inH m a1 /\ inH m a2 /\ inH m a3 /\ inH m b1 /\ inH m b2 /\ inH m b3.
Proof.
  assert (I1 : inH m a1) by (rewrite <- A1; apply (gv_ehe m V e He)).
  assert (I2 : inH m b1) by (rewrite <- B1; apply (ring_in _ _ _ (gv_sib m V)); auto).
  assert (S : forall h, inH m h -> inH m (nx h)) by (intros h Hh; apply (ring_in _ _ _ (gv_next m V)); auto).
  rewrite <- A3, <- A2, <- B3, <- B2. auto 10.
Qed.
Lemma f_nx : forall h, inH m h -> inH m (nx h) /\ fc (nx h) = fc h. Proof. apply (gv_next m V). Qed.
Lemma f_faces : fc a2 = fc a1 /\ fc a3 = fc a1 /\ fc b2 = fc b1 /\ fc b3 = fc b1.
Proof.
  destruct f_in as (I1 & I2 & I3 & J1 & J2 & J3). assert (X : fc a2 = fc a1) by (rewrite <- A2; apply f_nx; auto).
  assert (Y : fc b2 = fc b1) by (rewrite <- B2; apply f_nx; auto). repeat split; auto; [rewrite <- A3, <- X|rewrite <- B3, <- Y]; apply f_nx; auto.
Qed.
Lemma f_classA x : inH m x -> fc x = fc a1 -> x = a1 \/ x = a2 \/ x = a3.
Proof. intros Hx K. pose proof (triangle_class _ _ _ a1 (gv_next m V) (proj1 f_in)) as T. rewrite A2, A3 in T. apply T; auto. Qed.
Lemma f_classB x : inH m x -> fc x = fc b1 -> x = b1 \/ x = b2 \/ x = b3.
Proof. intros Hx K. destruct f_in as (_ & _ & _ & J & _). pose proof (triangle_class _ _ _ b1 (gv_next m V) J) as T. rewrite B2, B3 in T. apply T; auto. Qed.
Lemma f_ab : fc a1 <> fc b1.
Proof.
  intros K. destruct f_in as (_ & _ & _ & J & _). destruct (f_classA b1 J (eq_sym K)) as [E|[E|E]]; [congruence|congruence|]. apply N2. congruence.
Qed.
Lemma f_distinct : NoDup [a1; a2; a3; b1; b2; b3].
Proof.
  destruct f_in as (I1 & I2 & I3 & J1 & J2 & J3). pose proof f_ab as K. destruct f_faces as (F1 & F2 & F3 & F4).
  assert (X : forall a b, fc a = fc a1 -> fc b = fc b1 -> a <> b) by (intros a b Ha Hb ->; congruence).
  assert (M1 : a2 <> a1) by (intros Q; apply (NM a1 I1); congruence). assert (M2 : a3 <> a2) by (intros Q; apply (NM a2 I2); congruence).
  assert (M3 : a3 <> a1) by (intros Q; apply (NM a3 I3); congruence).
  assert (M1' : b2 <> b1) by (intros Q; apply (NM b1 J1); congruence). assert (M2' : b3 <> b2) by (intros Q; apply (NM b2 J2); congruence).
  assert (M3' : b3 <> b1) by (intros Q; apply (NM b3 J3); congruence).
  assert (Y : forall a b, fc a = fc a1 -> fc b = fc b1 -> a <> b) by exact X.
  repeat (apply NoDup_cons; [simpl; intros Q; decompose [or] Q; try contradiction; try congruence; try (eapply X; [| |eassumption || (symmetry; eassumption)]; congruence)|]).
  apply NoDup_nil.
Qed.
Lemma f_edge x : inH m x -> ev m AEdge x = e -> x = a1 \/ x = b1.
Proof.
  intros Hx K. assert (Ea : ev m AEdge a1 = e) by (rewrite <- A1; apply (gv_ehe m V e He)).
  destruct (proj2 (gv_sib m V) a1 x (proj1 f_in) Hx ltac:(congruence)) as (k & <-). clear K Hx.
  induction k as [|k IH]; [auto|]. simpl. destruct IH as [-> | ->]; auto.
Qed.
Lemma f_ends : vt b1 = vt a2 /\ vt a1 = vt b2.
Proof.
  destruct f_in as (I1 & I2 & I3 & J1 & J2 & J3). pose proof (gv_ori m V a1 b1 I1 J1) as K.
  assert (Ea : ev m AEdge a1 = ev m AEdge b1) by (rewrite <- B1; symmetry; apply (ring_key _ _ _ (gv_sib m V)); auto). specialize (K Ea).
  destruct (Z.eqb_spec (ev m AOri a1) (ev m AOri b1)); [contradiction|]. unfold gTailOf, gTipOf in K. rewrite A2, B2 in K. destruct K; auto.
Qed.
Definition flipBody (m1 : gmesh) : res gmesh :=
  let va := vt a1 in let vb := vt b1 in let vc := vt a3 in let vd := vt b3 in let fa := fc a1 in let fb := fc b1 in
  let* x := rdA m1 AVHe va in let* m1 := (if x =? a1 then wrA m1 AVHe va b2 else Ok m1) in
  let* x := rdA m1 AVHe vb in let* m1 := (if x =? b1 then wrA m1 AVHe vb a2 else Ok m1) in
  let* m1 := wrA m1 AFHe fa a1 in let* m1 := wrA m1 AFHe fb b1 in
  let* m1 := wrA m1 ANext a1 b3 in let* m1 := wrA m1 ANext b3 a2 in let* m1 := wrA m1 ANext a2 a1 in
  let* m1 := wrA m1 ANext b1 a3 in let* m1 := wrA m1 ANext a3 b2 in let* m1 := wrA m1 ANext b2 b1 in
  let* m1 := wrA m1 AVert a1 vc in let* m1 := wrA m1 AVert b1 vd in
  let* m1 := wrA m1 AFace a3 fb in wrA m1 AFace b3 fa.
Definition flipArrs := [AVHe; AFHe; ANext; AVert; AFace].
Lemma flipBody_ok m1 : sameBut listArrs m m1 -> exists m2, flipBody m1 = Ok m2 /\ sameBut flipArrs m1 m2 /\
  (forall h, ev m2 ANext h = if h =? a1 then b3 else if h =? b3 then a2 else if h =? a2 then a1 else if h =? b1 then a3 else if h =? a3 then b2 else if h =? b2 then b1 else nx h) /\
  (forall h, ev m2 AVert h = if h =? a1 then vt a3 else if h =? b1 then vt b3 else vt h) /\
  (forall h, ev m2 AFace h = if h =? a3 then fc b1 else if h =? b3 then fc a1 else fc h) /\
  (forall h, ev m2 AFHe h = if h =? fc a1 then a1 else if h =? fc b1 then b1 else ev m AFHe h) /\
  (forall v, 0 <= v < gVFill m -> inH m (ev m2 AVHe v) /\ ev m2 AVHe v <> a1 /\ ev m2 AVHe v <> b1 /\ vt (ev m2 AVHe v) = v).
Proof.
  intros S1. pose proof (Fits_same _ _ _ S1 (valid_fits m V)) as F1. destruct f_in as (I1 & I2 & I3 & J1 & J2 & J3).
  assert (X1 : forall a h, ~ In a listArrs -> ev m1 a h = ev m a h) by (intros; apply (sameBut_ev _ _ _ _ _ S1); auto).
  assert (LH : forall a h, typeOf a = THe -> inH m h -> 0 <= h < zlen (ga m1 a)) by (intros a h T Hh; apply rdH; auto; apply (inH_same _ _ _ _ S1); auto).
  assert (LV : forall h, inH m h -> 0 <= vt h < zlen (ga m1 AVHe)) by (intros h Hh; apply rdV; auto; rewrite (vfill_same _ _ _ S1); apply V; auto).
  assert (LF : forall h, inH m h -> 0 <= fc h < zlen (ga m1 AFHe)).
  { intros h Hh. apply rdF; auto. pose proof (proj1 (sameBut_fill _ _ _ TFc S1)) as K. cbn [gFill] in K. rewrite K. apply V; auto. }
  pose proof (f_distinct) as ND. pose proof f_ab as FD. destruct f_ends as [Eb Ea]. unfold flipBody. cbv zeta.
  (* vertex pointers *)
  assert (P : exists mv, (let* x := rdA m1 AVHe (vt a1) in let* m1 := (if x =? a1 then wrA m1 AVHe (vt a1) b2 else Ok m1) in
      let* x := rdA m1 AVHe (vt b1) in (if x =? b1 then wrA m1 AVHe (vt b1) a2 else Ok m1)) = Ok mv /\ sameBut [AVHe] m1 mv /\
      forall v, 0 <= v < gVFill m -> inH m (ev mv AVHe v) /\ ev mv AVHe v <> a1 /\ ev mv AVHe v <> b1 /\ vt (ev mv AVHe v) = v).
  { assert (D : a1 <> b1 /\ b2 <> a1 /\ b2 <> b1 /\ a2 <> a1 /\ a2 <> b1).
    { clear - ND. repeat (apply NoDup_cons_iff in ND as [? ND]). simpl in *. intuition congruence. }
    destruct D as (D1 & D2 & D3 & D4 & D5).
    rewrite rdA_ok by (apply LV; auto). cbn [bind]. set (mv1 := if ev m1 AVHe (vt a1) =? a1 then wA m1 AVHe (vt a1) b2 else m1).
    assert (K1 : (if ev m1 AVHe (vt a1) =? a1 then wrA m1 AVHe (vt a1) b2 else Ok m1) = Ok mv1) by (unfold mv1; destruct (_ =? a1); [apply wrA_ok, LV; auto|auto]).
    rewrite K1. cbn [bind]. clear K1.
    assert (T1 : sameBut [AVHe] m1 mv1) by (unfold mv1; destruct (_ =? a1); [apply sameBut_wA; simpl; auto|apply sameBut_refl]).
    assert (Q1 : forall v, 0 <= v < gVFill m -> inH m (ev mv1 AVHe v) /\ ev mv1 AVHe v <> a1 /\ vt (ev mv1 AVHe v) = v).
    { intros v Hv. destruct (gv_vhe m V v Hv) as [Y1 Y2]. rewrite <- (X1 AVHe) in Y1, Y2 by notin. unfold mv1. destruct (Z.eqb_spec (ev m1 AVHe (vt a1)) a1) as [K|K].
      - rewrite ev_same by (apply LV; auto). destruct (Z.eqb_spec v (vt a1)) as [->|N]; [rewrite <- Ea; auto|]. split; auto. split; auto. intros Q. rewrite Q in Y2. congruence.
      - split; auto. split; auto. intros Q. rewrite Q in Y2. subst v. contradiction. }
    assert (L1 : 0 <= vt b1 < zlen (ga mv1 AVHe)) by (destruct T1 as (_ & _ & T1 & _); rewrite T1; apply LV; auto).
    rewrite rdA_ok by exact L1. cbn [bind]. exists (if ev mv1 AVHe (vt b1) =? b1 then wA mv1 AVHe (vt b1) a2 else mv1).
    split; [destruct (_ =? b1); [apply wrA_ok; exact L1|auto]|]. split; [eapply sameBut_trans; [exact T1|]; destruct (_ =? b1); [apply sameBut_wA; simpl; auto|apply sameBut_refl]|].
    intros v Hv. destruct (Q1 v Hv) as (Y1 & Y2 & Y3). destruct (Z.eqb_spec (ev mv1 AVHe (vt b1)) b1) as [K|K].
    - rewrite ev_same by exact L1. destruct (Z.eqb_spec v (vt b1)) as [->|N]; [auto|]. split; auto. split; auto. split; auto. intros Q. rewrite Q in Y3. congruence.
    - split; auto. split; auto. split; auto. intros Q. rewrite Q in Y3. subst v. contradiction. }
  destruct P as (mv & Pe & Sv & Pv).
  match type of Pe with ?X = _ => match goal with |- exists m2, ?Y = _ /\ _ => replace Y with (let* m1 := X in
    let* m1 := wrA m1 AFHe (fc a1) a1 in let* m1 := wrA m1 AFHe (fc b1) b1 in
    let* m1 := wrA m1 ANext a1 b3 in let* m1 := wrA m1 ANext b3 a2 in let* m1 := wrA m1 ANext a2 a1 in
    let* m1 := wrA m1 ANext b1 a3 in let* m1 := wrA m1 ANext a3 b2 in let* m1 := wrA m1 ANext b2 b1 in
    let* m1 := wrA m1 AVert a1 (vt a3) in let* m1 := wrA m1 AVert b1 (vt b3) in
    let* m1 := wrA m1 AFace a3 (fc b1) in wrA m1 AFace b3 (fc a1)) end end.
  2: { rewrite rdA_ok by (apply LV; auto). cbn [bind]. destruct (if _ =? a1 then _ else _) as [mx| |]; cbn [bind]; auto. destruct (rdA mx AVHe (vt b1)); cbn [bind]; auto. }
  rewrite Pe. cbn [bind].
  assert (LH' : forall a h, typeOf a = THe -> inH m h -> 0 <= h < zlen (ga mv a)) by (intros a h T Hh; destruct Sv as (_ & _ & Sv & _); rewrite Sv; auto).
  assert (LF' : forall h, inH m h -> 0 <= fc h < zlen (ga mv AFHe)) by (intros h Hh; destruct Sv as (_ & _ & Sv & _); rewrite Sv; auto).
  assert (Xv : forall a h, ~ In a (AVHe :: listArrs) -> ev mv a h = ev m a h).
  { intros a h Ha. rewrite (sameBut_ev _ _ _ _ _ Sv); [apply X1|]; intros K; apply Ha; simpl in *; tauto. }
  clear X1 Pe LH LV LF S1. revert LH' LF' Xv Pv Sv ND FD I1 I2 I3 J1 J2 J3. clear. intros LH LF X Pv Sv ND FD I1 I2 I3 J1 J2 J3.
  rewrite wrA_ok by (apply LF; auto). cbn [bind]. rewrite wrA_ok by (rewrite !len_wA; apply LF; auto). cbn [bind].
  do 10 (rewrite wrA_ok by (rewrite !len_wA; apply LH; auto); cbn [bind]).
  eexists. split; [reflexivity|]. split.
  { eapply sameBut_trans; [eapply sameBut_incl; [|exact Sv]; intros z; simpl; tauto|].
    repeat (eapply sameBut_trans; [|apply sameBut_wA; simpl; tauto]). apply sameBut_refl. }
  Ltac evsim LH LF := repeat first [rewrite ev_other by discriminate|rewrite ev_same by (rewrite ?len_wA; first [apply LH; auto; fail|apply LF; auto])].
  assert (D : a1 <> a2 /\ a1 <> a3 /\ a1 <> b1 /\ a1 <> b2 /\ a1 <> b3 /\ a2 <> a3 /\ a2 <> b1 /\ a2 <> b2 /\ a2 <> b3 /\ a3 <> b1 /\ a3 <> b2 /\ a3 <> b3 /\ b1 <> b2 /\ b1 <> b3 /\ b2 <> b3).
  { clear - ND. repeat (apply NoDup_cons_iff in ND as [? ND]). simpl in *. intuition congruence. }
  split; [|split; [|split; [|split]]].
  - intros h. evsim LH LF. rewrite X by notin. clear - D.
    destruct (Z.eqb_spec h a1); [subst; destruct (Z.eqb_spec a1 b2), (Z.eqb_spec a1 a3), (Z.eqb_spec a1 b1), (Z.eqb_spec a1 a2), (Z.eqb_spec a1 b3); intuition congruence|].
    destruct (Z.eqb_spec h b3); [subst; destruct (Z.eqb_spec b3 b2), (Z.eqb_spec b3 a3), (Z.eqb_spec b3 b1), (Z.eqb_spec b3 a2); intuition congruence|].
    destruct (Z.eqb_spec h a2); [subst; destruct (Z.eqb_spec a2 b2), (Z.eqb_spec a2 a3), (Z.eqb_spec a2 b1); intuition congruence|].
    destruct (Z.eqb_spec h b1); [subst; destruct (Z.eqb_spec b1 b2), (Z.eqb_spec b1 a3); intuition congruence|].
    destruct (Z.eqb_spec h a3); [subst; destruct (Z.eqb_spec a3 b2); intuition congruence|]. reflexivity.
  - intros h. evsim LH LF. rewrite X by notin. destruct (Z.eqb_spec h a1), (Z.eqb_spec h b1); auto. clear - D e e0. intuition congruence.
  - intros h. evsim LH LF. rewrite X by notin. destruct (Z.eqb_spec h a3), (Z.eqb_spec h b3); auto. clear - D e e0. intuition congruence.
  - intros h. evsim LH LF. rewrite X by notin. destruct (Z.eqb_spec h (fc a1)), (Z.eqb_spec h (fc b1)); auto. exfalso. apply FD. congruence.
  - intros v Hv. evsim LH LF. apply Pv; auto.
Qed.
Record Turned (m' : gmesh) : Prop := {
  tu_valid : GValid m';
  tu_fill : forall t, gFill m' t = gFill m t;
  tu_arr : forall p h, In p [AEdge; ASib; AEHe; AOri] -> ev m' p h = ev m p h;
  tu_next : forall h, ev m' ANext h = if h =? a1 then b3 else if h =? b3 then a2 else if h =? a2 then a1 else if h =? b1 then a3 else if h =? a3 then b2 else if h =? b2 then b1 else nx h;
  tu_vert : forall h, ev m' AVert h = if h =? a1 then vt a3 else if h =? b1 then vt b3 else vt h;
  tu_face : forall h, ev m' AFace h = if h =? a3 then fc b1 else if h =? b3 then fc a1 else fc h;
  tu_tip : forall h, inH m h -> gTipOf m' h = if h =? a1 then vt b3 else if h =? b1 then vt a3 else gTipOf m h;
  tu_len : forall a, zlen (ga m' a) = zlen (ga m a) }.
Lemma turn_ok : exists m', (let* m1 := gRemoveFromVertexLists m a1 in let* m1 := gRemoveFromVertexLists m1 b1 in let* m2 := flipBody m1 in
    let* m3 := gAddToVertexLists m2 a1 in gAddToVertexLists m3 b1) = Ok m' /\ Turned m'.
Proof.
  pose proof f_in as (I1 & I2 & I3 & J1 & J2 & J3). pose proof f_distinct as ND. pose proof f_ab as FD. destruct f_ends as [Eb Ea]. destruct f_faces as (F1 & F2 & F3 & F4).
  assert (D : a1 <> a2 /\ a1 <> a3 /\ a1 <> b1 /\ a1 <> b2 /\ a1 <> b3 /\ a2 <> a3 /\ a2 <> b1 /\ a2 <> b2 /\ a2 <> b3 /\ a3 <> b1 /\ a3 <> b2 /\ a3 <> b3 /\ b1 <> b2 /\ b1 <> b3 /\ b2 <> b3).
  { clear - ND. repeat (apply NoDup_cons_iff in ND as [? ND]). simpl in *. intuition congruence. }
  destruct (removeAll_ok [a1; b1] m (inH m) (valid_fits m V) (valid_ends m V) (fun h H => H) (valid_lists m V)) as (m1 & E1 & S1 & L1).
  { constructor; [simpl; intuition congruence|constructor; [simpl; tauto|constructor]]. }
  { intros h [<-|[<-|[]]]; auto. }
  destruct (flipBody_ok m1 S1) as (m2 & E2 & S2 & Xn & Xv & Xf & Xfh & Xvh).
  cbn [foldM] in E1. destruct (gRemoveFromVertexLists m a1) as [mx| |]; cbn [bind] in E1; try discriminate. cbn [bind].
  destruct (gRemoveFromVertexLists mx b1) as [my| |]; cbn [bind] in E1; try discriminate. injection E1 as ->. cbn [bind]. rewrite E2. cbn [bind].
  assert (S02 : sameBut (listArrs ++ flipArrs) m m2).
  { eapply sameBut_trans; [eapply sameBut_incl; [|exact S1]|eapply sameBut_incl; [|exact S2]]; intros z Hz; apply in_or_app; auto. }
  assert (H2 : forall h, inH m2 h <-> inH m h) by (intros h; apply (inH_same _ _ _ _ S02)).
  assert (HF2 : gHeFill m2 = gHeFill m) by exact (proj1 (sameBut_fill _ _ _ THe S02)).
  assert (VF2 : gVFill m2 = gVFill m) by exact (proj1 (sameBut_fill _ _ _ TVe S02)).
  assert (FF2 : gFFill m2 = gFFill m) by exact (proj1 (sameBut_fill _ _ _ TFc S02)).
  assert (EF2 : gEFill m2 = gEFill m) by exact (proj1 (sameBut_fill _ _ _ TEd S02)).
  assert (Fm2 : Fits m2) by (eapply Fits_same; [exact S02|apply valid_fits; auto]).
  (* next, on the six and elsewhere *)
  assert (Na1 : ev m2 ANext a1 = b3) by (rewrite Xn, Z.eqb_refl; auto).
  assert (Nb3 : ev m2 ANext b3 = a2) by (rewrite Xn; destruct (Z.eqb_spec b3 a1); [exfalso; clear - D e0; intuition congruence|]; rewrite Z.eqb_refl; auto).
  assert (Na2 : ev m2 ANext a2 = a1) by (rewrite Xn; destruct (Z.eqb_spec a2 a1), (Z.eqb_spec a2 b3); try (exfalso; clear - D e0; intuition congruence); rewrite Z.eqb_refl; auto).
  assert (Nb1 : ev m2 ANext b1 = a3) by (rewrite Xn; destruct (Z.eqb_spec b1 a1), (Z.eqb_spec b1 b3), (Z.eqb_spec b1 a2); try (exfalso; clear - D e0; intuition congruence); rewrite Z.eqb_refl; auto).
  assert (Na3 : ev m2 ANext a3 = b2) by (rewrite Xn; destruct (Z.eqb_spec a3 a1), (Z.eqb_spec a3 b3), (Z.eqb_spec a3 a2), (Z.eqb_spec a3 b1); try (exfalso; clear - D e0; intuition congruence); rewrite Z.eqb_refl; auto).
  assert (Nb2 : ev m2 ANext b2 = b1) by (rewrite Xn; destruct (Z.eqb_spec b2 a1), (Z.eqb_spec b2 b3), (Z.eqb_spec b2 a2), (Z.eqb_spec b2 b1), (Z.eqb_spec b2 a3); try (exfalso; clear - D e0; intuition congruence); rewrite Z.eqb_refl; auto).
  assert (Nel : forall h, inH m h -> fc h <> fc a1 -> fc h <> fc b1 -> ev m2 ANext h = nx h).
  { intros h Hh Q1 Q2. rewrite Xn. destruct (Z.eqb_spec h a1), (Z.eqb_spec h b3), (Z.eqb_spec h a2), (Z.eqb_spec h b1), (Z.eqb_spec h a3), (Z.eqb_spec h b2); subst; try reflexivity; exfalso; congruence. }
  assert (Six : forall h, inH m h -> (h = a1 \/ h = a2 \/ h = a3) \/ (h = b1 \/ h = b2 \/ h = b3) \/ (fc h <> fc a1 /\ fc h <> fc b1)).
  { intros h Hh. destruct (Z.eq_dec (fc h) (fc a1)); [left; apply f_classA; auto|]. destruct (Z.eq_dec (fc h) (fc b1)); [right; left; apply f_classB; auto|auto]. }
  assert (Vo : forall h, h <> a1 -> h <> b1 -> ev m2 AVert h = vt h).
  { intros h Q1 Q2. rewrite Xv. destruct (Z.eqb_spec h a1), (Z.eqb_spec h b1); auto; contradiction. }
  assert (Va : ev m2 AVert a1 = vt a3) by (rewrite Xv, Z.eqb_refl; auto).
  assert (Vb : ev m2 AVert b1 = vt b3) by (rewrite Xv; destruct (Z.eqb_spec b1 a1); [congruence|]; rewrite Z.eqb_refl; auto).
  assert (Fa1 : ev m2 AFace a1 = fc a1 /\ ev m2 AFace a2 = fc a1 /\ ev m2 AFace b3 = fc a1).
  { rewrite !Xf. destruct (Z.eqb_spec a1 a3), (Z.eqb_spec a1 b3), (Z.eqb_spec a2 a3), (Z.eqb_spec a2 b3), (Z.eqb_spec b3 a3); try (exfalso; clear - D e0; intuition congruence). rewrite Z.eqb_refl. auto. }
  assert (Fb1 : ev m2 AFace b1 = fc b1 /\ ev m2 AFace b2 = fc b1 /\ ev m2 AFace a3 = fc b1).
  { rewrite !Xf. destruct (Z.eqb_spec b1 a3), (Z.eqb_spec b1 b3), (Z.eqb_spec b2 a3), (Z.eqb_spec b2 b3); try (exfalso; clear - D e0; intuition congruence). rewrite Z.eqb_refl. auto. }
  assert (Fo : forall h, inH m h -> fc h <> fc a1 -> fc h <> fc b1 -> ev m2 AFace h = fc h).
  { intros h Hh Q1 Q2. rewrite Xf. destruct (Z.eqb_spec h a3); [subst; congruence|]. destruct (Z.eqb_spec h b3); [subst; congruence|auto]. }
  assert (R2 : Ring (gHeFill m2) (ev m2 ANext) (ev m2 AFace)).
  { rewrite HF2. destruct Fa1 as (G1 & G2 & G3), Fb1 as (G4 & G5 & G6). split.
    - intros h Hh. destruct (Six h Hh) as [[-> |[-> | ->]]|[[-> |[-> | ->]]|[Q1 Q2]]].
      1-6: rewrite ?Na1, ?Na2, ?Na3, ?Nb1, ?Nb2, ?Nb3, ?G1, ?G2, ?G3, ?G4, ?G5, ?G6; auto.
      destruct (f_nx h Hh) as [K1 K2]. rewrite Nel by auto. split; auto. rewrite !Fo by (auto; congruence). auto.
    - assert (CA : forall h, inH m h -> ev m2 AFace h = fc a1 -> h = a1 \/ h = b3 \/ h = a2).
      { intros h Hh Q. destruct (Six h Hh) as [[-> |[-> | ->]]|[[-> |[-> | ->]]|[Q1 Q2]]]; auto; try (exfalso; congruence). rewrite Fo in Q by auto. contradiction. }
      assert (CB : forall h, inH m h -> ev m2 AFace h = fc b1 -> h = b1 \/ h = a3 \/ h = b2).
      { intros h Hh Q. destruct (Six h Hh) as [[-> |[-> | ->]]|[[-> |[-> | ->]]|[Q1 Q2]]]; auto; try (exfalso; congruence). rewrite Fo in Q by auto. contradiction. }
      intros a b Ha Hb Q. destruct (Z.eq_dec (ev m2 AFace a) (fc a1)) as [K|K]; [apply (reach3 _ a1 b3 a2); auto; apply CA; auto; congruence|].
      destruct (Z.eq_dec (ev m2 AFace a) (fc b1)) as [K'|K']; [apply (reach3 _ b1 a3 b2); auto; apply CB; auto; congruence|].
      assert (Other : forall h, inH m h -> ev m2 AFace h <> fc a1 -> ev m2 AFace h <> fc b1 -> fc h <> fc a1 /\ fc h <> fc b1).
      { intros h Hh Q1 Q2. destruct (Six h Hh) as [[-> |[-> | ->]]|[[-> |[-> | ->]]|Q3]]; auto; exfalso; congruence. }
      destruct (Other a Ha K K') as [Y1 Y2]. destruct (Other b Hb ltac:(congruence) ltac:(congruence)) as [Y3 Y4]. rewrite !Fo in Q by auto.
      destruct (proj2 (gv_next m V) a b Ha Hb Q) as (k & <-). exists k. clear Q Hb Y3 Y4.
      assert (G : forall k, Nat.iter k (ev m2 ANext) a = Nat.iter k nx a /\ inH m (Nat.iter k nx a) /\ fc (Nat.iter k nx a) = fc a).
      { induction k0 as [|j (Z1 & Z2 & Z3)]; simpl; [auto|]. rewrite Z1. destruct (f_nx _ Z2) as [W1 W2]. rewrite Nel by (auto; congruence). split; auto. split; auto. congruence. }
      apply G. }
  assert (E2' : Ends m2).
  { intros h Hh. split; [apply (ring_in _ _ _ R2); auto|]. apply H2 in Hh. rewrite VF2, Xv.
    destruct (h =? a1); [apply V; auto|]. destruct (h =? b1); apply V; auto. }
  (* tips *)
  assert (Ta1 : gTipOf m2 a1 = vt b3) by (unfold gTipOf; rewrite Na1; apply Vo; clear - D; intuition congruence).
  assert (Tb1 : gTipOf m2 b1 = vt a3) by (unfold gTipOf; rewrite Nb1; apply Vo; clear - D; intuition congruence).
  assert (To : forall h, inH m h -> h <> a1 -> h <> b1 -> gTipOf m2 h = gTipOf m h).
  { intros h Hh Q1 Q2. unfold gTipOf. destruct (Six h Hh) as [[-> |[-> | ->]]|[[-> |[-> | ->]]|[Q3 Q4]]]; try contradiction.
    - rewrite Na2, A3. exact Va.
    - rewrite Na3, A4. rewrite Vo by (clear - D; intuition congruence). auto.
    - rewrite Nb2, B3. exact Vb.
    - rewrite Nb3, B4. rewrite Vo by (clear - D; intuition congruence). auto.
    - rewrite Nel by auto. destruct (f_nx h Hh) as [K1 K2]. apply Vo; intros K; rewrite K in K2; congruence. }
  assert (L2 : Lists (fun h => inH m h /\ ~ In h [a1; b1]) m2).
  { destruct L1 as [BO BI]. unfold outA, inA, NbrA in *. rewrite (vfill_same _ _ _ S1) in BO, BI. split; unfold outA, inA, NbrA; rewrite VF2.
    - refine (nbr_ext _ _ _ _ _ _ _ _ _ _ _ (fun h => iff_refl _) _ _ _ _ BO).
      + intros h [Hh Q]. rewrite (tail_same _ _ _ _ S1) by notin. symmetry. apply Vo; intros ->; apply Q; simpl; auto.
      + intros h _. symmetry. apply (sameBut_ev _ _ _ _ _ S2); notin.
      + intros h _. symmetry. apply (sameBut_ev _ _ _ _ _ S2); notin.
      + intros h _. symmetry. apply (sameBut_ev _ _ _ _ _ S2); notin.
    - refine (nbr_ext _ _ _ _ _ _ _ _ _ _ _ (fun h => iff_refl _) _ _ _ _ BI).
      + intros h [Hh Q]. rewrite (tip_same _ _ _ _ S1) by notin. symmetry. apply To; auto; intros ->; apply Q; simpl; auto.
      + intros h _. symmetry. apply (sameBut_ev _ _ _ _ _ S2); notin.
      + intros h _. symmetry. apply (sameBut_ev _ _ _ _ _ S2); notin.
      + intros h _. symmetry. apply (sameBut_ev _ _ _ _ _ S2); notin. }
  destruct (addAll_ok [a1; b1] m2 (fun h => inH m h /\ ~ In h [a1; b1]) Fm2 E2' ltac:(intros h [Hh _]; apply H2; auto) L2) as (m4 & E4 & S4 & L4).
  { constructor; [simpl; intuition congruence|constructor; [simpl; tauto|constructor]]. }
  { intros h Hh. split; [destruct Hh as [<-|[<-|[]]]; apply H2; auto|intros [_ Q]; apply Q; auto]. }
  cbn [foldM] in E4. destruct (gAddToVertexLists m2 a1) as [mx'| |]; cbn [bind] in E4; try discriminate. cbn [bind].
  destruct (gAddToVertexLists mx' b1) as [my'| |]; cbn [bind] in E4; try discriminate. injection E4 as ->. exists m4. split; [reflexivity|].
  assert (X4 : forall a h, ~ In a listArrs -> ev m4 a h = ev m2 a h) by (intros; apply (sameBut_ev _ _ _ _ _ S4); auto).
  assert (S04 : sameBut (listArrs ++ flipArrs) m m4).
  { eapply sameBut_trans; [exact S02|eapply sameBut_incl; [|exact S4]]; intros z Hz; apply in_or_app; auto. }
  assert (X04 : forall a h, ~ In a (listArrs ++ flipArrs) -> ev m4 a h = ev m a h) by (intros; apply (sameBut_ev _ _ _ _ _ S04); auto).
  assert (H4 : forall h, inH m4 h <-> inH m h) by (intros h; apply (inH_same _ _ _ _ S04)).
  assert (T4 : forall h, gTipOf m4 h = gTipOf m2 h) by (intros h; apply (tip_same _ _ _ _ S4); notin).
  assert (HF4 : gHeFill m4 = gHeFill m) by exact (proj1 (sameBut_fill _ _ _ THe S04)).
  assert (VF4 : gVFill m4 = gVFill m) by exact (proj1 (sameBut_fill _ _ _ TVe S04)).
  assert (FF4 : gFFill m4 = gFFill m) by exact (proj1 (sameBut_fill _ _ _ TFc S04)).
  assert (EF4 : gEFill m4 = gEFill m) by exact (proj1 (sameBut_fill _ _ _ TEd S04)).
  constructor.
  2: { intros t. apply (sameBut_fill _ _ _ t S04). }
  2: { intros a h Ha. apply X04. simpl in Ha. repeat (destruct Ha as [<-|Ha]; [notin|]). destruct Ha. }
  2: { intros h. rewrite X4 by notin. apply Xn. }
  2: { intros h. rewrite X4 by notin. apply Xv. }
  2: { intros h. rewrite X4 by notin. apply Xf. }
  2: { intros h Hh. rewrite T4. destruct (Z.eqb_spec h a1) as [->|]; [exact Ta1|]. destruct (Z.eqb_spec h b1) as [->|]; [exact Tb1|]. apply To; auto. }
  2: { apply S04. }
  apply valid_from.
  - eapply Fits_same; [exact S04|apply valid_fits; auto].
  - eapply count_same; [exact S04|apply V].
  - eapply Ends_same; [exact S4|notin|notin|exact E2'].
  - intros h Hh. apply H4 in Hh. rewrite FF4, X4, Xf by notin. destruct (h =? a3); [apply V; auto|]. destruct (h =? b3); apply V; auto.
  - intros h Hh. apply H4 in Hh. rewrite EF4, X04 by notin. apply (gv_edge m V); auto.
  - intros v Hv. rewrite VF4 in Hv. rewrite !X4 by notin. rewrite H4. destruct (Xvh v Hv) as (Y1 & Y2 & Y3 & Y4). split; auto. rewrite Vo by auto. auto.
  - intros g Hg. rewrite FF4 in Hg. rewrite !X4 by notin. rewrite H4. rewrite Xfh. destruct (Z.eqb_spec g (fc a1)) as [->|Q1]; [split; [auto|apply Fa1]|].
    destruct (Z.eqb_spec g (fc b1)) as [->|Q2]; [split; [auto|apply Fb1]|]. destruct (gv_fhe m V g Hg) as [Y1 Y2]. split; auto. rewrite Fo by (auto; congruence). auto.
  - intros g Hg. rewrite EF4 in Hg. rewrite !X04 by notin. rewrite H4. apply (gv_ehe m V); auto.
  - rewrite HF4, <- HF2. eapply ring_ext; [| |exact R2]; intros h _; symmetry; apply X4; notin.
  - rewrite HF4. eapply ring_ext; [| |exact (gv_sib m V)]; intros h _; symmetry; apply X04; notin.
  - eapply Lists_iff; [|exact L4]. intros h. rewrite H4. split; [intros Hh; destruct (in_dec Z.eq_dec h [a1; b1]); auto|intros [[A _]|[<-|[<-|[]]]]; auto].
  - intros h Hh. apply H4 in Hh. rewrite X04 by notin. apply (gv_bit m V); auto.
  - intros a b Ha Hb K. apply H4 in Ha, Hb. rewrite !X04 in K by notin. rewrite !(X04 AOri) by notin. rewrite !T4. unfold gTailOf. rewrite !X4 by notin.
    pose proof (gv_ori m V a b Ha Hb K) as Q. pose proof (gv_ori m V b a Hb Ha (eq_sym K)) as Q'.
    assert (Ea1 : ev m AEdge a1 = e) by (rewrite <- A1; apply (gv_ehe m V e He)).
    assert (Eb1 : ev m AEdge b1 = e) by (rewrite <- Ea1, <- B1; apply (ring_key _ _ _ (gv_sib m V)); auto).
    destruct (Z.eq_dec (ev m AEdge a) e) as [Ke|Ke].
    + destruct (f_edge a Ha Ke) as [-> | ->], (f_edge b Hb ltac:(congruence)) as [-> | ->]; rewrite ?Ta1, ?Tb1, ?Va, ?Vb, ?Z.eqb_refl; auto.
      * destruct (Z.eqb_spec (ev m AOri a1) (ev m AOri b1)); [contradiction|auto].
      * destruct (Z.eqb_spec (ev m AOri b1) (ev m AOri a1)); [congruence|auto].
    + assert (Z1 : a <> a1 /\ a <> b1) by (split; intros ->; congruence). assert (Z2 : b <> a1 /\ b <> b1) by (split; intros ->; congruence).
      rewrite !To by tauto. rewrite !Vo by tauto. exact Q.
Qed.
End Oriented.
