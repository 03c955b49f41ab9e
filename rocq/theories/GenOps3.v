(** invertOrientation *)
From Verif Require Import Base MeshModel MeshSpec MeshBase MeshOrbit GenModel GenSpec GenOpsSpec GenBase GenBuild1 GenBuild4 GenBuild6 GenOpsModel GenOps1 GenOps2.
Open Scope Z_scope.

Section Loop.
Context (m1 : gmesh) (F : Fits m1) (E : Ends m1) (l : list Z) (h0 : Z).
Context (C : chain (ev m1 ANext) h0 l h0) (ND : NoDup l) (IL : forall h, In h l -> inH m1 h).
Notation nx := (ev m1 ANext).
Notation vt := (ev m1 AVert).
Record Inv (m : gmesh) (done : list Z) : Prop := {
  in_same : sameBut [ANext; AVert; AOri; AVHe] m1 m;
  in_old : forall h, ~ In h done -> ev m ANext h = nx h /\ ev m AVert h = vt h /\ ev m AOri h = ev m1 AOri h;
  in_new : forall h, In h done -> ev m AVert h = vt (nx h) /\ ev m AOri h = (if ev m1 AOri h =? 0 then 1 else 0);
  in_next : forall h, In h done -> In (nx h) done -> nx h <> h0 -> ev m ANext (nx h) = h;
  in_vhe : forall v, (ev m AVHe v = ev m1 AVHe v /\ forall h, In h done -> vt (nx h) <> v) \/ (exists h, In h done /\ vt (nx h) = v /\ ev m AVHe v = h) }.
Lemma invStep m done curr prev : Inv m done -> ~ In curr done -> inH m1 curr -> (curr <> h0 -> In prev done /\ nx prev = curr) -> (curr = h0 -> done = []) ->
  (forall a b, In a done -> In b done -> nx a = nx b -> a = b) ->
  (forall a, In a done -> a <> prev -> nx a <> curr) -> (nx curr <> h0 -> ~ In (nx curr) (done ++ [curr])) ->
  let v := vt (nx curr) in
  Inv (let m' := wA (wA (wA m AVert curr v) AVHe v curr) AOri curr (if ev m AOri curr =? 0 then 1 else 0) in
       if curr =? h0 then m' else wA m' ANext curr prev) (done ++ [curr]).
Proof.
  intros I NI Hc P1 P2 Inj PU NC. cbv zeta. pose proof (Fits_same _ _ _ (in_same _ _ I) F) as Fm.
  assert (Hcm : inH m curr) by (apply (inH_same _ _ _ _ (in_same _ _ I)); auto).
  assert (Hv : 0 <= vt (nx curr) < gVFill m) by (rewrite (vfill_same _ _ _ (in_same _ _ I)); apply E; apply E; auto).
  assert (LH : forall a, typeOf a = THe -> 0 <= curr < zlen (ga m a)) by (intros a T; apply rdH; auto).
  assert (LV : 0 <= vt (nx curr) < zlen (ga m AVHe)) by (apply rdV; auto).
  set (o := if ev m AOri curr =? 0 then 1 else 0). set (v := vt (nx curr)) in *.
  set (m' := if curr =? h0 then _ else _).
  assert (S' : sameBut [ANext; AVert; AOri; AVHe] m m').
  { unfold m'. destruct (curr =? h0); repeat (eapply sameBut_trans; [|apply sameBut_wA; simpl; tauto]); apply sameBut_refl. }
  assert (Xv : forall h, ev m' AVert h = if h =? curr then v else ev m AVert h).
  { intros h. unfold m'. destruct (curr =? h0); [|rewrite ev_other by discriminate]; rewrite !ev_other by discriminate; apply ev_same; apply LH; reflexivity. }
  assert (Xo : forall h, ev m' AOri h = if h =? curr then o else ev m AOri h).
  { intros h. unfold m'. destruct (curr =? h0); [|rewrite ev_other by discriminate]; (rewrite ev_same by (rewrite !len_wA; apply LH; reflexivity)); rewrite !ev_other by discriminate; reflexivity. }
  assert (Xh : forall h, ev m' AVHe h = if h =? v then curr else ev m AVHe h).
  { intros h. unfold m'. destruct (curr =? h0); [|rewrite ev_other by discriminate]; rewrite ev_other by discriminate; (rewrite ev_same by (rewrite !len_wA; exact LV)); rewrite !ev_other by discriminate; reflexivity. }
  assert (Xn : forall h, ev m' ANext h = if (h =? curr) && negb (curr =? h0) then prev else ev m ANext h).
  { intros h. unfold m'. destruct (curr =? h0); cbn [negb]; [rewrite andb_false_r, !ev_other by discriminate; reflexivity|]. rewrite andb_true_r.
    rewrite ev_same by (rewrite !len_wA; apply LH; reflexivity). rewrite !ev_other by discriminate. reflexivity. }
  clearbody m'. destruct (in_old _ _ I curr NI) as (O1 & O2 & O3). constructor.
  - eapply sameBut_trans; [apply I|exact S'].
  - intros h Hh. assert (h <> curr) by (intros ->; apply Hh, in_or_app; right; left; auto). rewrite Xv, Xo, Xn. destruct (Z.eqb_spec h curr); [contradiction|]. cbn [andb].
    apply (in_old _ _ I). intros K. apply Hh, in_or_app. auto.
  - intros h Hh. rewrite Xv, Xo. destruct (Z.eqb_spec h curr) as [->|N]; [unfold o; rewrite O3; auto|].
    apply (in_new _ _ I). apply in_app_or in Hh as [K|[K|[]]]; [auto|congruence].
  - intros h Hh Hn N0. rewrite Xn. apply in_app_or in Hh as [Hh|[<-|[]]].
    + destruct (Z.eqb_spec (nx h) curr) as [K|K].
      * destruct (Z.eqb_spec curr h0) as [Q|Q]; [congruence|]. cbn [negb andb]. destruct (P1 Q) as [P3 P4]. apply Inj; auto. congruence.
      * cbn [andb]. apply (in_next _ _ I); auto. apply in_app_or in Hn as [Hn|[Hn|[]]]; [auto|congruence].
    + exfalso. apply NC; auto.
  - intros w. rewrite Xh. destruct (Z.eqb_spec w v) as [->|N].
    + right. exists curr. split; [apply in_or_app; simpl; auto|]. split; auto.
    + destruct (in_vhe _ _ I w) as [[A B]|(h & A & B & G)]; [left|right].
      * split; auto. intros h Hh. apply in_app_or in Hh as [Hh|[<-|[]]]; [auto|]. fold v. congruence.
      * exists h. split; [apply in_or_app; auto|]. auto.
Qed.
Lemma inv_nil m : m = m1 -> Inv m [].
Proof.
  intros ->. constructor; [apply sameBut_refl|auto|intros h []|intros h []|]. intros v. left. split; [auto|]. intros h [].
Qed.
Lemma chain_pred done rest curr : l = done ++ curr :: rest -> done <> [] -> nx (last done INVALID) = curr /\ In (last done INVALID) done.
Proof.
  intros L Hd. rewrite L in C. apply chain_app in C as (c & C1 & C2). destruct (chain_last _ _ _ _ Hd C1) as [A B]. simpl in C2. destruct C2 as [-> _]. auto.
Qed.
Lemma chain_inj_l : l <> [] -> forall a b, In a l -> In b l -> nx a = nx b -> a = b.
Proof.
  intros Hl. assert (S : incl l (map nx l)).
  { clear - C Hl. intros x Hx. apply in_split in Hx as (d & r & L). destruct d as [|y d].
    - simpl in L. destruct (chain_last _ _ _ _ Hl C) as [A B]. rewrite L in C. simpl in C. destruct C as [-> _]. rewrite <- A. apply in_map. auto.
    - assert (D : y :: d <> []) by discriminate. rewrite L in C. apply chain_app in C as (c & C1 & C2). destruct (chain_last _ _ _ _ D C1) as [A B]. simpl in C2. destruct C2 as [-> _].
      rewrite <- A. apply in_map. rewrite L. apply in_or_app. auto. }
  assert (NM : NoDup (map nx l)) by (apply NoDup_incl_NoDup with l; auto; rewrite map_length; auto).
  intros a b Ia Ib. apply (NoDup_map_inj nx l); auto.
Qed.
Definition stepMesh (m : gmesh) (curr prev : Z) : gmesh :=
  let v := vt (nx curr) in let m' := wA (wA (wA m AVert curr v) AVHe v curr) AOri curr (if ev m AOri curr =? 0 then 1 else 0) in
  if curr =? h0 then m' else wA m' ANext curr prev.
Lemma stepExec k m done curr prev : Inv m done -> ~ In curr done -> inH m1 curr -> (nx curr <> h0 -> ~ In (nx curr) done) -> (prev = INVALID <-> curr = h0) ->
  gInvertLoop (S k) m h0 (vt h0) prev curr =
  if nx curr =? h0 then Ok (stepMesh m curr prev, curr) else gInvertLoop k (stepMesh m curr prev) h0 (vt h0) curr (nx curr).
Proof.
  intros I NI Hc NN P. destruct (in_old _ _ I curr NI) as (O1 & O2 & O3). pose proof (Fits_same _ _ _ (in_same _ _ I) F) as Fm.
  assert (Hcm : inH m curr) by (apply (inH_same _ _ _ _ (in_same _ _ I)); auto).
  assert (Hnm : inH m (nx curr)) by (apply (inH_same _ _ _ _ (in_same _ _ I)); apply E; auto).
  assert (Hv : 0 <= vt (nx curr) < gVFill m) by (rewrite (vfill_same _ _ _ (in_same _ _ I)); apply E; apply E; auto).
  assert (LH : forall a, typeOf a = THe -> 0 <= curr < zlen (ga m a)) by (intros a T; apply rdH; auto).
  assert (LV : 0 <= vt (nx curr) < zlen (ga m AVHe)) by (apply rdV; auto).
  cbn [gInvertLoop]. rewrite rdA_ok by (apply LH; reflexivity). cbn [bind]. rewrite O1.
  assert (Rv : (if nx curr =? h0 then Ok (vt h0) else rdA m AVert (nx curr)) = Ok (vt (nx curr))).
  { destruct (Z.eqb_spec (nx curr) h0) as [->|K]; auto. rewrite rdA_ok by (apply rdH; auto). f_equal. apply (in_old _ _ I). auto. }
  rewrite Rv. cbn [bind]. rewrite wrA_ok by (apply LH; reflexivity). cbn [bind]. rewrite wrA_ok by (rewrite !len_wA; exact LV). cbn [bind].
  rewrite rdA_ok by (rewrite !len_wA; apply LH; reflexivity). cbn [bind]. rewrite !ev_other by discriminate.
  rewrite wrA_ok by (rewrite !len_wA; apply LH; reflexivity). cbn [bind]. unfold stepMesh. cbv zeta.
  destruct (Z.eqb_spec prev INVALID) as [Q|Q]; [apply P in Q; rewrite (proj2 (Z.eqb_eq curr h0) Q); cbn [bind]; reflexivity|].
  destruct (Z.eqb_spec curr h0) as [K|K]; [exfalso; apply Q, P; exact K|]. rewrite wrA_ok by (rewrite !len_wA; apply LH; reflexivity). cbn [bind]. reflexivity.
Qed.
Lemma invertLoop_ok rest done m curr fuel : l = done ++ curr :: rest -> Inv m done -> (length (curr :: rest) <= fuel)%nat ->
  exists m', gInvertLoop fuel m h0 (vt h0) (last done INVALID) curr = Ok (m', last l INVALID) /\ Inv m' l.
Proof.
  revert done m curr fuel. induction rest as [|y rest IH]; intros done m curr fuel L I Hf; (destruct fuel as [|fuel]; [simpl in Hf; lia|]).
  all: assert (Ic : In curr l) by (rewrite L; apply in_or_app; right; left; auto).
  all: assert (Hl : l <> []) by (intros K; rewrite K in Ic; destruct Ic).
  all: assert (NDc : ~ In curr done) by (intros K; rewrite L in ND; apply NoDup_remove_2 in ND; apply ND, in_or_app; auto).
  all: assert (Hc : inH m1 curr) by auto.
  all: assert (C0 : curr = h0 <-> done = []) by (split; [intros ->; destruct done as [|z d]; auto; exfalso; apply NDc; rewrite L in C; simpl in C; destruct C as [-> _]; left; auto
       |intros ->; rewrite L in C; simpl in C; destruct C as [-> _]; auto]).
  all: assert (P1 : curr <> h0 -> In (last done INVALID) done /\ nx (last done INVALID) = curr)
    by (intros N0; destruct (chain_pred _ _ _ L) as [A B]; [intros K; apply N0, C0; exact K|auto]).
  all: assert (Inj : forall a b, In a done -> In b done -> nx a = nx b -> a = b)
    by (intros a b Ia Ib; apply chain_inj_l; auto; rewrite L; apply in_or_app; auto).
  all: assert (PU : forall a, In a done -> a <> last done INVALID -> nx a <> curr)
    by (intros a Ia Na K; apply Na; destruct (Z.eq_dec curr h0) as [Q|Q]; [apply C0 in Q; subst done; destruct Ia|destruct (P1 Q) as [P3 P4]; apply Inj; auto; congruence]).
  all: assert (PI : last done INVALID = INVALID <-> curr = h0)
    by (split; [intros K; destruct (Z.eq_dec curr h0) as [Q|Q]; auto; exfalso; destruct (P1 Q) as [P3 _]; rewrite K in P3;
        assert (X : inH m1 INVALID) by (apply IL; rewrite L; apply in_or_app; auto); red in X; change INVALID with (-1) in X; lia
       |intros Q; apply C0 in Q; rewrite Q; reflexivity]).
  - assert (En : nx curr = h0) by (rewrite L in C; apply chain_app in C as (c & _ & C2); simpl in C2; destruct C2 as [-> C2]; exact C2).
    pose proof (invStep m done curr (last done INVALID) I NDc Hc P1 (proj1 C0) Inj PU ltac:(congruence)) as I'. cbv zeta in I'.
    rewrite <- L in I'. exists (stepMesh m curr (last done INVALID)). split; [|exact I'].
    rewrite (stepExec fuel m done) by (auto; congruence). rewrite En, Z.eqb_refl, L. rewrite last_last. reflexivity.
  - assert (En : nx curr = y) by (rewrite L in C; apply chain_app in C as (c & _ & C2); simpl in C2; destruct C2 as [-> [C2 _]]; auto).
    assert (L' : l = (done ++ [curr]) ++ y :: rest) by (rewrite <- app_assoc; exact L).
    assert (Ny : ~ In y (done ++ [curr])) by (intros K; rewrite L' in ND; apply NoDup_remove_2 in ND; apply ND, in_or_app; auto).
    assert (Y0 : y <> h0).
    { intros ->. apply Ny. destruct done as [|z d]; [left; apply C0; auto|]. rewrite L in C. simpl in C. destruct C as [-> _]. left; auto. }
    pose proof (invStep m done curr (last done INVALID) I NDc Hc P1 (proj1 C0) Inj PU ltac:(intros _; rewrite En; exact Ny)) as I'. cbv zeta in I'.
    rewrite (stepExec fuel m done) by (auto; intros _ K; apply Ny, in_or_app; left; rewrite <- En; exact K).
    rewrite En. destruct (Z.eqb_spec y h0); [contradiction|].
    destruct (IH (done ++ [curr]) (stepMesh m curr (last done INVALID)) y fuel L' I' ltac:(simpl in *; lia)) as (m' & E1 & I1).
    rewrite last_last in E1. exists m'. auto.
Qed.
End Loop.

Lemma valid_from m : Fits m -> gHe m = gHeFill m /\ gInt m = gHeFill m /\ gEd m = gEFill m /\ gVe m = gVFill m /\ gFc m = gFFill m -> Ends m ->
  (forall h, inH m h -> 0 <= ev m AFace h < gFFill m) -> (forall h, inH m h -> 0 <= ev m AEdge h < gEFill m) ->
  (forall v, 0 <= v < gVFill m -> inH m (ev m AVHe v) /\ ev m AVert (ev m AVHe v) = v) ->
  (forall f, 0 <= f < gFFill m -> inH m (ev m AFHe f) /\ ev m AFace (ev m AFHe f) = f) ->
  (forall e, 0 <= e < gEFill m -> inH m (ev m AEHe e) /\ ev m AEdge (ev m AEHe e) = e) ->
  Ring (gHeFill m) (ev m ANext) (ev m AFace) -> Ring (gHeFill m) (ev m ASib) (ev m AEdge) -> Lists (inH m) m ->
  (forall h, inH m h -> ev m AOri h = 0 \/ ev m AOri h = 1) ->
  (forall a b, inH m a -> inH m b -> ev m AEdge a = ev m AEdge b ->
    if ev m AOri a =? ev m AOri b then gTailOf m a = gTailOf m b /\ gTipOf m a = gTipOf m b
    else gTailOf m a = gTipOf m b /\ gTipOf m a = gTailOf m b) -> GValid m.
Proof.
  intros [F1 F2] Cn En Hf He Vh Fh Eh Rn Rs L Bit Or. destruct (lists_valid m L Rn Vh) as (L1 & L2 & L3 & L4 & L5 & L6).
  constructor; auto. intros h Hh. apply En; auto.
Qed.
Lemma count_same L m m' : sameBut L m m' -> gHe m = gHeFill m /\ gInt m = gHeFill m /\ gEd m = gEFill m /\ gVe m = gVFill m /\ gFc m = gFFill m ->
  gHe m' = gHeFill m' /\ gInt m' = gHeFill m' /\ gEd m' = gEFill m' /\ gVe m' = gVFill m' /\ gFc m' = gFFill m'.
Proof. intros (H & _) K. unfold frame in H. inversion H as [[E1 E2 E3 E4 E5 E6 E7 E8 E9 E10 E11 E12 E13]]. rewrite E1, E2, E3, E4, E5, E6, E7, E8, E9. exact K. Qed.

Lemma invert_ok m f : GValid m -> 0 <= f < gFFill m -> exists m', gInvertOrientation m f = Ok m' /\ GValid m' /\ Inverted m m' f /\
  (forall a, zlen (ga m' a) = zlen (ga m a)) /\ gComp m' = gComp m.
Proof.
  intros V Hf. destruct (gv_fhe m V f Hf) as [FH1 FH2].
  destruct (faceHes_chain m f (valid_fits m V) (gv_next m V) Hf FH1 FH2) as (l & L1 & L2 & L3 & L4 & L5 & L6).
  unfold gInvertOrientation. rewrite L1. cbn [bind].
  destruct (removeAll_ok l m (inH m) (valid_fits m V) (valid_ends m V) (fun h H => H) (valid_lists m V) L2 ltac:(intros h Hh; apply L3; auto)) as (m1 & -> & S1 & B1).
  cbn [bind]. assert (F1 : Fits m1) by (eapply Fits_same; [exact S1|apply valid_fits; auto]).
  assert (E1 : Ends m1) by (eapply Ends_same; [exact S1|notin|notin|apply valid_ends; auto]).
  assert (X1 : forall a h, ~ In a listArrs -> ev m1 a h = ev m a h) by (intros; apply (sameBut_ev _ _ _ _ _ S1); auto).
  assert (HF : gHeFill m1 = gHeFill m) by exact (proj1 (sameBut_fill _ _ _ THe S1)).
  assert (FF : gFFill m1 = gFFill m) by exact (proj1 (sameBut_fill _ _ _ TFc S1)).
  rewrite rdA_ok by (apply rdF; [auto|auto|rewrite FF; auto]). cbn [bind]. rewrite (X1 AFHe) by notin. set (h0 := ev m AFHe f) in *.
  assert (H01 : inH m1 h0) by (apply (inH_same _ _ _ _ S1); auto).
  rewrite rdA_ok by (apply rdH; auto). cbn [bind].
  assert (C1 : chain (ev m1 ANext) h0 l h0) by (eapply chain_ext; [|exact L5]; intros x _; symmetry; apply X1; notin).
  assert (IL : forall h, In h l -> inH m1 h) by (intros h Hh; apply (inH_same _ _ _ _ S1); apply L3; auto).
  destruct l as [|x l']; [congruence|]. assert (x = h0) by (simpl in L5; apply L5). subst x.
  destruct (invertLoop_ok m1 F1 E1 (h0 :: l') h0 C1 L2 IL l' [] m1 h0 (gFuel m1) eq_refl (inv_nil m1 h0 m1 eq_refl)) as (m2 & E2 & I2).
  { unfold gFuel. rewrite HF. lia. }
  simpl last in E2 at 1. rewrite E2. cbn [bind]. set (l := h0 :: l') in *. clear E2.
  assert (F2 : Fits m2) by (eapply Fits_same; [apply I2|auto]).
  rewrite wrA_ok by (apply rdH; [auto|auto|apply (inH_same _ _ _ _ (in_same _ _ _ _ I2)); auto]). cbn [bind].
  set (hl := last l INVALID). set (m3 := wA m2 ANext h0 hl).
  assert (Z3 : zlen (ga m2 ANext) > h0 /\ 0 <= h0) by (pose proof (rdH m2 ANext h0 F2 eq_refl ltac:(apply (inH_same _ _ _ _ (in_same _ _ _ _ I2)); auto)); lia).
  assert (S3 : sameBut [ANext; AVert; AOri; AVHe] m1 m3).
  { eapply sameBut_trans; [apply I2|apply sameBut_wA; simpl; auto]. }
  destruct (chain_last _ _ _ _ L4 C1) as [Cl1 Cl2]. fold hl in Cl1, Cl2.
  (* what the loop did, in terms of [m] *)
  assert (In' : forall h, In h l <-> inH m h /\ ev m AFace h = f) by exact L3.
  assert (Nin : forall h, In h l -> ev m3 ANext (ev m ANext h) = h).
  { intros h Hh. unfold m3. rewrite ev_same by lia. rewrite <- (X1 ANext h) by notin. destruct (Z.eqb_spec (ev m1 ANext h) h0) as [K|K].
    - apply (chain_inj_l m1 l h0 C1 L2 L4); auto. congruence.
    - apply (in_next _ _ _ _ I2); auto. apply (cycle_closed _ h0 l); auto. }
  assert (Nout : forall h, ~ In h l -> ev m3 ANext h = ev m ANext h).
  { intros h Hh. unfold m3. rewrite ev_same by lia. destruct (Z.eqb_spec h h0) as [->|K]; [exfalso; apply Hh; left; auto|].
    rewrite (proj1 (in_old _ _ _ _ I2 h Hh)). apply X1; notin. }
  assert (Vin : forall h, In h l -> ev m3 AVert h = gTipOf m h).
  { intros h Hh. unfold m3. rewrite ev_other by discriminate. rewrite (proj1 (in_new _ _ _ _ I2 h Hh)). unfold gTipOf. rewrite !X1 by notin. auto. }
  assert (Vout : forall h, ~ In h l -> ev m3 AVert h = ev m AVert h).
  { intros h Hh. unfold m3. rewrite ev_other by discriminate. rewrite (proj1 (proj2 (in_old _ _ _ _ I2 h Hh))). apply X1; notin. }
  assert (Oin : forall h, In h l -> ev m3 AOri h = 1 - ev m AOri h).
  { intros h Hh. unfold m3. rewrite ev_other by discriminate. rewrite (proj2 (in_new _ _ _ _ I2 h Hh)). rewrite X1 by notin.
    destruct (gv_bit m V h ltac:(apply In'; auto)) as [->| ->]; reflexivity. }
  assert (Oout : forall h, ~ In h l -> ev m3 AOri h = ev m AOri h).
  { intros h Hh. unfold m3. rewrite ev_other by discriminate. rewrite (proj2 (proj2 (in_old _ _ _ _ I2 h Hh))). apply X1; notin. }
  assert (VH3 : forall v, 0 <= v < gVFill m -> inH m (ev m3 AVHe v) /\ ev m3 AVert (ev m3 AVHe v) = v).
  { intros v Hv. replace (ev m3 AVHe v) with (ev m2 AVHe v) by (unfold m3; rewrite ev_other by discriminate; auto).
    destruct (in_vhe _ _ _ _ I2 v) as [[A B]|(h & A & B & ->)].
    - rewrite A, X1 by notin. destruct (gv_vhe m V v Hv) as [Y1 Y2]. split; auto. rewrite Vout; auto. intros K.
      (* its predecessor in the face is in the list, and ends at v *)
      destruct (ring_back _ _ _ (gv_next m V) _ Y1) as (p & P1 & P2 & P3). apply (B p).
      + apply In'. split; auto. apply In' in K. rewrite P3. apply K.
      + rewrite !X1 by notin. rewrite P2. auto.
    - split; [apply In'; auto|]. rewrite Vin by auto. unfold gTipOf. rewrite <- B, !X1 by notin. auto. }
  clearbody m3. clear I2 m2 F2 Z3.
  assert (S03 : sameBut (listArrs ++ [ANext; AVert; AOri; AVHe]) m m3).
  { eapply sameBut_trans; [eapply sameBut_incl; [|exact S1]|eapply sameBut_incl; [|exact S3]]; intros z Hz; apply in_or_app; auto. }
  assert (F3 : Fits m3) by (eapply Fits_same; [exact S3|auto]).
  assert (X3 : forall a h, ~ In a (listArrs ++ [ANext; AVert; AOri; AVHe]) -> ev m3 a h = ev m a h) by (intros; apply (sameBut_ev _ _ _ _ _ S03); auto).
  assert (H3 : forall h, inH m3 h <-> inH m h) by (intros h; apply (inH_same _ _ _ _ S03)).
  assert (HF3 : gHeFill m3 = gHeFill m) by exact (proj1 (sameBut_fill _ _ _ THe S03)).
  assert (VF3 : gVFill m3 = gVFill m) by exact (proj1 (sameBut_fill _ _ _ TVe S03)).
  assert (FF3 : gFFill m3 = gFFill m) by exact (proj1 (sameBut_fill _ _ _ TFc S03)).
  assert (EF3 : gEFill m3 = gEFill m) by exact (proj1 (sameBut_fill _ _ _ TEd S03)).
  assert (R3 : Ring (gHeFill m3) (ev m3 ANext) (ev m3 AFace)).
  { rewrite HF3. apply ring_ext with (ev m3 ANext) (ev m AFace); [auto|intros h _; symmetry; apply X3; notin|].
    apply ring_reverse with (ev m ANext) f; [apply V|intros h Hh K; apply Nin, In'; split; auto|].
    intros h Hh K. apply Nout. intros Q. apply In' in Q. apply K, Q. }
  assert (E3 : Ends m3).
  { intros h Hh. split; [apply H3; apply H3 in Hh; red in Hh; rewrite <- HF3 in Hh; apply (ring_in _ _ _ R3) in Hh; red; rewrite <- HF3; auto|].
    apply H3 in Hh. rewrite VF3. destruct (in_dec Z.eq_dec h l) as [Q|Q]; [rewrite Vin by auto; apply (valid_ends m V); apply (valid_ends m V); auto|
      rewrite Vout by auto; apply (valid_ends m V); auto]. }
  assert (Tip_in : forall h, In h l -> gTipOf m3 h = gTailOf m h).
  { intros h Hh. apply In' in Hh as K. destruct K as [K1 K2]. destruct (ring_back _ _ _ (gv_next m V) _ K1) as (p & P1 & P2 & P3).
    assert (Ip : In p l) by (apply In'; split; [auto|congruence]). unfold gTipOf. rewrite <- P2 at 1. rewrite Nin by auto. rewrite Vin by auto.
    unfold gTipOf. rewrite P2. reflexivity. }
  assert (NN : forall h, inH m h -> ~ In h l -> ~ In (ev m ANext h) l).
  { intros h Hh Q K. apply Q. apply In' in K. apply In'. split; auto. rewrite <- (ring_key _ _ _ (gv_next m V)) by auto. apply K. }
  assert (Tip_out : forall h, inH m h -> ~ In h l -> gTipOf m3 h = gTipOf m h).
  { intros h Hh Q. unfold gTipOf. rewrite Nout by auto. apply Vout. auto. }
  assert (B3 : Lists (fun h => inH m h /\ ~ In h l) m3).
  { destruct B1 as [BO BI]. unfold outA, inA, NbrA in *. rewrite (vfill_same _ _ _ S1) in BO, BI. split; unfold outA, inA, NbrA; rewrite VF3.
    - refine (nbr_ext _ _ _ _ _ _ _ _ _ _ _ (fun h => iff_refl _) _ _ _ _ BO).
      + intros h [Hh Q]. rewrite (tail_same _ _ _ _ S1) by notin. symmetry. apply Vout; auto.
      + intros h _. symmetry. apply (sameBut_ev _ _ _ _ _ S3); notin.
      + intros h _. symmetry. apply (sameBut_ev _ _ _ _ _ S3); notin.
      + intros h _. symmetry. apply (sameBut_ev _ _ _ _ _ S3); notin.
    - refine (nbr_ext _ _ _ _ _ _ _ _ _ _ _ (fun h => iff_refl _) _ _ _ _ BI).
      + intros h [Hh Q]. rewrite (tip_same _ _ _ _ S1) by notin. symmetry. apply Tip_out; auto.
      + intros h _. symmetry. apply (sameBut_ev _ _ _ _ _ S3); notin.
      + intros h _. symmetry. apply (sameBut_ev _ _ _ _ _ S3); notin.
      + intros h _. symmetry. apply (sameBut_ev _ _ _ _ _ S3); notin. }
  destruct (faceHes_chain m3 f F3 R3) as (k & K1 & K2 & K3 & _).
  { rewrite FF3. auto. } { rewrite X3 by notin. apply H3. auto. } { rewrite !X3 by notin. auto. }
  rewrite K1. cbn [bind].
  assert (Kl : forall h, In h k <-> In h l) by (intros h; rewrite K3, In', H3, X3 by notin; reflexivity).
  destruct (addAll_ok k m3 (fun h => inH m h /\ ~ In h l) F3 E3 ltac:(intros h [Hh _]; apply H3; auto) B3 K2) as (m4 & -> & S4 & B4).
  { intros h Hh. apply Kl in Hh. split; [apply H3, In'; auto|]. intros [_ Q]. auto. }
  exists m4. split; [reflexivity|].
  assert (S04 : sameBut (listArrs ++ [ANext; AVert; AOri; AVHe]) m m4).
  { eapply sameBut_trans; [exact S03|eapply sameBut_incl; [|exact S4]]; intros z Hz; apply in_or_app; auto. }
  assert (X4 : forall a h, ~ In a listArrs -> ev m4 a h = ev m3 a h) by (intros; apply (sameBut_ev _ _ _ _ _ S4); auto).
  assert (H4 : forall h, inH m4 h <-> inH m h) by (intros h; apply (inH_same _ _ _ _ S04)).
  assert (T4 : forall h, gTipOf m4 h = gTipOf m3 h) by (intros h; apply (tip_same _ _ _ _ S4); notin).
  assert (A4 : forall h, gTailOf m4 h = gTailOf m3 h) by (intros h; apply (tail_same _ _ _ _ S4); notin).
  assert (HF4 : gHeFill m4 = gHeFill m) by exact (proj1 (sameBut_fill _ _ _ THe S04)).
  assert (VF4 : gVFill m4 = gVFill m) by exact (proj1 (sameBut_fill _ _ _ TVe S04)).
  assert (FF4 : gFFill m4 = gFFill m) by exact (proj1 (sameBut_fill _ _ _ TFc S04)).
  assert (EF4 : gEFill m4 = gEFill m) by exact (proj1 (sameBut_fill _ _ _ TEd S04)).
  assert (IV : Inverted m m4 f).
  { constructor.
    - intros t. apply (sameBut_fill _ _ _ t S04).
    - intros a h Ha. apply (sameBut_ev _ _ _ _ _ S04). simpl in Ha. repeat (destruct Ha as [<-|Ha]; [notin|]). destruct Ha.
    - intros h Hh K. assert (Q : In h l) by (apply In'; auto). rewrite T4, A4, !X4 by notin. split; [apply Vin; auto|]. split; [apply Tip_in; auto|]. split; [apply Oin; auto|apply Nin; auto].
    - intros h Hh K. assert (Q : ~ In h l) by (intros Q; apply In' in Q; apply K, Q). rewrite T4, A4, !X4 by notin.
      split; [apply Vout; auto|]. split; [apply Tip_out; auto|]. split; [apply Oout; auto|apply Nout; auto]. }
  split; [|split; [exact IV|split; [intros a; apply S04|apply S04]]].
  assert (X04 : forall a h, ~ In a (listArrs ++ [ANext; AVert; AOri; AVHe]) -> ev m4 a h = ev m a h) by (intros; apply (sameBut_ev _ _ _ _ _ S04); auto).
  apply valid_from.
  - eapply Fits_same; [exact S04|apply valid_fits; auto].
  - eapply count_same; [exact S04|apply V].
  - eapply Ends_same; [exact S4|notin|notin|exact E3].
  - intros h Hh. apply H4 in Hh. rewrite FF4, X04 by notin. apply (gv_face m V); auto.
  - intros h Hh. apply H4 in Hh. rewrite EF4, X04 by notin. apply (gv_edge m V); auto.
  - intros v Hv. rewrite VF4 in Hv. rewrite !X4 by notin. rewrite H4. auto.
  - intros g Hg. rewrite FF4 in Hg. rewrite !X04 by notin. rewrite H4. apply (gv_fhe m V); auto.
  - intros g Hg. rewrite EF4 in Hg. rewrite !X04 by notin. rewrite H4. apply (gv_ehe m V); auto.
  - rewrite HF4, <- HF3. eapply ring_ext; [| |exact R3]; intros h _; symmetry; apply X4; notin.
  - rewrite HF4. eapply ring_ext; [| |exact (gv_sib m V)]; intros h _; symmetry; apply X04; notin.
  - eapply Lists_iff; [|exact B4]. intros h. rewrite H4, Kl. split; [intros Hh; destruct (in_dec Z.eq_dec h l); auto|intros [[A _]|A]; [auto|apply In'; auto]].
  - intros h Hh. apply H4 in Hh. rewrite X4 by notin. destruct (in_dec Z.eq_dec h l) as [Q|Q]; [rewrite Oin by auto; destruct (gv_bit m V h Hh) as [->| ->]; auto|rewrite Oout by auto; apply (gv_bit m V h Hh)].
  - intros a b Ha Hb K. apply H4 in Ha, Hb. rewrite !X04 in K by notin. rewrite !T4, !A4, !X4 by notin.
    pose proof (gv_ori m V a b Ha Hb K) as Q. pose proof (gv_bit m V a Ha) as Ba. pose proof (gv_bit m V b Hb) as Bb.
    unfold gTailOf at 1 2 3 4.
    assert (W : forall h, inH m h -> (In h l /\ ev m3 AOri h = 1 - ev m AOri h /\ ev m3 AVert h = gTipOf m h /\ gTipOf m3 h = gTailOf m h) \/
                                     (ev m3 AOri h = ev m AOri h /\ ev m3 AVert h = gTailOf m h /\ gTipOf m3 h = gTipOf m h)).
    { intros h Hh. destruct (in_dec Z.eq_dec h l) as [U|U]; [left|right]; auto 6. split; [apply Oout; auto|split; [apply Vout; auto|apply Tip_out; auto]]. }
    clear - Q Ba Bb W Ha Hb.
    destruct (W a Ha) as [(_ & -> & -> & ->)|(-> & -> & ->)], (W b Hb) as [(_ & -> & -> & ->)|(-> & -> & ->)]; clear W;
      destruct Ba as [Ba|Ba], Bb as [Bb|Bb]; rewrite Ba, Bb in *; simpl in *; tauto.
Qed.
