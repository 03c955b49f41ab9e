(** The first pass of the constructor: one halfedge per corner *)
From Verif Require Import Base MeshModel MeshSpec MeshBase GenModel GenSpec GenBase.
Open Scope Z_scope.

(** ** corners *)
Lemma zlen_app l1 l2 : zlen (l1 ++ l2) = zlen l1 + zlen l2. Proof. unfold zlen. rewrite app_length. lia. Qed.
Lemma zlen_cons x l : zlen (x :: l) = zlen l + 1. Proof. unfold zlen. simpl. lia. Qed.
Lemma zlen_nil : zlen [] = 0. Proof. reflexivity. Qed.
Lemma getZ_app1 l1 l2 i : i < zlen l1 -> getZ (l1 ++ l2) i = getZ l1 i.
Proof.
  intros H. unfold getZ, zlen in *. destruct (i <? 0) eqn:E; auto. rewrite app_nth1; auto. lia.
Qed.
Lemma getZ_app2 l1 l2 i : zlen l1 <= i -> getZ (l1 ++ l2) i = getZ l2 (i - zlen l1).
Proof.
  intros H. unfold getZ, zlen in *. destruct (i <? 0) eqn:E; [lia|]. destruct (i - Z.of_nat (length l1) <? 0) eqn:E'; [lia|].
  rewrite app_nth2 by lia. f_equal. lia.
Qed.
Lemma getZ_In l i : 0 <= i < zlen l -> In (getZ l i) l.
Proof. intros H. unfold getZ, zlen in *. destruct (i <? 0) eqn:E; [lia|]. apply nth_In. lia. Qed.
Lemma In_getZ x l : In x l -> exists i, 0 <= i < zlen l /\ getZ l i = x.
Proof.
  intros H. destruct (In_nth l x INVALID H) as (n & L & E). exists (Z.of_nat n). unfold getZ, zlen. split; [lia|].
  destruct (Z.of_nat n <? 0) eqn:E'; [lia|]. rewrite Nat2Z.id. exact E.
Qed.
Lemma offset_0 P : offset P 0 = 0. Proof. reflexivity. Qed.
Lemma offset_snoc P p f : (f <= length P)%nat -> offset (P ++ [p]) f = offset P f.
Proof. intros H. unfold offset. rewrite firstn_app. replace (f - length P)%nat with O by lia. simpl. rewrite app_nil_r. reflexivity. Qed.
Lemma offset_end P : offset P (length P) = zlen (concat P).
Proof. unfold offset. rewrite firstn_all. reflexivity. Qed.
Lemma offset_S P f : (f < length P)%nat -> offset P (S f) = offset P f + zlen (nth f P []).
Proof.
  intros H. unfold offset. rewrite <- zlen_app. f_equal. revert f H. induction P as [|p P IH]; intros f H; simpl in H; [lia|].
  destruct f; [simpl; rewrite app_nil_r; reflexivity|]. specialize (IH f ltac:(lia)).
  change (p ++ concat (firstn (S f) P) = (p ++ concat (firstn f P)) ++ nth f P []). rewrite IH, app_assoc. reflexivity.
Qed.
Lemma offset_le P f g : (f <= g)%nat -> (g <= length P)%nat -> offset P f <= offset P g.
Proof.
  intros H L. induction g as [|g IH]; [replace f with O by lia; lia|]. destruct (Nat.eq_dec f (S g)) as [->|N]; [lia|].
  rewrite offset_S by lia. pose proof (zlen_nonneg (nth g P [])). specialize (IH ltac:(lia) ltac:(lia)). lia.
Qed.
Lemma corner_exists P h : 0 <= h < zlen (concat P) -> exists f j, Corner P h f j.
Proof.
  intros H. rewrite <- offset_end in H.
  assert (G : forall n, (n <= length P)%nat -> h < offset P n -> exists f j, Corner P h f j).
  { induction n as [|n IH]; intros L B; [rewrite offset_0 in B; lia|]. rewrite offset_S in B by lia.
    destruct (Z_lt_le_dec h (offset P n)) as [C|C]; [apply IH; auto; lia|]. exists n, (h - offset P n). unfold Corner. repeat split; lia. }
  apply (G (length P)); lia.
Qed.
Lemma corner_unique P h f j f' j' : Corner P h f j -> Corner P h f' j' -> f = f' /\ j = j'.
Proof.
  intros (A & B & C) (A' & B' & C'). destruct (lt_eq_lt_dec f f') as [[D|D]|D].
  - exfalso. pose proof (offset_le P (S f) f' ltac:(lia) ltac:(lia)) as O. rewrite offset_S in O by lia. lia.
  - subst f'. split; auto. lia.
  - exfalso. pose proof (offset_le P (S f') f ltac:(lia) ltac:(lia)) as O. rewrite offset_S in O by lia. lia.
Qed.
Lemma corner_range P h f j : Corner P h f j -> 0 <= h < zlen (concat P).
Proof.
  intros (A & B & C). rewrite <- offset_end. pose proof (offset_le P 0 f ltac:(lia) ltac:(lia)) as O0. rewrite offset_0 in O0.
  pose proof (offset_le P (S f) (length P) ltac:(lia) ltac:(lia)) as O. rewrite offset_S in O by lia. lia.
Qed.
Lemma corner_snoc P p h f j : Corner (P ++ [p]) h f j <->
  Corner P h f j \/ (f = length P /\ 0 <= j < zlen p /\ h = zlen (concat P) + j).
Proof.
  unfold Corner. rewrite app_length. simpl. split.
  - intros (A & B & C). rewrite offset_snoc in C by lia. destruct (Nat.eq_dec f (length P)) as [->|N].
    + right. rewrite nth_middle in B. rewrite offset_end in C. auto.
    + left. rewrite app_nth1 in B by lia. split; [lia|]. auto.
  - intros [(A & B & C)|(-> & B & C)].
    + rewrite offset_snoc by lia. rewrite app_nth1 by lia. split; [lia|]. auto.
    + rewrite offset_snoc by lia. rewrite nth_middle, offset_end. split; [lia|]. auto.
Qed.
Lemma concat_snoc (P : list (list Z)) p : concat (P ++ [p]) = concat P ++ p.
Proof. rewrite concat_app. simpl. rewrite app_nil_r. reflexivity. Qed.

(** ** adding one corner *)
Record Pre (nV nF : Z) (vs : list Z) (m : gmesh) (used : list Z) : Prop := {
  r_he : Sized m THe;
  r_ed : zlen (ga m AEHe) = 0 /\ gECap m = 0 /\ gEFill m = 0 /\ gEd m = 0;
  r_v : gVFill m = nV /\ gVCap m = nV /\ gVe m = nV /\ zlen (ga m AVHe) = nV;
  r_f : gFFill m = nF /\ gFCap m = nF /\ gFc m = nF /\ zlen (ga m AFHe) = nF;
  r_n : gHeFill m = zlen vs /\ gHe m = zlen vs /\ gInt m = zlen vs;
  r_tail : forall h, 0 <= h < zlen vs -> ev m AVert h = getZ vs h;
  r_vhe : forall v, In v vs -> 0 <= ev m AVHe v < zlen vs /\ ev m AVert (ev m AVHe v) = v;
  r_used : zlen used = nV /\ forall v, 0 <= v < nV -> (getZ used v <> 0 <-> In v vs) }.

Ltac lens := repeat rewrite len_wA; auto.
Lemma addCorner_ok nV nF vs m used iF prev first tail :
  Pre nV nF vs m used -> 0 <= tail < nV -> 0 <= iF < nF -> (first <> -1 -> 0 <= prev < zlen vs) ->
  exists m' used' first', gAddCorner iF (m, used, prev, first) tail = Ok (m', used', zlen vs, first') /\
    first' = (if first =? -1 then zlen vs else first) /\ Pre nV nF (vs ++ [tail]) m' used' /\
    (forall h, 0 <= h < zlen vs -> ev m' AFace h = ev m AFace h) /\ ev m' AFace (zlen vs) = iF /\
    (forall h, 0 <= h < zlen vs -> ev m' ANext h = if negb (first =? -1) && (h =? prev) then zlen vs else ev m ANext h) /\
    (forall f, ev m' AFHe f = if (first =? -1) && (f =? iF) then zlen vs else ev m AFHe f).
Proof.
  intros R Ht HF Hp. destruct (r_v _ _ _ _ _ R) as (V1 & V2 & V3 & V4). destruct (r_f _ _ _ _ _ R) as (F1 & F2 & F3 & F4).
  destruct (r_ed _ _ _ _ _ R) as (E1 & E2 & E3 & E4). destruct (r_n _ _ _ _ _ R) as (N1 & N2 & N3). destruct (r_used _ _ _ _ _ R) as [U1 U2].
  unfold gAddCorner. rewrite (wrZ_ok used) by lia. cbn [bind].
  destruct (newHalfedge_ok m true (r_he _ _ _ _ _ R)) as (m1 & -> & (G1 & G2 & G3 & G4 & G5 & G6 & G7) & C1 & C2 & C3 & C4 & C5).
  rewrite N1 in *. set (n := zlen vs) in *. pose proof (zlen_nonneg vs) as Hn. fold n in Hn. cbn [gFill] in G1, G3. rewrite N1 in G1.
  assert (L : forall a, typeOf a = THe -> 0 <= n < zlen (ga m1 a)) by (intros a T; rewrite G2 by auto; lia).
  assert (LV : zlen (ga m1 AVHe) = nV) by (rewrite G6 by discriminate; auto).
  assert (LF : zlen (ga m1 AFHe) = nF) by (rewrite G6 by discriminate; auto).
  assert (OLD : forall a h, typeOf a = THe -> 0 <= h < n -> ev m1 a h = ev m a h) by (intros a h T Hh; apply G5; rewrite T; cbn [gFill]; lia).
  assert (OLDV : forall v, ev m1 AVHe v = ev m AVHe v) by (intros v; unfold ev; rewrite G6 by discriminate; auto).
  assert (OLDF : forall v, ev m1 AFHe v = ev m AFHe v) by (intros v; unfold ev; rewrite G6 by discriminate; auto).
  rewrite wrA_ok by (apply L; reflexivity). cbn [bind]. rewrite wrA_ok by (rewrite ?len_wA; apply L; reflexivity). cbn [bind].
  rewrite wrA_ok by (rewrite ?len_wA; apply L; reflexivity). cbn [bind].
  rewrite wrA_ok by (rewrite ?len_wA; lia). cbn [bind].
  set (m2 := wA (wA (wA (wA m1 ANext n INVALID) AVert n tail) AFace n iF) AVHe tail n).
  assert (B2 : forall a, zlen (ga m2 a) = zlen (ga m1 a)) by (intros a; unfold m2; rewrite !len_wA; reflexivity).
  assert (K : exists m3 first', (if first =? INVALID then let* m := wrA m2 AFHe iF n in Ok (m, updZ used tail 1, n, n)
              else let* m := wrA m2 ANext prev n in Ok (m, updZ used tail 1, n, first)) = Ok (m3, updZ used tail 1, n, first') /\
      first' = (if first =? -1 then n else first) /\ (forall a, zlen (ga m3 a) = zlen (ga m1 a)) /\ frame m3 = frame m1 /\
      (forall b i, b <> AFHe -> b <> ANext -> ev m3 b i = ev m2 b i) /\
      (forall h, ev m3 ANext h = if negb (first =? -1) && (h =? prev) then n else ev m2 ANext h) /\
      (forall f, ev m3 AFHe f = if (first =? -1) && (f =? iF) then n else ev m2 AFHe f)).
  { change INVALID with (-1) in *. destruct (first =? -1) eqn:Ef.
    - rewrite wrA_ok by (rewrite B2; lia). cbn [bind]. do 2 eexists. split; [reflexivity|]. split; [reflexivity|].
      split; [intros a; rewrite len_wA; auto|]. split; [reflexivity|]. split; [intros b i D1 D2; apply ev_other; congruence|].
      split; [intros h; apply ev_other; congruence|]. intros f. rewrite ev_same by (rewrite B2; lia). reflexivity.
    - assert (Hp' : 0 <= prev < n) by (apply Hp; lia). pose proof (L ANext eq_refl).
      rewrite wrA_ok by (rewrite B2; lia). cbn [bind]. do 2 eexists. split; [reflexivity|]. split; [reflexivity|].
      split; [intros a; rewrite len_wA; auto|]. split; [reflexivity|]. split; [intros b i D1 D2; apply ev_other; congruence|].
      split; [intros h; rewrite ev_same by (rewrite B2; lia); reflexivity|]. intros f. rewrite ev_other by congruence. reflexivity. }
  destruct K as (m3 & first' & EQ & Efi & L3 & FR & K1 & K2 & K3).
  exists m3, (updZ used tail 1), first'. split; [exact EQ|]. split; [exact Efi|].
  assert (T2 : forall h, ev m3 AVert h = if h =? n then tail else ev m1 AVert h).
  { intros h. rewrite K1 by discriminate. unfold m2. rewrite !ev_other by discriminate. rewrite ev_same by (rewrite !len_wA; apply L; reflexivity).
    rewrite ev_other by discriminate. reflexivity. }
  assert (FC2 : forall h, ev m3 AFace h = if h =? n then iF else ev m1 AFace h).
  { intros h. rewrite K1 by discriminate. unfold m2. rewrite !ev_other by discriminate. rewrite ev_same by (rewrite !len_wA; apply L; reflexivity).
    rewrite !ev_other by discriminate. reflexivity. }
  assert (V2' : forall v, ev m3 AVHe v = if v =? tail then n else ev m1 AVHe v).
  { intros v. rewrite K1 by discriminate. unfold m2. rewrite ev_same by (rewrite !len_wA; lia). rewrite !ev_other by discriminate. reflexivity. }
  assert (X2 : forall h, ev m2 ANext h = if h =? n then INVALID else ev m1 ANext h).
  { intros h. unfold m2. rewrite !ev_other by discriminate. rewrite ev_same by (apply L; reflexivity). reflexivity. }
  injection FR as I1 I2 I3 I4 I5 I6 I7 I8 I9 I10 I11 I12 I13.
  destruct (G7 TVe ltac:(discriminate)) as [J1 J2]. destruct (G7 TFc ltac:(discriminate)) as [J3 J4]. destruct (G7 TEd ltac:(discriminate)) as [J5 J6].
  cbn [gFill gCap] in J1, J2, J3, J4, J5, J6.
  assert (LE : zlen (ga m1 AEHe) = 0) by (rewrite G6 by discriminate; auto).
  split; [|split; [|split; [|split]]].
  - constructor.
    + split; [intros a T; rewrite L3, G2 by auto; cbn [gCap]; congruence|]. cbn [gFill gCap] in *. rewrite I6, I10. clear - G1 G3 Hn. lia.
    + rewrite L3. split; [lia|]. split; [congruence|]. split; [congruence|]. congruence.
    + rewrite L3. repeat split; congruence.
    + rewrite L3. repeat split; congruence.
    + rewrite zlen_app. change (zlen [tail]) with 1. fold n. repeat split; lia.
    + intros h Hh. rewrite zlen_app in Hh. change (zlen [tail]) with 1 in Hh. fold n in Hh. rewrite T2. destruct (h =? n) eqn:E.
      * assert (h = n) by lia. subst h. rewrite getZ_app2 by lia. replace (n - zlen vs) with 0 by lia. reflexivity.
      * rewrite OLD by (auto; lia). rewrite getZ_app1 by (fold n; lia). apply (r_tail _ _ _ _ _ R). fold n. lia.
    + intros v Hv. rewrite zlen_app. change (zlen [tail]) with 1. fold n. rewrite V2'. destruct (v =? tail) eqn:E.
      * split; [lia|]. rewrite T2. rewrite Z.eqb_refl. lia.
      * apply in_app_or in Hv. destruct Hv as [Hv|[Hv|[]]]; [|lia]. destruct (r_vhe _ _ _ _ _ R v Hv) as [W1 W2]. fold n in W1.
        rewrite OLDV. split; [lia|]. rewrite T2. destruct (_ =? n) eqn:E'; [lia|]. rewrite OLD by auto. auto.
    + rewrite zlen_updZ. split; auto. intros v Hv. rewrite getZ_updZ by lia. rewrite in_app_iff. cbn [In]. destruct (v =? tail) eqn:E.
      * split; [intros _; right; left; lia|lia].
      * rewrite U2 by auto. split; [auto|]. intros [W|[W|[]]]; auto. lia.
  - intros h Hh. rewrite FC2. destruct (h =? n) eqn:E; [lia|]. apply OLD; auto.
  - rewrite FC2, Z.eqb_refl. reflexivity.
  - intros h Hh. rewrite K2. destruct (_ && _); auto. rewrite X2. destruct (h =? n) eqn:E; [lia|]. apply OLD; auto.
  - intros f. rewrite K3. destruct (_ && _); auto. unfold m2. rewrite !ev_other by discriminate. apply OLDF.
Qed.

(** ** one polygon *)
Lemma foldM_app {A S} (f : S -> A -> res S) l1 l2 s : foldM f (l1 ++ l2) s = let* s' := foldM f l1 s in foldM f l2 s'.
Proof. revert s. induction l1 as [|a l1 IH]; intros s; simpl; auto. destruct (f s a); simpl; auto. Qed.

Lemma addCorners_ok nV nF vs m used iF p :
  Pre nV nF vs m used -> 0 <= iF < nF -> (forall v, In v p -> 0 <= v < nV) ->
  exists m' used' prev first, foldM (gAddCorner iF) p (m, used, INVALID, INVALID) = Ok (m', used', prev, first) /\
    Pre nV nF (vs ++ p) m' used' /\
    (p = [] -> prev = -1 /\ first = -1 /\ m' = m) /\ (p <> [] -> prev = zlen vs + zlen p - 1 /\ first = zlen vs) /\
    (forall h, 0 <= h < zlen vs -> ev m' AFace h = ev m AFace h /\ ev m' ANext h = ev m ANext h) /\
    (forall j, 0 <= j < zlen p -> ev m' AFace (zlen vs + j) = iF) /\
    (forall j, 0 <= j < zlen p - 1 -> ev m' ANext (zlen vs + j) = zlen vs + j + 1) /\
    (forall f, ev m' AFHe f = if (0 <? zlen p) && (f =? iF) then zlen vs else ev m AFHe f).
Proof.
  intros R HF. induction p as [|t p IH] using rev_ind; intros HV.
  - exists m, used, (-1), (-1). split; [reflexivity|]. rewrite app_nil_r. split; auto. split; auto. split; [congruence|].
    split; auto. rewrite zlen_nil. split; [lia|]. split; [lia|]. reflexivity.
  - destruct IH as (m1 & used1 & prev & first & E & R1 & C0 & C1 & O & FA & NX & FH).
    { intros v Hv. apply HV, in_or_app; auto. }
    pose proof (zlen_nonneg vs) as Hvs. pose proof (zlen_nonneg p) as Hpp.
    destruct (addCorner_ok nV nF (vs ++ p) m1 used1 iF prev first t R1) as (m2 & used2 & first2 & E2 & F2 & R2 & A1 & A2 & A3 & A4).
    { apply HV, in_or_app; right; left; auto. } { auto. }
    { intros Hf. destruct p as [|x p']; [destruct (C0 eq_refl) as (_ & -> & _); lia|].
      destruct (C1 ltac:(discriminate)) as [-> ->]. rewrite zlen_app, zlen_cons. pose proof (zlen_nonneg p'). lia. }
    rewrite zlen_app in *. change (zlen [t]) with 1 in *.
    exists m2, used2, (zlen vs + zlen p), first2.
    split; [rewrite foldM_app, E; cbn [bind foldM]; rewrite E2; reflexivity|]. rewrite app_assoc. split; [exact R2|].
    split; [intros N; destruct p; discriminate|].
    assert (FF : first2 = zlen vs /\ (first =? -1) = negb (0 <? zlen p) /\ (0 < zlen p -> prev = zlen vs + zlen p - 1)).
    { destruct p as [|x p'].
      - destruct (C0 eq_refl) as (P1 & P2 & _). subst first. rewrite F2, zlen_nil. simpl. split; [lia|]. split; auto. lia.
      - destruct (C1 ltac:(discriminate)) as [P1 P2]. subst first prev. rewrite zlen_cons in *. pose proof (zlen_nonneg p').
        destruct (zlen vs =? -1) eqn:E'; [lia|]. split; [auto|]. split; auto. destruct (0 <? zlen p' + 1) eqn:E''; [reflexivity|lia]. }
    destruct FF as (FF1 & FF2 & FF3). rewrite FF2 in *.
    split; [intros _; split; [lia|auto]|]. split; [|split; [|split]].
    + intros h Hh. rewrite A1, A3 by lia. destruct (O h Hh) as [O1 O2]. split; auto. destruct (0 <? zlen p) eqn:Ep; simpl; auto.
      destruct (h =? prev) eqn:Eh; auto. rewrite FF3 in Eh by lia. lia.
    + intros j Hj. destruct (Z.eq_dec j (zlen p)) as [->|N]; auto. rewrite A1 by lia. apply FA. lia.
    + intros j Hj. rewrite A3 by lia. destruct (0 <? zlen p) eqn:Ep; simpl; [|lia]. rewrite FF3 by lia.
      destruct (zlen vs + j =? zlen vs + zlen p - 1) eqn:Ej; [lia|]. apply NX. lia.
    + intros f. rewrite A4, FH. replace (0 <? zlen p + 1) with true by lia. destruct (0 <? zlen p) eqn:Ep; simpl; auto.
      replace (zlen vs + zlen p) with (zlen vs) by lia. reflexivity.
Qed.

(** ** all polygons *)
Record Pass1 (nV nF : Z) (P : list (list Z)) (m : gmesh) (used : list Z) : Prop := {
  q_pre : Pre nV nF (concat P) m used;
  q_face : forall h f j, Corner P h f j -> ev m AFace h = Z.of_nat f /\ ev m ANext h = offset P f + (j + 1) mod zlen (nth f P []);
  q_fhe : forall f, (f < length P)%nat -> ev m AFHe (Z.of_nat f) = offset P f }.
Lemma mod_succ j n : 0 <= j < n -> (j + 1) mod n = if j =? n - 1 then 0 else j + 1.
Proof. intros H. destruct (j =? n - 1) eqn:E; [replace (j + 1) with n by lia; apply Z_mod_same_full|apply Z.mod_small; lia]. Qed.
Lemma addFace_ok nV nF P m used p : Pass1 nV nF P m used -> Z.of_nat (length P) < nF -> (3 <= length p)%nat -> (forall v, In v p -> 0 <= v < nV) ->
  exists m' used', gAddFace (m, used, Z.of_nat (length P)) p = Ok (m', used', Z.of_nat (length (P ++ [p]))) /\ Pass1 nV nF (P ++ [p]) m' used'.
Proof.
  intros Q HF H3 HV. unfold gAddFace.
  destruct (addCorners_ok nV nF (concat P) m used (Z.of_nat (length P)) p (q_pre _ _ _ _ _ Q) ltac:(lia) HV)
    as (m1 & used1 & prev & first & -> & R1 & _ & C1 & O & FA & NX & FH).
  cbn [bind]. destruct (C1 ltac:(destruct p; simpl in *; [lia|discriminate])) as [-> ->].
  set (n := zlen (concat P)) in *. pose proof (zlen_nonneg (concat P)) as Hn. fold n in Hn. assert (Hp : zlen p = Z.of_nat (length p)) by reflexivity.
  destruct (r_n _ _ _ _ _ R1) as (N1 & N2 & N3). destruct (r_he _ _ _ _ _ R1) as [S1 S2]. rewrite zlen_app in *. fold n in N1, N2, N3. cbn [gFill gCap] in S1, S2.
  rewrite wrA_ok by (rewrite S1 by reflexivity; lia). cbn [bind].
  assert (LN : 0 <= n + zlen p - 1 < zlen (ga m1 ANext)) by (rewrite S1 by reflexivity; lia).
  exists (wA m1 ANext (n + zlen p - 1) n), used1. split; [rewrite app_length; simpl; repeat f_equal; lia|].
  constructor.
  - rewrite concat_snoc. constructor.
    + split; [intros a T; rewrite len_wA; apply S1; auto|exact S2].
    + rewrite len_wA. exact (r_ed _ _ _ _ _ R1).
    + rewrite len_wA. exact (r_v _ _ _ _ _ R1).
    + rewrite len_wA. exact (r_f _ _ _ _ _ R1).
    + exact (r_n _ _ _ _ _ R1).
    + intros h Hh. rewrite ev_other by discriminate. apply (r_tail _ _ _ _ _ R1); auto.
    + intros v Hv. rewrite !ev_other by discriminate. apply (r_vhe _ _ _ _ _ R1); auto.
    + exact (r_used _ _ _ _ _ R1).
  - intros h f j C. apply corner_snoc in C. rewrite ev_other by discriminate. rewrite ev_same by auto. destruct C as [C|(-> & Hj & ->)].
    + pose proof (corner_range _ _ _ _ C) as RG. fold n in RG. destruct (O h RG) as [O1 O2]. destruct (q_face _ _ _ _ _ Q h f j C) as [Q1 Q2].
      destruct C as (C0 & C2 & C3). rewrite offset_snoc by lia. rewrite app_nth1 by lia. split; [congruence|].
      destruct (h =? n + zlen p - 1) eqn:E; [lia|congruence].
    + fold n. split; [apply FA; auto|]. rewrite offset_snoc by lia. rewrite nth_middle, offset_end. fold n. rewrite mod_succ by auto.
      destruct (j =? zlen p - 1) eqn:E.
      * replace (n + j =? n + zlen p - 1) with true by lia. lia.
      * replace (n + j =? n + zlen p - 1) with false by lia. rewrite NX by lia. lia.
  - intros f Hf. rewrite app_length in Hf. simpl in Hf. rewrite ev_other by discriminate. rewrite FH. rewrite offset_snoc by lia.
    replace (0 <? zlen p) with true by lia. simpl. destruct (Z.of_nat f =? Z.of_nat (length P)) eqn:E.
    + replace f with (length P) by lia. rewrite offset_end. reflexivity.
    + apply (q_fhe _ _ _ _ _ Q). lia.
Qed.

Lemma fold_max_le p a : a <= fold_left Z.max p a /\ forall v, In v p -> v <= fold_left Z.max p a.
Proof.
  revert a. induction p as [|x p IH]; intros a; simpl; [split; [lia|contradiction]|]. destruct (IH (Z.max a x)) as [I1 I2].
  split; [lia|]. intros v [->|Hv]; [lia|auto].
Qed.
Lemma maxIndex_gen polys a : a <= fold_left (fun acc p => fold_left Z.max p acc) polys a /\
  forall v, In v (concat polys) -> v <= fold_left (fun acc p => fold_left Z.max p acc) polys a.
Proof.
  revert a. induction polys as [|p polys IH]; intros a; simpl; [split; [lia|contradiction]|].
  destruct (fold_max_le p a) as [M1 M2]. destruct (IH (fold_left Z.max p a)) as [I1 I2]. split; [lia|].
  intros v Hv. apply in_app_or in Hv. destruct Hv as [Hv|Hv]; auto. specialize (M2 v Hv). lia.
Qed.
Lemma maxIndex_0 polys : 0 <= gMaxIndex polys. Proof. exact (proj1 (maxIndex_gen polys 0)). Qed.
Lemma maxIndex_le polys v : In v (concat polys) -> v <= gMaxIndex polys. Proof. exact (proj2 (maxIndex_gen polys 0) v). Qed.
Lemma pass1_ok polys : Forall (fun p => (3 <= length p)%nat) polys -> Forall (fun v => 0 <= v) (concat polys) ->
  let nV := gMaxIndex polys + 1 in
  exists m used, foldM gAddFace polys (gStart polys, repeat 0 (Z.to_nat nV), 0) = Ok (m, used, Z.of_nat (length polys)) /\
    Pass1 nV (Z.of_nat (length polys)) polys m used.
Proof.
  intros D NN nV. pose proof (maxIndex_0 polys) as M0.
  assert (G : forall done rest, done ++ rest = polys -> exists m used,
     foldM gAddFace done (gStart polys, repeat 0 (Z.to_nat nV), 0) = Ok (m, used, Z.of_nat (length done)) /\ Pass1 nV (Z.of_nat (length polys)) done m used).
  { induction done as [|p done IH] using rev_ind; intros rest E.
    - exists (gStart polys), (repeat 0 (Z.to_nat nV)). split; [reflexivity|].
      assert (LR : forall x k, zlen (repeat x k) = Z.of_nat k) by (intros x k; unfold zlen; rewrite repeat_length; reflexivity).
      constructor; [constructor| |].
      + split; [intros a T; destruct a; try discriminate T; reflexivity|]. cbn. lia.
      + repeat split; reflexivity.
      + cbn [gStart gVFill gVCap gVe ga put arr_eqb]. rewrite LR. repeat split; try reflexivity. lia.
      + cbn [gStart gFFill gFCap gFc ga put arr_eqb]. rewrite LR. repeat split; try reflexivity. lia.
      + repeat split; reflexivity.
      + intros h Hh. change (zlen (concat [])) with 0 in Hh. lia.
      + intros v [].
      + rewrite LR. split; [lia|]. intros v Hv. simpl. split; [|contradiction]. intros N. apply N. unfold getZ. destruct (v <? 0) eqn:Ev; [lia|].
        transitivity (nth (Z.to_nat v) (repeat 0 (Z.to_nat nV)) 0); [apply nth_indep; rewrite repeat_length; lia|apply nth_repeat].
      + intros h f j (C & _). simpl in C. lia.
      + intros f Hf. simpl in Hf. lia.
    - rewrite <- app_assoc in E. destruct (IH _ E) as (m & used & F1 & Q). rewrite foldM_app, F1. cbn [bind foldM].
      assert (Ip : In p polys) by (rewrite <- E; apply in_or_app; right; left; auto).
      destruct (addFace_ok nV (Z.of_nat (length polys)) done m used p Q) as (m' & used' & -> & Q').
      + rewrite <- E, app_length. simpl. lia.
      + exact (proj1 (Forall_forall _ _) D p Ip).
      + intros v Hv. assert (Iv : In v (concat polys)) by (apply in_concat; eauto).
        pose proof (proj1 (Forall_forall _ _) NN v Iv) as B1. cbv beta in B1. pose proof (maxIndex_le polys v Iv). unfold nV. lia.
      + cbn [bind]. eauto. }
  apply (G polys []). apply app_nil_r.
Qed.
