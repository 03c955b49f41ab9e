(** Separating an edge: one step *)
From Verif Require Import Base MeshModel MeshSpec MeshBase MeshOrbit GenModel GenSpec GenBase GenBuild6 GenOpsModel GenOpsSpec GenSepSpec GenOps1 GenOps2 GenOps3.
Open Scope Z_scope.

Lemma NoDup_map_in {A B} (f : A -> B) l : (forall x y, In x l -> In y l -> f x = f y -> x = y) -> NoDup l -> NoDup (map f l).
Proof.
  intros H ND. induction ND as [|x l I ND IH]; simpl; constructor.
  - intros Q. apply in_map_iff in Q as (y & E & Hy). apply I. rewrite (H x y); simpl; auto.
  - apply IH. intros; apply H; simpl; auto.
Qed.
(** ** finding the predecessor *)
Lemma first_hit (f : Z -> Z) (P : Z -> bool) a k : P (Nat.iter k f a) = true -> exists j, (j <= k)%nat /\ P (Nat.iter j f a) = true /\ forall i, (i < j)%nat -> P (Nat.iter i f a) = false.
Proof.
  induction k as [k IH] using lt_wf_ind. intros H. destruct (Exists_dec (fun i => P (Nat.iter i f a) = true) (seq 0 k)) as [E|E].
  - intros i. destruct (P (Nat.iter i f a)); [left|right]; auto.
  - apply Exists_exists in E as (i & I & Hi). apply in_seq in I. destruct (IH i ltac:(lia) Hi) as (j & J1 & J2 & J3). exists j. split; [lia|auto].
  - exists k. split; auto. split; auto. intros i Hi. destruct (P (Nat.iter i f a)) eqn:Q; auto. exfalso. apply E, Exists_exists. exists i. split; auto. apply in_seq. lia.
Qed.
Lemma iter_plus (f : Z -> Z) a b x : Nat.iter (a + b) f x = Nat.iter a f (Nat.iter b f x).
Proof. induction a as [|a IH]; simpl; [reflexivity|rewrite IH; reflexivity]. Qed.
Lemma first_hit_bound (f : Z -> Z) P a n k : 0 <= n -> (forall i, 0 <= Nat.iter i f a < n) -> P (Nat.iter k f a) = true -> (forall i, (i < k)%nat -> P (Nat.iter i f a) = false) -> Z.of_nat k < n.
Proof.
  intros Hn R Hk Hf. set (l := map (fun i => Nat.iter i f a) (seq 0 (S k))).
  assert (Inj : forall i j, (i < j <= k)%nat -> Nat.iter i f a <> Nat.iter j f a).
  { intros i j H E. assert (X : Nat.iter (k - j + i) f a = Nat.iter k f a).
    { rewrite iter_plus, E, <- iter_plus. f_equal. lia. }
    rewrite <- X, Hf in Hk by lia. discriminate. }
  assert (ND : NoDup l).
  { apply NoDup_map_in; [|apply seq_NoDup]. intros i j Hi Hj E. apply in_seq in Hi, Hj.
    destruct (lt_eq_lt_dec i j) as [[L|L]|L]; auto; exfalso; [apply (Inj i j)|apply (Inj j i)]; auto; lia. }
  assert (I : incl l (zseq n)).
  { intros x Hx. apply in_map_iff in Hx as (i & <- & _). apply zseq_In. apply R. }
  pose proof (NoDup_incl_length ND I) as Q. unfold l in Q. rewrite map_length, seq_length in Q. unfold zseq in Q. rewrite map_length, seq_length in Q. lia.
Qed.
Lemma findPrev_ok m (D : Z -> Prop) nE key N P S he x : Fits m -> Nbr D nE key N P S -> (forall h, D h -> inH m h) -> (forall h, D h -> ev m ASib h = N h) ->
  D he -> D x -> key x = key he -> gFindPrevSib (gFuel m) m he x = Ok (P he).
Proof.
  intros F B DH DN Dh Dx K. destruct (nbr_pred _ _ _ _ _ _ B he Dh) as (Dp & Np & Kp). set (p := P he) in *.
  destruct (proj2 (nb_ring _ _ _ _ _ _ B) x p Dx Dp ltac:(congruence)) as [k0 E0].
  assert (DI : forall i, D (Nat.iter i N x)) by (induction i as [|i IH]; [exact Dx|simpl; apply (nbr_succ _ _ _ _ _ _ B); auto]).
  destruct (first_hit N (fun y => N y =? he) x k0) as (k & _ & K1 & K2); [rewrite E0; apply Z.eqb_eq; auto|].
  assert (Bd : Z.of_nat k < gHeFill m).
  { apply (first_hit_bound N (fun y => N y =? he) x); auto; [|intros i; apply DH; auto]. specialize (DH _ Dx). red in DH. lia. }
  assert (G : forall j fuel, (j + fuel = k)%nat -> forall g, (fuel < g)%nat -> gFindPrevSib g m he (Nat.iter j N x) = Ok p).
  { intros j fuel. revert j. induction fuel as [|fuel IH]; intros j Hj g Hg; (destruct g as [|g]; [lia|]); cbn [gFindPrevSib];
      rewrite rdA_ok by (apply rdH; auto); cbn [bind]; rewrite DN by auto.
    - replace j with k by lia. rewrite K1. f_equal. apply Z.eqb_eq in K1. apply (nbr_inj _ _ _ _ _ _ B); auto. congruence.
    - rewrite K2 by lia. change (N (Nat.iter j N x)) with (Nat.iter (Datatypes.S j) N x). apply IH; lia. }
  apply (G 0%nat k); [lia|]. unfold gFuel. lia.
Qed.

Definition predOf (n : Z) (f : Z -> Z) (h : Z) : Z := match find (fun p => f p =? h) (zseq n) with Some p => p | None => -1 end.
Lemma ring_nbr m : GValid m -> Nbr (inH m) (gEFill m) (ev m AEdge) (ev m ASib) (predOf (gHeFill m) (ev m ASib)) (ev m AEHe).
Proof.
  intros V. constructor.
  - apply (gv_sib m V).
  - intros h Hh. unfold predOf. destruct (find _ _) as [p|] eqn:E.
    + apply find_some in E as [I Q]. apply zseq_In in I. apply Z.eqb_eq in Q. apply (ring_inj _ _ _ (gv_sib m V)); auto.
    + exfalso. apply find_none with (x := h) in E; [|apply zseq_In; auto]. rewrite Z.eqb_refl in E. discriminate.
  - apply (gv_edge m V).
  - intros e He. right. apply (gv_ehe m V); auto.
Qed.

Lemma three_others (l : list Z) a b : NoDup l -> (3 <= length l)%nat -> exists h, find (fun h => negb (h =? a) && negb (h =? b)) l = Some h /\ In h l /\ h <> a /\ h <> b.
Proof.
  intros ND L. destruct (find _ l) as [h|] eqn:E.
  - exists h. apply find_some in E as [I Q]. apply andb_prop in Q as [Q1 Q2]. apply negb_true_iff in Q1, Q2. apply Z.eqb_neq in Q1, Q2. auto.
  - exfalso. assert (I : incl l [a; b]).
    { intros x Hx. apply find_none with (x := x) in E; auto. destruct (Z.eqb_spec x a); [subst; simpl; auto|]. destruct (Z.eqb_spec x b); [subst; simpl; auto|discriminate]. }
    pose proof (NoDup_incl_length ND I). simpl in *. lia.
Qed.
Lemma three_class m e h : GValid m -> inH m h -> ev m AEdge h = e -> ev m ASib h <> h -> ev m ASib (ev m ASib h) <> h ->
  forall l, NoDup l -> (forall x, In x l <-> inH m x /\ ev m AEdge x = e) -> (3 <= length l)%nat.
Proof.
  intros V Hh E N1 N2 l ND L. pose proof (gv_sib m V) as R. set (s := ev m ASib h) in *. set (t := ev m ASib s) in *.
  assert (Hs : inH m s) by (apply (ring_in _ _ _ R); auto). assert (Ht : inH m t) by (apply (ring_in _ _ _ R); auto).
  assert (Es : ev m AEdge s = e) by (rewrite <- E; apply (ring_key _ _ _ R); auto). assert (Et : ev m AEdge t = e) by (rewrite <- Es; apply (ring_key _ _ _ R); auto).
  assert (Nst : t <> s) by (intros Q; apply N1; apply (ring_inj _ _ _ R); auto).
  assert (ND3 : NoDup [h; s; t]) by (repeat constructor; simpl; intuition congruence).
  apply (NoDup_incl_length ND3). intros x [<-|[<-|[<-|[]]]]; apply L; auto.
Qed.
Lemma edgeHes_same m m1 e : ga m1 AEHe = ga m AEHe \/ ev m1 AEHe e = ev m AEHe e /\ 0 <= e < zlen (ga m1 AEHe) /\ 0 <= e < zlen (ga m AEHe) -> ga m1 ASib = ga m ASib -> gHeFill m1 = gHeFill m -> gEdgeHes m1 e = gEdgeHes m e.
Proof.
  intros H1 H2 H3. unfold gEdgeHes. replace (rdA m1 AEHe e) with (rdA m AEHe e) by (destruct H1 as [H1|(H1 & L1 & L2)]; [unfold rdA; rewrite H1; auto|rewrite !rdA_ok by auto; rewrite H1; auto]).
  destruct (rdA m AEHe e) as [h| |]; cbn [bind]; auto. unfold gFuel. rewrite H3. unfold rdA. rewrite H2. reflexivity.
Qed.

Lemma separate_ok m a b l : GValid m -> inH m a -> inH m b -> ev m AEdge a = ev m AEdge b -> a <> b -> gEdgeHes m (ev m AEdge a) = Ok l -> (3 <= length l)%nat ->
  exists m', gSeparateToNewEdge m a b = Ok (m', gEFill m) /\ Separated m m' a b.
Proof.
  intros V Ha Hb Eab Nab El Len. pose proof (valid_fits m V) as F. set (e := ev m AEdge a) in *.
  assert (He : 0 <= e < gEFill m) by (apply (gv_edge m V); auto).
  unfold gSeparateToNewEdge. rewrite !rdA_ok by (apply rdH; auto). cbn [bind]. fold e. rewrite <- Eab, Z.eqb_refl. cbn [guard bind].
  rewrite (proj2 (Z.eqb_neq a b)) by auto. cbn [negb guard bind]. unfold gEdgeDegree. rewrite El. cbn [bind].
  rewrite (proj2 (Z.leb_gt (Z.of_nat (length l)) 2)) by lia.
  assert (SZ : Sized m TEd) by (split; [intros x Tx; rewrite <- Tx; apply V|apply V]).
  destruct (newEdge_ok m SZ) as (m1 & -> & G & C1 & C2 & C3 & C4 & C5). destruct G as (G1 & G2 & G3 & G4 & G5 & G6 & G7). cbn [gFill gCap] in G1, G3, G4.
  destruct (G7 THe ltac:(discriminate)) as [Gh1 Gh2]. destruct (G7 TVe ltac:(discriminate)) as [Gv1 Gv2]. destruct (G7 TFc ltac:(discriminate)) as [Gf1 Gf2]. cbn [gFill gCap] in Gh1, Gh2, Gv1, Gv2, Gf1, Gf2.
  assert (X1 : forall p h, typeOf p <> TEd -> ev m1 p h = ev m p h) by (intros p h Hp; unfold ev; rewrite G6; auto).
  assert (F1 : Fits m1).
  { split.
    - intros p. destruct (eltype_eqb (typeOf p) TEd) eqn:Q; [apply eltype_eqb_eq in Q; rewrite Q; apply G2; auto|].
      assert (Np : typeOf p <> TEd) by (intros K; rewrite K in Q; discriminate). rewrite G6 by auto. rewrite (proj2 (G7 _ Np)). apply V.
    - intros t. pose proof (gv_fill m V t). pose proof (gv_fill m V TEd). destruct t; cbn [gFill gCap] in *; lia. }
  assert (H1 : forall h, inH m1 h <-> inH m h) by (intros h; unfold inH; rewrite Gh1; reflexivity).
  assert (Ee1 : ev m1 AEHe e = ev m AEHe e) by (apply G5; exact He).
  rewrite (edgeHes_same m m1 e); [|right; split; [exact Ee1|split; [apply rdE; auto; lia|apply rdE; auto]]|apply G6; discriminate|exact Gh1].
  rewrite El. cbn [bind].
  destruct (edgeHes_ok m V e He) as (l' & El' & NDl & Ml). rewrite El in El'. injection El' as <-.
  destruct (three_others l a b NDl Len) as (h0 & -> & Ih0 & Nh0a & Nh0b). apply Ml in Ih0 as [Hh0 Eh0].
  rewrite wrA_ok by (apply rdE; auto; lia). cbn [bind]. set (m2 := wA m1 AEHe e h0).
  assert (F2 : Fits m2) by (apply (Fits_same [AEHe] m1); [apply sameBut_wA; simpl; auto|auto]).
  assert (H2 : forall h, inH m2 h <-> inH m h) by exact H1.
  set (N := ev m ASib). set (P := predOf (gHeFill m) N). pose proof (ring_nbr m V) as B0. fold N in B0. fold P in B0.
  assert (S2 : forall h, ev m2 ASib h = N h) by (intros h; unfold m2; rewrite ev_other by discriminate; apply X1; discriminate).
  unfold gRemoveFromSiblingList at 1. rewrite rdA_ok by (apply rdH; auto; apply H2; auto). cbn [bind]. rewrite S2.
  destruct (nbr_succ _ _ _ _ _ _ B0 a Ha) as [Dna Kna]. destruct (nbr_pred _ _ _ _ _ _ B0 a Ha) as (Dpa & Npa & Kpa).
  rewrite (findPrev_ok m2 (inH m) (gEFill m) (ev m AEdge) N P (ev m AEHe)); auto; [|intros h; apply H2]. cbn [bind].
  rewrite wrA_ok by (apply rdH; auto; apply H2; auto). cbn [bind]. set (m3 := wA m2 ASib (P a) (N a)).
  assert (F3 : Fits m3) by (apply (Fits_same [ASib] m2); [apply sameBut_wA; simpl; auto|auto]).
  assert (H3 : forall h, inH m3 h <-> inH m h) by exact H1.
  pose proof (nbr_cut _ _ _ _ _ _ B0 a Ha) as B1. set (N1 := cutN N P a) in *. set (P1 := cutP N P a) in *. set (K1 := cutS (ev m AEdge) P (ev m AEHe) a) in *.
  assert (S3 : forall h, h <> a -> ev m3 ASib h = N1 h).
  { intros h Hh. unfold m3. rewrite ev_same by (apply rdH; auto; apply H2; auto). unfold N1, cutN. rewrite (proj2 (Z.eqb_neq h a)) by auto. rewrite S2. reflexivity. }
  assert (Db1 : inH m b /\ b <> a) by auto.
  unfold gRemoveFromSiblingList at 1. rewrite rdA_ok by (apply rdH; auto; apply H3; auto). cbn [bind]. rewrite S3 by auto.
  destruct (nbr_succ _ _ _ _ _ _ B1 b Db1) as [Dnb Knb]. destruct (nbr_pred _ _ _ _ _ _ B1 b Db1) as (Dpb & Npb & Kpb).
  rewrite (findPrev_ok m3 (fun h => inH m h /\ h <> a) (gEFill m) (ev m AEdge) N1 P1 K1); auto; [|intros h [Q _]; apply H3; auto|intros h [_ Q]; apply S3; auto]. cbn [bind].
  rewrite wrA_ok by (apply rdH; auto; apply H3; apply Dpb). cbn [bind]. set (m4 := wA m3 ASib (P1 b) (N1 b)).
  assert (F4 : Fits m4) by (apply (Fits_same [ASib] m3); [apply sameBut_wA; simpl; auto|auto]).
  assert (H4 : forall h, inH m4 h <-> inH m h) by exact H1.
  pose proof (nbr_cut _ _ _ _ _ _ B1 b Db1) as B2. set (N2 := cutN N1 P1 b) in *. set (P2 := cutP N1 P1 b) in *.
  assert (S4 : forall h, h <> a -> h <> b -> ev m4 ASib h = N2 h).
  { intros h Hh Hhb. unfold m4. rewrite ev_same by (apply rdH; auto; apply H3; apply Dpb). unfold N2, cutN. rewrite (proj2 (Z.eqb_neq h b)) by auto. rewrite S3 by auto. reflexivity. }
  set (nE := gEFill m) in *.
  rewrite wrA_ok by (apply rdE; auto; unfold m4, m3, m2; cbn [gEFill wA setA]; lia). cbn [bind]. set (m5 := wA m4 AEHe nE a).
  assert (F5 : Fits m5) by (apply (Fits_same [AEHe] m4); [apply sameBut_wA; simpl; auto|auto]).
  rewrite wrA_ok by (apply rdH; auto; apply H1; auto). cbn [bind]. set (m6 := wA m5 AEdge a nE).
  assert (F6 : Fits m6) by (apply (Fits_same [AEdge] m5); [apply sameBut_wA; simpl; auto|auto]).
  rewrite wrA_ok by (apply rdH; auto; apply H1; auto). cbn [bind]. set (m7 := wA m6 AEdge b nE).
  assert (F7 : Fits m7) by (apply (Fits_same [AEdge] m6); [apply sameBut_wA; simpl; auto|auto]).
  rewrite wrA_ok by (apply rdH; auto; apply H1; auto). cbn [bind]. set (m8 := wA m7 ASib a b).
  assert (F8 : Fits m8) by (apply (Fits_same [ASib] m7); [apply sameBut_wA; simpl; auto|auto]).
  rewrite wrA_ok by (apply rdH; auto; apply H1; auto). cbn [bind]. set (m9 := wA m8 ASib b a).
  assert (F9 : Fits m9) by (apply (Fits_same [ASib] m8); [apply sameBut_wA; simpl; auto|auto]).
  exists m9. split; [reflexivity|].
  assert (H9 : forall h, inH m9 h <-> inH m h) by exact H1.
  assert (X9 : forall p h, ~ In p [AEdge; ASib; AEHe] -> ev m9 p h = ev m p h).
  { intros p h Hp. unfold m9, m8, m7, m6, m5, m4, m3, m2. rewrite !ev_other by (intros <-; apply Hp; simpl; auto). apply X1. intros T. destruct p; try discriminate T. apply Hp; simpl; auto. }
  assert (E9 : forall h, ev m9 AEdge h = if (h =? a) || (h =? b) then nE else ev m AEdge h).
  { intros h. unfold m9, m8. rewrite !ev_other by discriminate. unfold m7. rewrite ev_same by (apply rdH; auto; apply H1; auto). unfold m6. rewrite ev_same by (apply rdH; auto; apply H1; auto).
    unfold m5, m4, m3, m2. rewrite !ev_other by discriminate. rewrite X1 by discriminate. destruct (h =? b), (h =? a); reflexivity. }
  assert (S9 : forall h, ev m9 ASib h = if h =? b then a else if h =? a then b else N2 h).
  { intros h. unfold m9. rewrite ev_same by (apply rdH; auto; apply H1; auto). destruct (Z.eqb_spec h b) as [|Q1]; auto. unfold m8. rewrite ev_same by (apply rdH; auto; apply H1; auto).
    destruct (Z.eqb_spec h a) as [|Q2]; auto. unfold m7, m6, m5. rewrite !ev_other by discriminate. apply S4; auto. }
  assert (T9 : forall x, ev m9 AEHe x = if x =? nE then a else if x =? e then h0 else ev m1 AEHe x).
  { intros x. unfold m9, m8, m7, m6. rewrite !ev_other by discriminate. unfold m5. rewrite ev_same by (apply rdE; auto; unfold m4, m3, m2; cbn [gEFill wA setA]; lia). destruct (x =? nE); auto.
    unfold m4, m3. rewrite !ev_other by discriminate. unfold m2. rewrite ev_same by (apply rdE; auto; lia). reflexivity. }
  assert (Keys : forall h, inH m h -> 0 <= ev m AEdge h < nE) by (intros h Hh; apply (gv_edge m V); auto).
  assert (Tl : forall h, gTailOf m9 h = gTailOf m h) by (intros h; apply X9; notin).
  assert (Tp : forall h, gTipOf m9 h = gTipOf m h) by (intros h; unfold gTipOf; rewrite !X9 by notin; reflexivity).
  assert (R9 : Ring (gHeFill m) (ev m9 ASib) (ev m9 AEdge)).
  { assert (Step : forall h, inH m h -> h <> a -> h <> b -> inH m (N2 h) /\ N2 h <> a /\ N2 h <> b /\ ev m AEdge (N2 h) = ev m AEdge h).
    { intros h Hh Q1 Q2. destruct (nbr_succ _ _ _ _ _ _ B2 h (conj (conj Hh Q1) Q2)) as [[[Z1 Z2] Z3] Z4]. auto. }
    split.
    - intros h Hh. rewrite S9, !E9. destruct (Z.eqb_spec h b) as [-> | Q1].
      + rewrite Z.eqb_refl, orb_true_r. split; [exact Ha|reflexivity].
      + destruct (Z.eqb_spec h a) as [-> | Q2]; [rewrite Z.eqb_refl, orb_true_r; cbn [orb]; split; [exact Hb|reflexivity]|].
        destruct (Step h Hh Q2 Q1) as (Z1 & Z2 & Z3 & Z4). rewrite (proj2 (Z.eqb_neq _ _) Z2), (proj2 (Z.eqb_neq _ _) Z3). cbn [orb]. auto.
    - intros x y Hx Hy Q. rewrite !E9 in Q.
      destruct ((x =? a) || (x =? b)) eqn:Cx; destruct ((y =? a) || (y =? b)) eqn:Cy.
      + assert (Xx : x = a \/ x = b) by (clear - Cx; lia). assert (Yy : y = a \/ y = b) by (clear - Cy; lia).
        assert (Sa : ev m9 ASib a = b) by (rewrite S9, (proj2 (Z.eqb_neq a b)), Z.eqb_refl by auto; auto). assert (Sb : ev m9 ASib b = a) by (rewrite S9, Z.eqb_refl; auto).
        destruct Xx as [-> | ->], Yy as [-> | ->]; [exists 0%nat; reflexivity|exists 1%nat; exact Sa|exists 1%nat; exact Sb|exists 0%nat; reflexivity].
      + specialize (Keys y Hy). clear - Keys Q. lia.
      + specialize (Keys x Hx). clear - Keys Q. lia.
      + assert (Dx : (inH m x /\ x <> a) /\ x <> b) by (split; [split; [exact Hx|]|]; clear - Cx; lia). assert (Dy : (inH m y /\ y <> a) /\ y <> b) by (split; [split; [exact Hy|]|]; clear - Cy; lia).
        destruct (proj2 (nb_ring _ _ _ _ _ _ B2) x y Dx Dy Q) as [k Hk]. exists k. rewrite <- Hk.
        assert (G : forall k, Nat.iter k (ev m9 ASib) x = Nat.iter k N2 x /\ (inH m (Nat.iter k N2 x) /\ Nat.iter k N2 x <> a /\ Nat.iter k N2 x <> b)).
        { induction k0 as [|k0 [I1 (I2 & I3 & I4)]]; [simpl; split; [reflexivity|tauto]|]. simpl. rewrite I1, S9, (proj2 (Z.eqb_neq _ _) I3), (proj2 (Z.eqb_neq _ _) I4). split; auto.
          destruct (Step _ I2 I3 I4) as (Z1 & Z2 & Z3 & _). auto. }
        apply G. }
  assert (Fl : gHeFill m9 = gHeFill m /\ gEFill m9 = nE + 1 /\ gVFill m9 = gVFill m /\ gFFill m9 = gFFill m) by (unfold m9, m8, m7, m6, m5, m4, m3, m2; cbn [gHeFill gEFill gVFill gFFill wA setA]; auto).
  destruct Fl as (L1 & L2 & L3 & L4).
  assert (V9 : GValid m9).
  { apply valid_from; auto.
    - unfold m9, m8, m7, m6, m5, m4, m3, m2. cbn [gHe gInt gEd gVe gFc gHeFill gEFill gVFill gFFill wA setA]. pose proof (gv_count m V) as (Q1 & Q2 & Q3 & Q4 & Q5). unfold nE in G1. clear - C1 C2 C3 C4 C5 G1 Gh1 Gv1 Gf1 Q1 Q2 Q3 Q4 Q5. lia.
    - intros h Hh. apply H9 in Hh. rewrite !X9 by notin. rewrite H9, L3. apply (valid_ends m V); auto.
    - intros h Hh. apply H9 in Hh. rewrite !X9 by notin. rewrite L4. apply (gv_face m V); auto.
    - intros h Hh. apply H9 in Hh. rewrite E9, L2. specialize (Keys h Hh). destruct (_ || _); lia.
    - intros v Hv. rewrite L3 in Hv. rewrite !X9 by notin. rewrite H9. apply (gv_vhe m V); auto.
    - intros f Hf. rewrite L4 in Hf. rewrite !X9 by notin. rewrite H9. apply (gv_fhe m V); auto.
    - intros x Hx. rewrite L2 in Hx. rewrite T9. destruct (Z.eqb_spec x nE) as [-> | Q1]; [rewrite H9, E9, Z.eqb_refl; auto|].
      destruct (Z.eqb_spec x e) as [-> | Q2].
      + rewrite H9, E9, (proj2 (Z.eqb_neq _ _) Nh0a), (proj2 (Z.eqb_neq _ _) Nh0b). auto.
      + assert (Hx' : 0 <= x < gEFill m) by (fold nE; lia). destruct (gv_ehe m V x Hx') as [Z1 Z2]. rewrite G5 by exact Hx'. rewrite H9, E9.
        rewrite (proj2 (Z.eqb_neq (ev m AEHe x) a)) by (intros Q; apply Q2; rewrite <- Z2, Q; reflexivity).
        rewrite (proj2 (Z.eqb_neq (ev m AEHe x) b)) by (intros Q; apply Q2; rewrite <- Z2, Q; symmetry; exact Eab). auto.
    - rewrite L1. apply (ringOn_ext (inH m) (inH m) (ev m ANext) _ (ev m AFace) _); [reflexivity|intros h _; symmetry; apply X9; notin|intros h _; symmetry; apply X9; notin|apply (gv_next m V)].
    - rewrite L1. exact R9.
    - destruct (valid_lists m V) as [LO LI]. split.
      + unfold outA, NbrA in *. rewrite L3. refine (nbr_ext _ _ _ _ _ _ _ _ _ _ _ H9 _ _ _ _ LO); intros; symmetry; apply X9; notin.
      + unfold inA, NbrA in *. rewrite L3. refine (nbr_ext _ _ _ _ _ _ _ _ _ _ _ H9 _ _ _ _ LI); intros; symmetry; try (apply X9; notin); apply Tp.
    - intros h Hh. apply H9 in Hh. rewrite X9 by notin. apply (gv_bit m V); auto.
    - intros x y Hx Hy Q. apply H9 in Hx, Hy. rewrite !Tl, !Tp, !X9 by notin. apply (gv_ori m V); auto. rewrite !E9 in Q.
      destruct ((x =? a) || (x =? b)) eqn:Cx; destruct ((y =? a) || (y =? b)) eqn:Cy; [|specialize (Keys y Hy); clear - Keys Q; lia|specialize (Keys x Hx); clear - Keys Q; lia|exact Q].
      assert (Xx : x = a \/ x = b) by (clear - Cx; lia). assert (Yy : y = a \/ y = b) by (clear - Cy; lia). destruct Xx as [-> | ->], Yy as [-> | ->]; auto. }
  constructor; auto.
  - intros t Ht. destruct t; cbn [gFill]; auto. contradiction.
  - rewrite !S9, !Z.eqb_refl, (proj2 (Z.eqb_neq a b)) by auto. auto.
  - intros h Hh Q. rewrite S9. assert (Nb : h <> b) by (intros ->; apply Q; symmetry; exact Eab). assert (Na : h <> a) by (intros ->; apply Q; reflexivity).
    rewrite (proj2 (Z.eqb_neq _ _) Na), (proj2 (Z.eqb_neq _ _) Nb). unfold N2, cutN. rewrite (proj2 (Z.eqb_neq _ _) Nb).
    destruct (Z.eqb_spec h (P1 b)) as [Q1|_]; [exfalso; apply Q; rewrite Q1, Kpb; symmetry; exact Eab|].
    unfold N1, cutN. rewrite (proj2 (Z.eqb_neq _ _) Na). destruct (Z.eqb_spec h (P a)) as [Q1|_]; [exfalso; apply Q; rewrite Q1; exact Kpa|]. reflexivity.
  - intros x Hx Q. rewrite T9. rewrite (proj2 (Z.eqb_neq x nE)) by (fold nE in Hx; lia). rewrite (proj2 (Z.eqb_neq x e)) by exact Q. apply G5. exact Hx.
Qed.
