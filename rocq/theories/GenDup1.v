(** duplicateFace: the loop *)
From Verif Require Import Base MeshModel MeshSpec MeshBase MeshOrbit GenModel GenSpec GenBase GenBuild1 GenBuild6 GenOpsModel GenOpsSpec GenDupSpec GenOps1 GenOps2 GenOps3 GenSep1.
Open Scope Z_scope.

(** insert [i] after [p] *)
Lemma nbr_insert D nV key N P S i p : Nbr D nV key N P S -> (forall h, D h -> 0 <= h) -> ~ D i -> D p -> key i = key p ->
  exists P' S', Nbr (fun h => D h \/ h = i) nV key (fun j => if j =? i then N p else if j =? p then i else N j) P' S'.
Proof.
  intros B Nn Di Dp K. destruct (nbr_succ _ _ _ _ _ _ B p Dp) as [Ds Ks].
  assert (B' : Nbr D nV key N P (fun v => if v =? key p then N p else S v)).
  { destruct B as [B1 B2 B3 B4]. constructor; auto. intros v Hv. destruct (Z.eqb_spec v (key p)) as [-> | Q]; [right; auto|apply B4; auto]. }
  pose proof (nbr_add _ _ _ _ _ _ B' i Nn Di ltac:(rewrite K; apply (nb_key _ _ _ _ _ _ B); auto)) as A.
  eexists. eexists. refine (nbr_ext _ _ _ _ _ _ _ _ _ _ _ (fun h => iff_refl _) _ _ _ _ A); try reflexivity.
  intros j Hj. unfold addN. cbv zeta. rewrite K, Z.eqb_refl. rewrite (proj2 (Z.eqb_neq (N p) (-1))) by (specialize (Nn _ Ds); lia).
  rewrite (nb_prev _ _ _ _ _ _ B p Dp). reflexivity.
Qed.

Lemma zlen_snoc (l : list Z) x : zlen (l ++ [x]) = zlen l + 1. Proof. unfold zlen. rewrite app_length. simpl. lia. Qed.
Lemma getZ_snoc (l : list Z) x i : 0 <= i < zlen l + 1 -> getZ (l ++ [x]) i = if i =? zlen l then x else getZ l i.
Proof.
  intros H. destruct (Z.eqb_spec i (zlen l)) as [-> | Q].
  - rewrite getZ_app2, Z.sub_diag by lia. reflexivity.
  - apply getZ_app1. lia.
Qed.

Section Dup.
Context (m : gmesh) (V : GValid m).
Let n0 := gHeFill m.
Let nF := gFFill m.
Record Dup (mc : gmesh) (l1 : list Z) : Prop := {
  du_fit : Fits mc;
  du_he : gHeFill mc = n0 + zlen l1;
  du_other : gVFill mc = gVFill m /\ gEFill mc = gEFill m /\ gFFill mc = nF + 1;
  du_cnt : gHe mc = gHe m + zlen l1 /\ gInt mc = gInt m /\ gEd mc = gEd m /\ gVe mc = gVe m /\ gFc mc = gFc m + 1;
  du_old : forall a i, a <> ASib -> 0 <= i < gFill m (typeOf a) -> ev mc a i = ev m a i;
  du_new : forall i, 0 <= i < zlen l1 -> ev mc AVert (n0 + i) = ev m AVert (getZ l1 i) /\ ev mc AEdge (n0 + i) = ev m AEdge (getZ l1 i) /\
    ev mc AOri (n0 + i) = ev m AOri (getZ l1 i) /\ ev mc AFace (n0 + i) = nF;
  du_next : forall i, 0 <= i -> i + 1 < zlen l1 -> ev mc ANext (n0 + i) = n0 + i + 1;
  du_first : l1 <> [] -> ev mc AFHe nF = n0;
  du_sib : exists P S, Nbr (inH mc) (gEFill m) (ev mc AEdge) (ev mc ASib) P S }.

Lemma dupStep_ok mc l1 h prev first : Dup mc l1 -> inH m h ->
  (l1 = [] -> prev = INVALID /\ first = INVALID) -> (l1 <> [] -> prev = n0 + zlen l1 - 1 /\ first = n0) ->
  exists mc', gDupStep nF (mc, prev, first) h = Ok (mc', n0 + zlen l1, n0) /\ Dup mc' (l1 ++ [h]).
Proof.
  intros [[F1a F1b] HE (OV & OE & OF) (C1 & C2 & C3 & C4 & C5) OLD NEW NXT FST (P & S & B)] Hh Hnil Hcons.
  assert (N0 : 0 <= n0) by (pose proof (gv_fill m V THe) as Q; cbn [gFill] in Q; unfold n0; lia). assert (L0 : 0 <= zlen l1) by (unfold zlen; lia).
  assert (NF0 : 0 <= nF) by (pose proof (gv_fill m V TFc) as Q; cbn [gFill] in Q; unfold nF; lia).
  unfold gDupStep. assert (SZ : Sized mc THe) by (split; [intros x Tx; rewrite <- Tx; apply F1a|apply F1b]).
  destruct (newHalfedge_ok mc false SZ) as (m1 & -> & G & D1 & D2 & D3 & D4 & D5). destruct G as (G1 & G2 & G3 & G4 & G5 & G6 & G7). cbn [gFill gCap] in G1, G3, G4.
  rewrite HE. set (n := n0 + zlen l1) in *.
  destruct (G7 TEd ltac:(discriminate)) as [Ge1 Ge2]. destruct (G7 TVe ltac:(discriminate)) as [Gv1 Gv2]. destruct (G7 TFc ltac:(discriminate)) as [Gf1 Gf2]. cbn [gFill gCap] in Ge1, Ge2, Gv1, Gv2, Gf1, Gf2.
  assert (F1 : Fits m1).
  { split.
    - intros p. destruct (eltype_eqb (typeOf p) THe) eqn:Q; [apply eltype_eqb_eq in Q; rewrite Q; apply G2; auto|].
      assert (Np : typeOf p <> THe) by (intros K; rewrite K in Q; discriminate). rewrite G6 by auto. rewrite (proj2 (G7 _ Np)). apply F1a.
    - intros t. pose proof (F1b t). pose proof (F1b THe). destruct t; cbn [gFill gCap] in *; lia. }
  assert (Hn1 : inH m1 n) by (unfold inH; lia). assert (Hh1 : inH m1 h) by (unfold inH in *; fold n0 in Hh; lia).
  assert (I1 : forall j, inH mc j -> inH m1 j) by (unfold inH; intros; lia).
  assert (Hhc : inH mc h) by (unfold inH in *; fold n0 in Hh; lia).
  assert (Nhn : h <> n) by (unfold inH in Hh; fold n0 in Hh; lia).
  (* the link from the previous one *)
  set (m2 := if l1 then wA m1 AFHe nF n else wA m1 ANext (n - 1) n).
  assert (S2 : sameBut [AFHe; ANext] m1 m2) by (unfold m2; destruct l1; apply sameBut_wA; simpl; auto).
  assert (E2 : (if first =? INVALID then let* m2 := wrA m1 AFHe nF n in Ok (m2, n) else let* m2 := wrA m1 ANext prev n in Ok (m2, first)) = Ok (m2, n0)).
  { unfold m2. destruct l1 as [|x t].
    - destruct (Hnil eq_refl) as [-> ->]. rewrite Z.eqb_refl. rewrite wrA_ok by (apply rdF; auto; lia). cbn [bind]. unfold n. change (zlen []) with 0. rewrite Z.add_0_r. reflexivity.
    - destruct (Hcons ltac:(discriminate)) as [-> ->]. rewrite (proj2 (Z.eqb_neq n0 INVALID)) by (unfold INVALID; lia). fold n. rewrite wrA_ok by (apply rdH; auto; unfold inH; assert (1 <= zlen (x :: t)) by (unfold zlen; simpl; lia); lia). reflexivity. }
  rewrite E2. cbn [bind]. clear E2 Hnil Hcons.
  pose proof (Fits_same _ _ _ S2 F1) as F2.
  assert (H2 : forall j, inH m2 j <-> inH m1 j) by (intros j; apply (inH_same _ _ _ _ S2)).
  assert (K2 : forall a j, ~ In a [AFHe; ANext] -> ev m2 a j = ev m1 a j) by (intros a j Q; apply (sameBut_ev _ _ _ _ _ S2 Q)).
  assert (Hm2 : forall a j, typeOf a = THe -> inH m1 j -> 0 <= j < zlen (ga m2 a)) by (intros a j T Q; apply rdH; auto; apply H2; auto).
  rewrite rdA_ok by auto. cbn [bind]. rewrite K2 by notin. rewrite wrA_ok by auto. cbn [bind].
  rewrite rdA_ok by (rewrite !len_wA; auto). cbn [bind]. rewrite !ev_other by discriminate. rewrite K2 by notin. rewrite wrA_ok by (rewrite !len_wA; auto). cbn [bind].
  rewrite rdA_ok by (rewrite !len_wA; auto). cbn [bind]. rewrite !ev_other by discriminate. rewrite K2 by notin. rewrite wrA_ok by (rewrite !len_wA; auto). cbn [bind].
  rewrite wrA_ok by (rewrite !len_wA; auto). cbn [bind].
  rewrite rdA_ok by (rewrite !len_wA; auto). cbn [bind]. rewrite !ev_other by discriminate. rewrite K2 by notin.
  rewrite wrA_ok by (rewrite !len_wA; auto). cbn [bind]. rewrite wrA_ok by (rewrite !len_wA; auto). cbn [bind].
  match goal with |- exists mc', Ok (?X, _, _) = _ /\ _ => set (m9 := X) end.
  exists m9. split; [reflexivity|].
  assert (S9 : sameBut [AFHe; ANext; AVert; AEdge; AOri; AFace; ASib] m1 m9).
  { unfold m9. repeat (eapply sameBut_trans; [|apply sameBut_wA; simpl; tauto]). eapply sameBut_incl; [|exact S2]. intros x [<-|[<-|[]]]; simpl; auto. }
  assert (OldM1 : forall a j, 0 <= j < gFill mc (typeOf a) -> ev m1 a j = ev mc a j) by exact G5.
  assert (EV : forall j, ev m9 AVert j = if j =? n then ev m1 AVert h else ev m1 AVert j).
  { intros j. unfold m9. rewrite !(ev_other _ ASib), !(ev_other _ AFace), !(ev_other _ AOri), !(ev_other _ AEdge) by discriminate. rewrite ev_same by auto. rewrite K2 by notin. reflexivity. }
  assert (EE : forall j, ev m9 AEdge j = if j =? n then ev m1 AEdge h else ev m1 AEdge j).
  { intros j. unfold m9. rewrite !(ev_other _ ASib), !(ev_other _ AFace), !(ev_other _ AOri) by discriminate. rewrite ev_same by (rewrite len_wA; auto). rewrite ev_other by discriminate. rewrite K2 by notin. reflexivity. }
  assert (EO : forall j, ev m9 AOri j = if j =? n then ev m1 AOri h else ev m1 AOri j).
  { intros j. unfold m9. rewrite !(ev_other _ ASib), !(ev_other _ AFace) by discriminate. rewrite ev_same by (rewrite !len_wA; auto). rewrite !ev_other by discriminate. rewrite K2 by notin. reflexivity. }
  assert (EF : forall j, ev m9 AFace j = if j =? n then nF else ev m1 AFace j).
  { intros j. unfold m9. rewrite !(ev_other _ ASib) by discriminate. rewrite ev_same by (rewrite !len_wA; auto). rewrite !ev_other by discriminate. rewrite K2 by notin. reflexivity. }
  assert (ES : forall j, ev m9 ASib j = if j =? n then ev m1 ASib h else if j =? h then n else ev m1 ASib j).
  { intros j. unfold m9. rewrite ev_same by (rewrite !len_wA; auto). destruct (j =? n); auto. rewrite ev_same by (rewrite !len_wA; auto). destruct (j =? h); auto. rewrite !ev_other by discriminate. rewrite K2 by notin. reflexivity. }
  assert (EX : forall a j, ~ In a [AVert; AEdge; AOri; AFace; ASib] -> ev m9 a j = ev m2 a j).
  { intros a j Q. unfold m9. rewrite !ev_other by (intros <-; apply Q; simpl; tauto). reflexivity. }
  clearbody m9.
  assert (Fl : gHeFill m9 = n + 1 /\ gVFill m9 = gVFill m /\ gEFill m9 = gEFill m /\ gFFill m9 = nF + 1).
  { pose proof (sameBut_fill _ _ _ THe S9) as Q1. pose proof (sameBut_fill _ _ _ TVe S9) as Q2. pose proof (sameBut_fill _ _ _ TEd S9) as Q3. pose proof (sameBut_fill _ _ _ TFc S9) as Q4.
    cbn [gFill] in Q1, Q2, Q3, Q4. lia. }
  destruct Fl as (L1 & L2 & L3 & L4).
  assert (Hfe : h < n0) by (unfold inH in Hh; fold n0 in Hh; lia).
  constructor.
  - exact (Fits_same _ _ _ S9 F1).
  - rewrite zlen_snoc. lia.
  - auto.
  - rewrite zlen_snoc. destruct S9 as (Fr & _). unfold frame in Fr. inversion Fr as [[E1 E2 E3 E4 E5 E6 E7 E8 E9 E10 E11 E12 E13]]. rewrite E1, E2, E3, E4, E5. lia.
  - intros a i Na Hi. assert (Hic : 0 <= i < gFill mc (typeOf a)) by (destruct (typeOf a); cbn [gFill] in *; try lia; fold n0 in Hi; lia).
    assert (Base : ev m1 a i = ev m a i) by (rewrite OldM1, OLD by auto; reflexivity).
    assert (M2 : ev m2 a i = ev m a i).
    { unfold m2. destruct l1 as [|x t].
      - rewrite ev_wA by (apply rdF; auto; lia). destruct (arr_eqb AFHe a) eqn:Q; cbn [andb]; auto. apply arr_eqb_eq in Q as <-. rewrite (proj2 (Z.eqb_neq i nF)); auto. cbn [typeOf gFill] in Hi. unfold nF. lia.
      - assert (1 <= zlen (x :: t)) by (unfold zlen; simpl; lia). rewrite ev_wA by (apply rdH; auto; unfold inH; lia). destruct (arr_eqb ANext a) eqn:Q; cbn [andb]; auto. apply arr_eqb_eq in Q as <-. rewrite (proj2 (Z.eqb_neq i (n - 1))); auto. cbn [typeOf gFill] in Hi. fold n0 in Hi. lia. }
    destruct a; try (rewrite EX by notin; exact M2); try contradiction; cbn [typeOf gFill] in Hi; fold n0 in Hi;
      rewrite ?EV, ?EE, ?EO, ?EF; rewrite (proj2 (Z.eqb_neq i n)) by lia; exact Base.
  - intros i Hi. rewrite zlen_snoc in Hi. rewrite getZ_snoc by lia. rewrite EV, EE, EO, EF. destruct (Z.eqb_spec i (zlen l1)) as [-> | Q].
    + fold n. rewrite Z.eqb_refl. rewrite !OldM1 by exact Hhc. rewrite !OLD by (auto; discriminate). auto.
    + rewrite (proj2 (Z.eqb_neq (n0 + i) n)) by (unfold n; lia). assert (Q' : 0 <= n0 + i < gHeFill mc) by lia. rewrite !OldM1 by exact Q'. apply NEW. lia.
  - intros i Hi1 Hi2. rewrite zlen_snoc in Hi2. rewrite EX by notin. unfold m2. destruct l1 as [|x t]; [change (zlen []) with 0 in Hi2; lia|].
    rewrite ev_same by (apply rdH; auto; unfold inH; assert (1 <= zlen (x :: t)) by (unfold zlen; simpl; lia); lia). destruct (Z.eqb_spec (n0 + i) (n - 1)) as [Q|Q]; [lia|].
    rewrite OldM1 by (cbn [typeOf gFill]; lia). apply NXT; auto. lia.
  - intros _. rewrite EX by notin. unfold m2. destruct l1 as [|x t].
    + rewrite ev_same by (apply rdF; auto; lia). rewrite Z.eqb_refl. unfold n. change (zlen []) with 0. lia.
    + rewrite ev_other by discriminate. rewrite OldM1 by (cbn [typeOf gFill]; lia). apply FST. discriminate.
  - set (key := ev m9 AEdge). assert (Kc : forall j, inH mc j -> key j = ev mc AEdge j).
    { intros j Hj. unfold key. rewrite EE. rewrite (proj2 (Z.eqb_neq j n)) by (unfold inH in Hj; lia). apply OldM1. exact Hj. }
    assert (B1 : Nbr (inH mc) (gEFill m) key (ev mc ASib) P S).
    { refine (nbr_ext _ _ _ _ _ _ _ _ _ _ _ (fun h => iff_refl _) _ _ _ _ B); try reflexivity. intros j Hj. symmetry. auto. }
    destruct (nbr_insert _ _ _ _ _ _ n h B1) as (P' & S' & B').
    + intros j Hj. unfold inH in Hj. lia.
    + unfold inH. lia.
    + exact Hhc.
    + unfold key. rewrite !EE, Z.eqb_refl. destruct (Z.eqb_spec h n); auto.
    + exists P', S'. refine (nbr_ext _ _ _ _ _ _ _ _ _ _ _ _ _ _ _ _ B'); try reflexivity.
      * intros j. unfold inH. lia.
      * intros j Hj. rewrite ES. destruct (Z.eqb_spec j n) as [_|Q]; [rewrite OldM1 by exact Hhc; reflexivity|]. destruct (j =? h); auto. destruct Hj as [Hj|Hj]; [|contradiction]. symmetry. apply OldM1. exact Hj.
Qed.
End Dup.
