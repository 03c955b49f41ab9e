(** Derived statements about flips, circulators and boundary tests *)
From Verif Require Import Base MeshModel MeshSpec MeshBase MeshExec MeshOrbit MeshAlloc MeshFlip MeshInsert MeshOpSpec.
Open Scope Z_scope.

Lemma flippable_pre m h : flippable m h <-> FlipPre m h.
Proof.
  unfold flippable, inTriangle. split.
  - intros (L & (I1 & T1 & M1) & (I2 & T2 & M2) & D1 & D2). split; auto.
  - intros [L I1 I2 T1 T2 M1 M2 D1 D2]. repeat split; auto; apply L.
Qed.

Lemma liveFL_eq m m' : fFill m' = fFill m -> bFill m' = bFill m -> fCap m' = fCap m -> (forall f, fh m' f = -1 <-> fh m f = -1) ->
  forall f, liveFL m' f <-> liveFL m f.
Proof. intros H1 H2 H3 H f. unfold liveFL, liveF, liveL. rewrite H1, H2, H3, H. tauto. Qed.

Lemma flip_same m m' a : Valid m -> FlipPre m a -> 
  FlipEff m m' a (nx m a) (nx m (nx m a)) (tw a) (nx m (tw a)) (nx m (nx m (tw a))) -> same_elements m m'.
Proof.
  intros V P E. pose proof (va_cn _ V) as CN. pose proof (fp_live _ _ P) as L.
  assert (LB : liveH m (tw a)) by (apply CN; auto).
  destruct E as [Sc Le Lg Cm E1 E2 E3 E4 E5 E6 EN V1 V2 EV F1 F2 EF H1 H2 EH W1 W2 EW]. unfold scal in Sc. injection Sc as S1 S2 S3 S4 S5 S6 S7 S8 S9 S10 S11 S12 S13 S14 S15.
  assert (LN : forall h, liveH m h -> nx m h <> -1 /\ h <> -1) by (intros h Hh; split; [apply Hh|destruct Hh as [Hh _]; lia]).
  assert (L2 : liveH m (nx m a)) by (apply CN; auto). assert (L3 : liveH m (nx m (nx m a))) by (apply CN; auto).
  assert (M2 : liveH m (nx m (tw a))) by (apply CN; auto). assert (M3 : liveH m (nx m (nx m (tw a)))) by (apply CN; auto).
  split; [|split].
  - intros h. unfold liveH. rewrite S7. assert (K : nx m' h = -1 <-> nx m h = -1); [|tauto].
    assert (Z : forall x, liveH m x -> nx m' x <> -1 -> h = x -> (nx m' h = -1 <-> nx m h = -1)).
    { intros x Lx N ->. pose proof (LN x Lx). tauto. }
    destruct (Z.eq_dec h a); [apply (Z a); auto; rewrite E1; apply LN; auto|].
    destruct (Z.eq_dec h (nx m a)); [apply (Z (nx m a)); auto; rewrite E3; apply LN; auto|].
    destruct (Z.eq_dec h (nx m (nx m a))); [apply (Z (nx m (nx m a))); auto; rewrite E5; apply LN; auto|].
    destruct (Z.eq_dec h (tw a)); [apply (Z (tw a)); auto; rewrite E4; apply LN; auto|].
    destruct (Z.eq_dec h (nx m (tw a))); [apply (Z (nx m (tw a))); auto; rewrite E6; apply LN; auto|].
    destruct (Z.eq_dec h (nx m (nx m (tw a)))); [apply (Z (nx m (nx m (tw a)))); auto; rewrite E2; apply LN; auto|].
    rewrite EN by auto. tauto.
  - intros v. unfold liveV. rewrite S9. destruct (Z.eq_dec (vh m v) a) as [Ea|Ea]; [|destruct (Z.eq_dec (vh m v) (tw a)) as [Eb|Eb]].
    + split; intros [K1 K2]; (split; [auto|]).
      * rewrite Ea. apply LN; auto.
      * assert (Hv : liveV m v) by (split; auto). apply (cn_vh _ CN) in Hv as [_ Hv]. rewrite Ea in Hv. subst v. rewrite W1 by auto. apply LN; auto.
    + split; intros [K1 K2]; (split; [auto|]).
      * rewrite Eb. apply LN; auto.
      * assert (Hv : liveV m v) by (split; auto). apply (cn_vh _ CN) in Hv as [_ Hv]. rewrite Eb in Hv. subst v. rewrite W2 by auto. apply LN; auto.
    + rewrite EW by auto. tauto.
  - assert (HF : forall h, liveH m h -> fh m (fa m h) <> -1).
    { intros h Hh. apply (cn_fa _ CN) in Hh. destruct Hh as [[_ K]|[_ K]]; exact K. }
    apply liveFL_eq; auto. intros f. destruct (Z.eq_dec f (fa m a)) as [->|]; [rewrite H1; pose proof (LN a L); pose proof (HF a L); tauto|].
    destruct (Z.eq_dec f (fa m (tw a))) as [->|]; [rewrite H2; pose proof (LN _ LB); pose proof (HF _ LB); tauto|]. rewrite EH by auto. tauto.
Qed.

Lemma flip_spec m e p : Valid m -> liveH m (eHe e) -> nx m (eHe e) <> eHe e -> nx m (tw (eHe e)) <> tw (eHe e) ->
  let a := eHe e in let b := tw a in
  exists m' ok, flip m e p = Ok (m', ok) /\ Valid m' /\
    (ok = true <-> flippable m a /\ (p = true -> ~ joined m (ve m (nx m (nx m a))) (ve m (nx m (nx m b))))) /\
    (ok = false -> m' = m) /\
    (ok = true -> counts m' = counts m /\ same_elements m m' /\
      (* the edge now joins the two opposite vertices; all other halfedges keep their end points *)
      ve m' a = ve m (nx m (nx m a)) /\ ve m' b = ve m (nx m (nx m b)) /\
      (forall h, h <> a -> h <> b -> ve m' h = ve m h) /\
      (* the faces away from the edge are unchanged *)
      (forall h, liveH m h -> fa m h <> fa m a -> fa m h <> fa m b -> nx m' h = nx m h /\ fa m' h = fa m h) /\
      (* the two new triangles *)
      nx m' a = nx m (nx m b) /\ nx m' (nx m' a) = nx m a /\ fa m' a = fa m a /\
      nx m' b = nx m (nx m a) /\ nx m' (nx m' b) = nx m b /\ fa m' b = fa m b /\ flippable m' a).
Proof.
  intros V L Ma Mb a b.
  destruct (flip_run m e p V L Ma Mb) as [(F & K)|(m' & F & P & E & NJ)].
  - exists m, false. split; [exact F|]. split; [exact V|]. split; [|split; [auto|discriminate]].
    split; [discriminate|]. intros [K1 K2]. apply flippable_pre in K1. destruct K as [K|(-> & h & K)]; [contradiction|].
    exfalso. apply K2; auto. exists h. exact K.
  - pose proof (flip_valid m m' (eHe e) V P E) as V'. exists m', true. split; [exact F|]. split; [exact V'|].
    split. { split; auto. intros _. split; [apply flippable_pre; auto|]. intros Hp (h & K1 & K2 & K3). apply (NJ Hp h K1 K2 K3). }
    split; [discriminate|]. intros _.
    pose proof (flip_same m m' (eHe e) V P E) as SE.
    pose proof (flip_pre_again m m' e V P E) as (P' & Q1 & Q2 & Q3 & Q4).
    pose proof (flip_six m e V P) as FS. pose proof (va_cn _ V) as CN.
    assert (LB : liveH m b) by (apply CN; auto).
    pose proof E as E0. destruct E as [Sc Le Lg Cm E1 E2 E3 E4 E5 E6 EN V1 V2 EV F1 F2 EF H1 H2 EH W1 W2 EW]. unfold scal in Sc. injection Sc as S1 S2 S3 S4 S5 S6 S7 S8 S9 S10 S11 S12 S13 S14 S15.
    split. { unfold counts. congruence. }
    split; [exact SE|]. split; [exact V1|]. split; [exact V2|]. split; [exact EV|]. split.
    { intros h Hh Fn1 Fn2.
      assert (FX : forall x, liveH m x -> fa m (nx m x) = fa m x) by (apply CN).
      assert (A2 : fa m (nx m a) = fa m a) by (apply FX; auto). assert (A3 : fa m (nx m (nx m a)) = fa m a) by (rewrite FX; auto; apply CN; auto).
      assert (B2 : fa m (nx m b) = fa m b) by (apply FX; auto). assert (B3 : fa m (nx m (nx m b)) = fa m b) by (rewrite FX; auto; apply CN; auto).
      assert (D : forall x, fa m x = fa m a \/ fa m x = fa m b -> h <> x) by (intros x [K|K] ->; congruence).
      split; [apply EN|apply EF]; apply D; auto. }
    split; [exact Q1|]. split; [etransitivity; [exact (f_equal (nx m') Q1)|exact Q2]|].
    split. { apply EF; intros K; destruct FS as (FD & _). 
      - assert (A : nx m (nx m (nx m (eHe e))) = nx m (eHe e)) by (rewrite <- K; reflexivity). pose proof (fp_ta _ _ P) as T. rewrite T in A. apply (fp_ma _ _ P). auto.
      - apply FD. change (fa m b = fa m a). change (a = nx m (nx m b)) in K. transitivity (fa m (nx m (nx m b))); [|rewrite <- K; auto]. rewrite (cn_fnx _ CN), (cn_fnx _ CN); auto; apply CN; auto. }
    split; [exact Q3|]. split; [etransitivity; [exact (f_equal (nx m') Q3)|exact Q4]|].
    split. { apply EF; intros K; destruct FS as (FD & _). 
      - apply FD. change (fa m b = fa m a). change (b = nx m (nx m a)) in K. transitivity (fa m (nx m (nx m a))); [rewrite <- K; auto|]. rewrite (cn_fnx _ CN), (cn_fnx _ CN); auto; apply CN; auto.
      - assert (A : nx m (nx m (nx m (tw (eHe e)))) = nx m (tw (eHe e))) by (rewrite <- K; reflexivity). pose proof (fp_tb _ _ P) as T. rewrite T in A. apply (fp_mb _ _ P). auto. }
    apply flippable_pre; auto.
Qed.

Lemma exch_swap : exch = swap.
Proof. reflexivity. Qed.
Lemma swap_swap a b x : swap a b (swap a b x) = x.
Proof.
  unfold swap at 2. destruct (Z.eqb_spec x a) as [->|]; [apply swap_r|]. destruct (Z.eqb_spec x b) as [->|]; [apply swap_l|]. apply swap_o; auto.
Qed.

Lemma flip_flip m e : Valid m -> flippable m (eHe e) ->
  let a := eHe e in let b := tw a in
  exists m1 m2, flip m e false = Ok (m1, true) /\ flip m1 e false = Ok (m2, true) /\ Valid m2 /\ counts m2 = counts m /\ same_elements m m2 /\
    (forall h, liveH m h -> nx m2 (exch a b h) = exch a b (nx m h)) /\
    (forall h, liveH m h -> ve m2 (exch a b h) = ve m h) /\
    (forall h, liveH m h -> fa m2 (exch a b h) = exch (fa m a) (fa m b) (fa m h)).
Proof.
  intros V P a b. apply flippable_pre in P. destruct (flip_succeeds m e V P) as (m1 & F1 & V1 & P1 & E1).
  destruct (flip_succeeds m1 e V1 P1) as (m2 & F2 & V2 & P2 & E2). exists m1, m2.
  destruct (flip_twice m m1 m2 e V P E1 E2) as (S & N & K & F).
  split; [exact F1|]. split; [exact F2|]. split; [exact V2|]. split; [unfold scal in S; unfold counts; congruence|].
  split. { destruct (flip_same _ _ _ V P E1) as (A1 & A2 & A3). destruct (flip_same _ _ _ V1 P1 E2) as (B1 & B2 & B3).
    split; [|split]; intros x; [rewrite B1, A1|rewrite B2, A2|rewrite B3, A3]; tauto. }
  rewrite exch_swap. auto.
Qed.

Lemma flip_four m e : Valid m -> flippable m (eHe e) ->
  exists m1 m2 m3 m4, flip m e false = Ok (m1, true) /\ flip m1 e false = Ok (m2, true) /\ flip m2 e false = Ok (m3, true) /\ flip m3 e false = Ok (m4, true) /\
    Valid m4 /\ counts m4 = counts m /\ same_elements m m4 /\
    (forall h, liveH m h -> nx m4 h = nx m h /\ ve m4 h = ve m h /\ fa m4 h = fa m h).
Proof.
  intros V P. destruct (flip_flip m e V P) as (m1 & m2 & F1 & F2 & V2 & C2 & S2 & N2 & W2 & A2).
  assert (P2 : flippable m2 (eHe e)).
  { apply flippable_pre in P. destruct (flip_succeeds m e V P) as (m1' & F1' & V1 & P1 & E1). rewrite F1 in F1'. injection F1' as <-.
    destruct (flip_succeeds m1 e V1 P1) as (m2' & F2' & _ & P2 & _). rewrite F2 in F2'. injection F2' as <-. apply flippable_pre; auto. }
  destruct (flip_flip m2 e V2 P2) as (m3 & m4 & F3 & F4 & V4 & C4 & S4 & N4 & W4 & A4).
  exists m1, m2, m3, m4. split; [exact F1|]. split; [exact F2|]. split; [exact F3|]. split; [exact F4|]. split; [exact V4|].
  split; [congruence|]. destruct S2 as (S21 & S22 & S23). destruct S4 as (S41 & S42 & S43).
  split. { split; [|split]; intros x; [rewrite S41, S21|rewrite S42, S22|rewrite S43, S23]; tauto. }
  rewrite exch_swap in *. intros h Hh. set (a := eHe e) in *. set (b := tw a) in *.
  assert (La : liveH m a) by (destruct P as (K & _); exact K). assert (Lb : liveH m b) by (apply (cn_tw _ (va_cn _ V)); auto).
  assert (Ls : liveH m2 (swap a b h)).
  { apply S21. unfold swap. destruct (Z.eqb_spec h a); [subst; auto|]. destruct (Z.eqb_spec h b); [subst; auto|auto]. }
  specialize (N4 _ Ls). specialize (W4 _ Ls). specialize (A4 _ Ls). rewrite swap_swap in N4, W4, A4.
  rewrite N2, swap_swap in N4 by auto. rewrite W2 in W4 by auto. rewrite A2 in A4 by auto.
  pose proof (A2 _ Lb) as Fa2. rewrite swap_r, swap_r in Fa2. pose proof (A2 _ La) as Fb2. rewrite swap_l, swap_l in Fb2.
  rewrite Fa2, Fb2, swap_swap in A4. auto.
Qed.

(** insertVertexAlongEdge, relative to the mesh before the call *)
Lemma insert_spec m e : Valid m -> liveH m (eHe e) -> nx m (tw (eHe e)) <> eHe e ->
  let a := eHe e in let b := tw a in let v := vFill m in let a' := heFill m in let b' := heFill m + 1 in
  exists m', insertVertexAlongEdge m e = Ok (m', a) /\ Valid m' /\
    nVertices m' = nVertices m + 1 /\ nEdges m' = nEdges m + 1 /\ nHalfedges m' = nHalfedges m + 2 /\ nFaces m' = nFaces m /\ nLoops m' = nLoops m /\
    ~ liveV m v /\ ~ liveH m a' /\ ~ liveH m b' /\ tw a' = b' /\
    (forall h, liveH m' h <-> liveH m h \/ h = a' \/ h = b') /\ (forall w, liveV m' w <-> liveV m w \/ w = v) /\ (forall f, liveFL m' f <-> liveFL m f) /\
    (* the old edge now starts at the new vertex; the new edge leads from the old tail to it *)
    ve m' a = v /\ ve m' a' = ve m a /\ ve m' b' = v /\ (forall h, liveH m h -> h <> a -> ve m' h = ve m h) /\
    nx m' a' = a /\ nx m' b = b' /\ nx m' b' = nx m b /\
    (forall h, liveH m h -> nx m h = a -> nx m' h = a') /\
    (forall h, liveH m h -> h <> b -> nx m h <> a -> nx m' h = nx m h) /\
    (* faces and boundary loops keep their halfedges *)
    fa m' a' = fa m a /\ fa m' b' = fa m b /\ (forall h, liveH m h -> fa m' h = fa m h) /\
    (ext m b -> nInterior m' = nInterior m + 1) /\ (~ ext m b -> nInterior m' = nInterior m + 2) /\ (NoDeadLoops m -> NoDeadLoops m') /\
    heFill m' = heFill m + 2 /\ vFill m' = vFill m + 1 /\ fFill m' = fFill m /\ bFill m' = bFill m /\ fCap m' = fCap m /\
    vh m' v = a /\ (forall w, liveV m w -> vh m' w = if vh m w =? a then a' else vh m w).
Proof.
  intros V L Hb a b v a' b'. destruct (insert_run m e V L Hb) as (m2 & m' & p & R & A & R1 & R2 & Lp & Np & E).
  pose proof (va_cn _ V) as CN. pose proof (va_st _ V) as ST.
  fold a in L, Hb, Np, E, R. fold b in Hb.
  assert (Lb : liveH m b) by (apply CN; auto).
  assert (RG : forall h, liveH m h -> 0 <= h < heFill m) by (intros h [K _]; exact K).
  pose proof (reset_valid m m2 0 V A) as VG. set (g := reset m2 m) in *.
  assert (LG : forall h, liveH g h <-> liveH m h) by (apply (reset_liveH m m2 0 A)).
  assert (NG : forall h, liveH m h -> nx g h = nx m h) by (intros; eapply reset_nx; eauto).
  assert (WG : forall h, liveH m h -> ve g h = ve m h) by (intros; eapply reset_ve; eauto).
  assert (FG : forall h, liveH m h -> fa g h = fa m h).
  { intros h Hh. unfold g. rewrite (reset_fa m m2 0 A) by auto. clear. destruct (fFill m <=? fa m h); lia. }
  assert (V' : Valid m').
  { eapply (ins_valid g m' a p); eauto.
    - apply LG; auto.
    - unfold a, eHe. lia.
    - apply LG; auto.
    - rewrite NG; auto.
    - fold b. rewrite NG; auto. }
  exists m'. split; [exact R|]. split; [exact V'|].
  pose proof (va_st _ V') as ST'. destruct E as [Cn Fl Cp Le NA NB Nb Npp NO VA VB Va VO FA FB FO HN H0 HO FH].
  injection Cn as C1 C2 C3 C4 C5 C6. injection Fl as F1 F2 F3 F4 F5. injection Cp as P1 P2 P3 P4.
  change (heFill g) with a' in *. change (vFill g) with v in *. change (a' + 1) with b' in NB, Nb, VB, FB. fold b in NB, Nb, FB, NO.
  rewrite NG in NB by auto. rewrite WG in VA by auto. rewrite FG in FA, FB by auto.
  split; [exact C4|]. split; [exact C3|]. split; [exact C1|]. split; [exact C5|]. split; [exact C6|].
  split; [intros [K _]; unfold v in K; clear -K; lia|]. split; [intros [K _]; unfold a' in K; clear -K; lia|]. split; [intros [K _]; unfold b' in K; clear -K; lia|].
  split; [apply tw_even; unfold a'; destruct ST; clear -st_edge; lia|].
  assert (RP : forall h, liveH m h -> nx m' h <> -1).
  { intros h Hh. destruct (Z.eq_dec h b) as [->|]; [rewrite Nb; unfold b'; pose proof (RG _ Hh); clear -H; lia|].
    destruct (Z.eq_dec h p) as [->|]; [rewrite Npp; unfold a'; pose proof (RG _ Hh); clear -H; lia|]. rewrite NO by (auto; apply RG; auto). rewrite NG by auto. apply Hh. }
  assert (LH : forall h, liveH m' h <-> liveH m h \/ h = a' \/ h = b').
  { intros h. unfold liveH at 1. rewrite F1. change (heFill g) with a'. split.
    - intros [K1 K2]. destruct (Z.eq_dec h a'); auto. destruct (Z.eq_dec h b'); auto. left.
      assert (Kh : 0 <= h < heFill m) by (fold a'; unfold b' in *; fold a' in n0; lia). split; auto.
      destruct (Z.eq_dec h b) as [->|]; [apply Lb|]. destruct (Z.eq_dec h p) as [->|]; [apply Lp|]. rewrite NO in K2 by auto. rewrite <- (reset_nx m m2 0 A h Kh). exact K2.
    - pose proof (RG _ L) as Ra. intros [K|[->| ->]].
      + split; [pose proof (RG _ K); unfold a'; clear -H; lia|]. auto.
      + rewrite NA. unfold a'. clear -Ra. lia.
      + rewrite NB. pose proof (RG _ (cn_nx _ CN _ Lb)). unfold b', a'. clear -Ra H. lia. }
  split; [exact LH|].
  split. { intros w. unfold liveV at 1. rewrite F3. change (vFill g) with v. split.
    - intros [K1 K2]. destruct (Z.eq_dec w v); auto. left. assert (Kw : 0 <= w < vFill m) by (fold v; lia). split; auto.
      intros K3. apply K2. rewrite HO; auto; [change (vh m2 w = -1); rewrite (al_vh _ _ _ A) by auto; exact K3|].
      right. change (vh m2 w <> a). rewrite (al_vh _ _ _ A) by auto. pose proof (RG _ L). clear -K3 H. lia.
    - intros [K| ->].
      + assert (Kw : 0 <= w < vFill m) by (apply K). split; [unfold v; clear -Kw; lia|]. destruct (Z.eq_dec w (ve g a)) as [->|Kn].
        * assert (Kwv : ve g a <> vFill g) by (change (vFill g) with (vFill m); clear -Kw; lia). destruct (Z.eq_dec (vh g (ve g a)) a) as [Kv|Kv]; [rewrite H0 by auto; unfold a'; pose proof (RG _ L); clear -H; lia|].
          rewrite HO by auto. change (vh m2 (ve g a) <> -1). rewrite (al_vh _ _ _ A) by auto. apply K.
        * rewrite HO; [|change (vFill g) with (vFill m); clear -Kw; lia|auto]. change (vh m2 w <> -1). rewrite (al_vh _ _ _ A) by auto. apply K.
      + rewrite HN. pose proof (RG _ L). destruct ST. unfold v. clear -H st_v. lia. }
  split. { intros f. rewrite (liveFL_eq g m') by (auto; intros; rewrite FH; tauto). unfold liveFL.
    pose proof (reset_liveF m m2 0 A f) as K0. fold g in K0. rewrite K0. pose proof (reset_liveL m m2 0 A f) as K. rewrite Z.add_0_r in K. fold g in K. rewrite K. tauto. }
  split; [exact Va|]. split; [exact VA|]. split; [exact VB|].
  split. { intros h Hh Hn. rewrite VO by (auto; apply RG; auto). auto. }
  split; [exact NA|]. split; [exact Nb|]. split; [exact NB|].
  split. { intros h Hh Hn. assert (h = p) as -> by (apply (cn_inj _ CN); auto; congruence). exact Npp. }
  split. { intros h Hh K1 K2. assert (h <> p) by (intros ->; auto). rewrite NO; auto. }
  split; [exact FA|]. split; [exact FB|]. split; [intros h Hh; rewrite FO by (apply RG; auto); auto|].
  fold b in C2. rewrite FG in C2 by auto. change (fFill g) with (fFill m) in *. change (nInterior g) with (nInterior m) in C2.
  split; [unfold ext; intros K; rewrite C2; destruct (Z.leb_spec (fFill m) (fa m b)); [reflexivity|exfalso; clear -K H; lia]|].
  split; [unfold ext; intros K; rewrite C2; destruct (Z.leb_spec (fFill m) (fa m b)); [contradiction|reflexivity]|].
  split; [unfold NoDeadLoops; intros K; rewrite C6, F5; exact K|].
  split; [exact F1|]. split; [exact F3|]. split; [exact F4|]. split; [exact F5|]. split; [rewrite P4; change (fCap g) with (fCap m2); rewrite (al_cap _ _ _ A); apply Z.add_0_r|].
  split; [exact HN|]. intros w Lw. assert (Kw : 0 <= w < vFill m) by (apply Lw). assert (Ew : vh g w = vh m w) by (apply (al_vh _ _ _ A); auto).
  destruct (Z.eqb_spec (vh m w) a) as [K|K].
  - assert (Ew2 : w = ve g a) by (rewrite WG by auto; destruct (cn_vh _ CN w Lw) as [_ Q]; rewrite K in Q; auto). rewrite Ew2. apply H0. rewrite <- Ew2, Ew. exact K.
  - rewrite <- Ew. apply HO; [change (vFill g) with (vFill m); clear -Kw; lia|]. right. rewrite Ew. exact K.
Qed.

Lemma edge_boundary m e : Valid m -> liveH m (eHe e) ->
  exists b, eIsBoundary m e = Ok b /\ (b = true <-> ext m (eHe e) \/ ext m (tw (eHe e))).
Proof.
  intros V L. eexists. split; [apply eIsBoundary_ok; auto|]. pose proof (cn_ebd _ (va_cn _ V) _ L) as K. unfold ext in *.
  assert (eHe e mod 2 = 0) by (unfold eHe; lia). lia.
Qed.

Lemma vertex_boundary m v : Valid m -> liveV m v ->
  exists b, vIsBoundary m v = Ok b /\ (b = true <-> exists h, liveH m h /\ ve m h = v /\ ext m h) /\
    (b = true <-> exists h, liveH m h /\ ve m (tw h) = v /\ ext m h).
Proof.
  intros V L. pose proof (va_cn _ V) as CN. destruct (cn_vh _ CN v L) as (Lh & Eh).
  exists (fFill m <=? fa m (tw (vh m v))). split; [apply vIsBoundary_ok; auto|].
  set (b := fFill m <=? fa m (tw (vh m v))).
  assert (X : b = true <-> exists h, liveH m h /\ ve m (tw h) = v /\ ext m h).
  { unfold b. split.
    - intros K. exists (tw (vh m v)). split; [apply CN; auto|]. rewrite tw_tw. split; auto. unfold ext. lia.
    - intros (h & Hh & E & X). pose proof (cn_vbd _ CN (tw h)) as K. rewrite tw_tw in K. rewrite E in K. rewrite K by (auto; apply CN; auto).
      rewrite tw_tw. unfold ext in X. lia. }
  split; [|exact X]. rewrite X. split; intros (h & Hh & E & Xh).
  - exists (nx m h). split; [apply CN; auto|]. rewrite (cn_vnx _ CN) by auto. split; auto. unfold ext. rewrite (cn_fnx _ CN) by auto. exact Xh.
  - destruct (prev_ok m V h Hh) as (p & Lp & Np & Fp & _). exists p. split; auto. rewrite <- (cn_vnx _ CN) by auto. rewrite Np. split; auto.
    unfold ext. rewrite Fp. exact Xh.
Qed.

Lemma chain_steps f a l b : chain f a l b -> l <> [] -> hd_error l = Some a /\
  (forall i x y, nth_error l i = Some x -> nth_error l (S i) = Some y -> y = f x) /\ f (last l 0) = b.
Proof.
  revert a. induction l as [|x t IH]; intros a H Hn; [congruence|]. destruct H as [-> H]. split; [reflexivity|].
  destruct t as [|y t'].
  - cbn in H. split; [|exact H]. intros [|i] x0 y0; cbn; [discriminate|]. destruct i; discriminate.
  - destruct (IH _ H ltac:(discriminate)) as (K1 & K2 & K3). split; [|exact K3].
    intros [|i] x0 y0 E1 E2; cbn in E1, E2.
    + injection E1 as <-. injection E2 as <-. injection K1 as ->. reflexivity.
    + eapply K2; eauto.
Qed.

Lemma face_circulator m f : Valid m -> liveFL m f ->
  exists l, faceHalfedges m f = Ok l /\ NoDup l /\ (forall h, In h l <-> liveH m h /\ fa m h = f) /\ hd_error l = Some (fh m f) /\
    (forall i x y, nth_error l i = Some x -> nth_error l (S i) = Some y -> y = nx m x) /\ nx m (last l 0) = fh m f.
Proof.
  intros V H. destruct (faceHalfedges_ok m V f H) as (l & E & N & C & ND & R). exists l. split; auto. split; auto. split; auto.
  apply chain_steps; auto.
Qed.
Lemma vertex_circulator m v : Valid m -> liveV m v ->
  exists l, vertHalfedges m v = Ok l /\ NoDup l /\ (forall h, In h l <-> liveH m h /\ ve m h = v) /\ hd_error l = Some (vh m v) /\
    (forall i x y, nth_error l i = Some x -> nth_error l (S i) = Some y -> y = nx m (tw x)) /\ nx m (tw (last l 0)) = vh m v.
Proof.
  intros V H. destruct (vertHalfedges_ok m V v H) as (l & E & N & C & ND & R). exists l. split; auto. split; auto. split; auto.
  apply (chain_steps (ro m)); auto.
Qed.
Lemma prev_circulator m h : Valid m -> liveH m h ->
  exists p, prevOrbitFace m h = Ok p /\ prevOrbitVertex m h = Ok p /\ liveH m p /\ nx m p = h /\ fa m p = fa m h /\
    forall q, liveH m q -> nx m q = h -> q = p.
Proof.
  intros V H. destruct (prev_ok m V h H) as (p & L & N & F & P1 & P2). exists p. split.
  - apply P2; [intros; apply next_live; auto|]. destruct (va_st _ V). lia.
  - split; auto. split; auto. split; auto. split; auto. intros q Hq E. apply (cn_inj _ (va_cn _ V)); auto. congruence.
Qed.
