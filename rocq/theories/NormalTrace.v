(** Tracing curves on a mesh *)
From Verif Require Import Base MeshModel MeshSpec MeshBase MeshExec MeshOrbit NormalModel NormalSpec NormalProofs.
Open Scope Z_scope.

Section Trace.
Context (m : mesh) (V : Valid m) (coords : list Z) (C : Curves m coords).
Let CN : Connected m := va_cn _ V.
Notation co := (co coords).

Lemma coordAt_ok h : liveH m h -> coordAt coords h = Ok (co h).
Proof.
  intros H. unfold coordAt, NormalSpec.co. apply rdZ_ok. apply liveH_range in H; auto. pose proof (cv_len _ _ C). destruct (va_st _ V) as [_ _ _ _ _ _ S _ _]. unfold edge. lia.
Qed.
Lemma co_tw h : co (tw h) = co h.
Proof. unfold NormalSpec.co. rewrite tw_edge. reflexivity. Qed.
Lemma ext_nx h : liveH m h -> ~ ext m h -> liveH m (nx m h) /\ ~ ext m (nx m h).
Proof. intros H E. split; [apply (cn_nx _ CN); auto|]. unfold ext in *. rewrite (cn_fnx _ CN); auto. Qed.

Lemma tri_corners h t : liveH m h -> ~ ext m h -> triCarries m coords h t ->
  strictCornerAt m coords h = Ok (cI t) /\ strictCornerAt m coords (nx m h) = Ok (cJ t) /\ strictCornerAt m coords (nx m (nx m h)) = Ok (cK t) /\
  strictDegreeAt m coords h = Ok (eI t) /\ strictDegreeAt m coords (nx m h) = Ok (eJ t) /\ strictDegreeAt m coords (nx m (nx m h)) = Ok (eK t).
Proof.
  intros Lh Eh (P & A & B & D). destruct (ext_nx h Lh Eh) as (L1 & E1). destruct (ext_nx _ L1 E1) as (L2 & E2).
  pose proof (cv_tri _ _ C h Lh Eh) as T.
  destruct (corners t (co h) (co (nx m h)) (co (nx m (nx m h)))) as (X1 & X2 & X3 & X4 & X5 & X6); auto; try (apply (cv_small _ _ C); auto).
  unfold strictCornerAt, strictDegreeAt.
  repeat (rewrite coordAt_ok by auto; cbn [bind]). repeat (rewrite (next_live m V) by auto; cbn [bind]; try rewrite T; repeat (rewrite coordAt_ok by auto; cbn [bind])).
  rewrite X1, X2, X3, X4, X5, X6. auto 10.
Qed.
Lemma coordOf_pos n x : coordOf n x -> Z.max n 0 = x.
Proof. intros (a & _ & H). eapply edgeCoord_pos; eauto. Qed.

Lemma step_ok he idx t : crossing m coords (he, idx) -> triCarries m coords (tw he) t ->
  stepTopologicalCurve m coords he idx =
    Ok (match arcNext m t (he, idx) with Some (h', i') => (h', i', false) | None => (tw he, idx, true) end).
Proof.
  intros (Lh & Eh & R) T. cbn in Lh, Eh, R. unfold stepTopologicalCurve, arcNext. cbn [fst snd].
  pose proof (cn_tw _ CN _ Lh) as L0. destruct (ext_nx _ L0 Eh) as (L1 & E1). destruct (ext_nx _ L1 E1) as (L2 & E2).
  destruct (tri_corners _ _ L0 Eh T) as (X1 & X2 & _). destruct T as (P & A & B & D).
  rewrite (next_live m V) by auto. cbn [bind]. rewrite X2, X1. cbn [bind]. rewrite coordAt_ok by auto. cbn [bind].
  unfold positivePart. rewrite (coordOf_pos _ _ A). pose proof (coordOf_pos _ _ A) as A'. rewrite co_tw in A'.
  assert (xIJ t = co he) as XE by lia.
  pose proof (cv_small _ _ C _ Lh) as S1. pose proof (cv_small _ _ C _ L2) as S2. pose proof (coordOf_pos _ _ D) as D'. unfold small in S1, S2.
  destruct P as [P1 P2 P3 P4 P5 P6 _ _ _]. unfold exitAt.
  destruct (idx <? cJ t) eqn:I1.
  - destruct (xIJ t - 1 - idx <? cI t) eqn:J1; [exfalso; unfold xIJ in *; clear - I1 J1 P6; lia|].
    destruct (xIJ t - 1 - idx <? cI t + eK t) eqn:J2; [exfalso; unfold xIJ in *; clear - I1 J2; lia|]. reflexivity.
  - rewrite i32_ok by (unfold xIJ in *; clear - XE S1 P1 P2 P6 R; lia). cbn [bind].
    destruct (xIJ t - cI t <=? idx) eqn:I2.
    + destruct (xIJ t - 1 - idx <? cI t) eqn:J1; [|exfalso; clear - I2 J1; lia].
      rewrite (next_live m V) by auto. cbn [bind]. rewrite coordAt_ok by auto. cbn [bind]. rewrite D'.
      assert (0 <= xKI t <= 134217728) by (clear - D' S2; lia). clear - R XE S1 H.
      rewrite i32_ok by lia. cbn [bind]. rewrite i32_ok by lia. cbn [bind]. match goal with |- Ok (_, ?a, _) = Ok (_, ?b, _) => replace a with b by lia end. reflexivity.
    + destruct (xIJ t - 1 - idx <? cI t) eqn:J1; [exfalso; clear - I2 J1; lia|].
      destruct (xIJ t - 1 - idx <? cI t + eK t) eqn:J2; [reflexivity|exfalso; unfold xIJ in *; clear - I1 J2; lia].
Qed.

(** the next crossing is a crossing of an edge of the triangle entered *)
Lemma next_in he idx t h' i' : crossing m coords (he, idx) -> triCarries m coords (tw he) t -> arcNext m t (he, idx) = Some (h', i') ->
  liveH m h' /\ ~ ext m h' /\ fa m h' = fa m (tw he) /\ 0 <= i' < co h'.
Proof.
  intros (Lh & Eh & R) (P & A & B & D). cbn in Lh, Eh, R. unfold arcNext. cbn [fst snd].
  pose proof (cn_tw _ CN _ Lh) as L0. destruct (ext_nx _ L0 Eh) as (L1 & E1). destruct (ext_nx _ L1 E1) as (L2 & E2).
  pose proof (coordOf_pos _ _ A) as A'. rewrite co_tw in A'. pose proof (coordOf_pos _ _ B) as B'. pose proof (coordOf_pos _ _ D) as D'.
  destruct P as [P1 P2 P3 P4 P5 P6 P7 P8 P9]. unfold exitAt.
  destruct (xIJ t - 1 - idx <? cI t) eqn:J1; [|destruct (xIJ t - 1 - idx <? cI t + eK t) eqn:J2]; intros H; inversion H; subst; clear H.
  - split; auto. split; auto. split; [rewrite !(cn_fnx _ CN); auto|]. unfold xIJ, xKI in *. clear - A' D' R J1 P1 P3 P5. lia.
  - split; auto. split; auto. split; [apply (cn_fnx _ CN); auto|]. unfold xIJ, xJK in *. clear - A' B' R J2 J1 P2 P3 P4. lia.
Qed.

Lemma rot_carries h t : liveH m h -> ~ ext m h -> triCarries m coords h t -> triCarries m coords (nx m h) (rot1 t).
Proof.
  intros L E (P & A & B & D). destruct (rot1_edges t) as (E1 & E2 & E3). split; [apply rot1_planar; auto|]. rewrite E1, E2, E3, (cv_tri _ _ C); auto.
Qed.
(** going back *)
Lemma back he idx t h' i' : crossing m coords (he, idx) -> triCarries m coords (tw he) t -> arcNext m t (he, idx) = Some (h', i') ->
  exists t', triCarries m coords h' t' /\ arcNext m t' (reversed coords (h', i')) = Some (reversed coords (he, idx)).
Proof.
  intros Cr T N. pose proof (next_in _ _ _ _ _ Cr T N) as (L' & E' & _ & R'). destruct Cr as (Lh & Eh & R). cbn in Lh, Eh, R.
  pose proof (cn_tw _ CN _ Lh) as L0. destruct (ext_nx _ L0 Eh) as (L1 & E1). destruct (ext_nx _ L1 E1) as (L2 & E2).
  pose proof (cv_tri _ _ C _ L0 Eh) as TR.
  pose proof (rot_carries _ _ L0 Eh T) as T1. pose proof (rot_carries _ _ L1 E1 T1) as T2.
  unfold reversed. cbn [fst snd]. unfold arcNext in N. cbn [fst snd] in N. destruct T as (P & A & B & D).
  pose proof (coordOf_pos _ _ A) as A'. rewrite co_tw in A'. pose proof (coordOf_pos _ _ B) as B'. pose proof (coordOf_pos _ _ D) as D'.
  pose proof P as PP. destruct PP as [P1 P2 P3 P4 P5 P6 P7 P8 P9]. unfold exitAt in N.
  destruct (xIJ t - 1 - idx <? cI t) eqn:J1; [|destruct (xIJ t - 1 - idx <? cI t + eK t) eqn:J2]; inversion N; subst; clear N.
  - exists (rot1 (rot1 t)). split; auto. unfold arcNext. cbn [fst snd]. rewrite !tw_tw.
    destruct (rot1_edges t) as (F1 & F2 & F3). destruct (rot1_edges (rot1 t)) as (G1 & G2 & G3). rewrite G1, F2.
    unfold exitAt. cbn [cI eK rot1 cJ cK eI eJ].
    assert (co (nx m (nx m (tw he))) = xKI t) as -> by (clear - D' R'; lia). rewrite TR.
    destruct (xKI t - 1 - (xKI t - 1 - (xKI t - 1 - (xIJ t - 1 - idx))) <? cK t) eqn:K1; [exfalso; unfold xIJ, xKI in *; clear - K1 J1 P5; lia|].
    destruct (xKI t - 1 - (xKI t - 1 - (xKI t - 1 - (xIJ t - 1 - idx))) <? cK t + eJ t) eqn:K2; [exfalso; unfold xIJ, xKI in *; clear - K2 J1; lia|].
    f_equal. f_equal. clear - A' R. lia.
  - exists (rot1 t). split; auto. unfold arcNext. cbn [fst snd]. rewrite !tw_tw.
    destruct (rot1_edges t) as (F1 & F2 & F3). rewrite F1, F3.
    unfold exitAt. cbn [cI eK rot1 cJ cK eI eJ].
    assert (co (nx m (tw he)) = xJK t) as -> by (clear - B' R'; lia). rewrite TR.
    destruct (xJK t - 1 - (xJK t - 1 - i') <? cJ t) eqn:K1; [|exfalso; unfold xIJ, xJK in *; clear - K1 J2; lia].
    f_equal. f_equal. clear - A' R. lia.
Qed.
(** the arcs of a triangle are determined by its coordinates, so continuing is deterministic *)
Lemma arcs_unique h t t' : triCarries m coords h t -> triCarries m coords h t' -> t = t'.
Proof.
  intros (P & A & B & D) (Q & A' & B' & D'). apply coordOf_pos in A, B, D, A', B', D'.
  assert (xIJ t = xIJ t') as X1 by congruence. assert (xJK t = xJK t') as X2 by congruence. assert (xKI t = xKI t') as X3 by congruence.
  destruct (degree_I t P) as (I1 & I2), (degree_J t P) as (J1 & J2), (degree_K t P) as (K1 & K2).
  destruct (degree_I t' Q) as (I1' & I2'), (degree_J t' Q) as (J1' & J2'), (degree_K t' Q) as (K1' & K2').
  rewrite X1, X2, X3 in *. assert (eI t = eI t') by congruence. assert (eJ t = eJ t') by congruence. assert (eK t = eK t') by congruence.
  assert (cI t = cI t') by (clear - I2 I2' H H0 H1; lia). assert (cJ t = cJ t') by (clear - J2 J2' H H0 H1; lia). assert (cK t = cK t') by (clear - K2 K2' H H0 H1; lia).
  clear - H H0 H1 H2 H3 H4. destruct t, t'. cbn in *. congruence.
Qed.

Lemma continues_det c d d' : continues m coords c d -> continues m coords c d' -> d = d'.
Proof. intros (t & T & N) (t' & T' & N'). rewrite (arcs_unique _ _ _ T T') in N. congruence. Qed.
Lemma continues_reversed c d : crossing m coords c -> continues m coords c d -> continues m coords (reversed coords d) (reversed coords c).
Proof.
  intros K (t & T & N). destruct c as [h i], d as [h' i']. destruct (back _ _ _ _ _ K T N) as (t' & T' & N'). exists t'. cbn [fst reversed]. rewrite tw_tw. auto.
Qed.
Lemma reversed_inj c d : reversed coords c = reversed coords d -> c = d.
Proof. destruct c, d. unfold reversed. cbn. intros H. injection H as H1 H2. apply tw_inj in H1. subst. f_equal. lia. Qed.
Lemma continues_inj c c' d : crossing m coords c -> crossing m coords c' -> continues m coords c d -> continues m coords c' d -> c = c'.
Proof.
  intros K K' N N'. apply reversed_inj. eapply continues_det; eapply continues_reversed; eauto.
Qed.
Lemma chained_snoc l c d : chained m coords (l ++ [c]) -> continues m coords c d -> chained m coords (l ++ [c; d]).
Proof.
  intros H N l1 a b l2 E. destruct (exists_last (l := b :: l2)) as (l3 & x & F); [discriminate|].
  assert (l ++ [c; d] = (l ++ [c]) ++ [d]) as G by now rewrite <- app_assoc. rewrite G in E.
  destruct l2 as [|y l2] using rev_ind.
  - replace (l1 ++ [a; b]) with ((l1 ++ [a]) ++ [b]) in E by now rewrite <- app_assoc. apply app_inj_tail in E as (E1 & ->). apply app_inj_tail in E1 as (_ & ->). auto.
  - replace (l1 ++ a :: b :: l2 ++ [y]) with ((l1 ++ a :: b :: l2) ++ [y]) in E by now rewrite <- app_assoc. apply app_inj_tail in E as (E1 & _). eapply H; eauto.
Qed.
Lemma bnd_ok h : liveH m h -> ~ ext m h -> eIsBoundary m (edge h) = Ok (fFill m <=? fa m (tw h)).
Proof.
  intros L E. unfold eIsBoundary, isInterior.
  assert (eHe (edge h) = h \/ eHe (edge h) = tw h) as F by (apply edge_eq; apply edge_eHe).
  assert (liveH m (tw (eHe (edge h)))) as L' by (apply (cn_tw _ CN); destruct F as [->| ->]; auto; apply (cn_tw _ CN); auto).
  rewrite faceOf_ok by (apply (liveH_bnd m V) in L'; lia). cbn [bind]. f_equal. rewrite negb_involutive. unfold isLoop.
  pose proof (cn_fa _ CN _ L') as LF. apply (liveFL_nonneg m V) in LF. destruct (fa m (tw (eHe (edge h))) <? 0) eqn:N; [lia|]. cbn [orb].
  destruct F as [F|F]; [now rewrite F|]. rewrite F, tw_tw.
  (* h is odd: its twin is even, hence interior *)
  assert (h mod 2 = 1) as O. { unfold eHe, edge, tw in F. lia. }
  unfold ext in E. assert (~ ext m (tw h)) as E2. { apply (cn_ebd _ CN); [apply (cn_tw _ CN); auto|]. rewrite tw_mod. lia. }
  unfold ext in E2. destruct (fFill m <=? fa m h) eqn:X, (fFill m <=? fa m (tw h)) eqn:Y; auto; lia.
Qed.

Section Loop.
Context (h0 i0 : Z) (K0 : crossing m coords (h0, i0)) (I0 : ~ ext m h0).
Definition slip (c : Z * Z) : Prop := c = (tw h0, i0).
Definition universe : list (Z * Z) := list_prod (zseq (heFill m)) (zseq 134217729).
Lemma in_universe c : crossing m coords c -> In c universe.
Proof.
  intros (L & _ & R). destruct c as [h i]. cbn in *. unfold universe. apply in_prod; apply zseq_In; [apply liveH_range in L; auto|].
  pose proof (cv_small _ _ C _ L). unfold small in H. lia.
Qed.
Lemma traceLoop_ok : forall k l c, chained m coords (l ++ [c]) -> NoDup (l ++ [c]) -> (forall x, In x (l ++ [c]) -> crossing m coords x /\ ~ ext m (fst x)) ->
  hd c l = (h0, i0) -> (length universe <= k + length l)%nat -> forall fuel, (k < fuel)%nat ->
  exists r e tl, traceLoop fuel m coords h0 i0 (fst c) (snd c) = Ok (c :: r ++ tl) /\
    chained m coords (l ++ c :: r) /\ NoDup (l ++ c :: r) /\ (forall x, In x (l ++ c :: r) -> crossing m coords x) /\ e = last r c /\
    (tracedEnd m coords (h0, i0) e tl \/ (ends m coords e /\ slip e /\ tl = [(h0, i0)])).
Proof.
  induction k as [|k IH]; intros l c CH ND CR HD LEN fuel F.
  - exfalso. assert (length (l ++ [c]) <= length universe)%nat as X by (apply NoDup_incl_length; auto; intros x Hx; apply in_universe, CR; auto).
    rewrite app_length in X. cbn [length] in X. lia.
  - destruct fuel as [|fuel]; [lia|]. destruct (CR c) as (K & Ic); [apply in_or_app; right; now left|]. destruct c as [h i]. cbn [fst snd] in *.
    pose proof K as K'. destruct K' as (L & E & R). cbn in L, E, R.
    pose proof (cn_tw _ CN _ L) as L0. destruct (cv_arcs _ _ C _ L0 E) as (t & T).
    cbn [traceLoop]. rewrite coordAt_ok by auto. cbn [bind]. assert (i <? co h = true) as -> by lia. cbn [guard bind].
    rewrite (step_ok h i t K T). cbn [bind]. destruct (arcNext m t (h, i)) as [[h' i']|] eqn:N.
    + destruct (next_in _ _ _ _ _ K T N) as (L' & E' & _ & R'). rewrite bnd_ok by auto. cbn [bind orb].
      assert (continues m coords (h, i) (h', i')) as CO by (exists t; auto).
      destruct ((h' =? h0) && (i' =? i0)) eqn:LP; cbn [orb].
      * assert (h' = h0 /\ i' = i0) as (-> & ->) by lia. exists [], (h, i), [(h0, i0)]. cbn [app last]. split; [reflexivity|]. split; [auto|]. split; [auto|]. split; [intros x Hx; apply CR; auto|]. split; [reflexivity|]. left. constructor. auto.
      * destruct (fFill m <=? fa m (tw h')) eqn:B.
        -- exists [], (h, i), [(h', i')]. cbn [app last]. split; [reflexivity|]. split; [auto|]. split; [auto|]. split; [intros x Hx; apply CR; auto|]. split; [reflexivity|]. left. constructor; auto. unfold ext. cbn. lia.
        -- assert (crossing m coords (h', i')) as K2. { split; [auto|]. split; [unfold ext; cbn; lia|auto]. }
           assert (~ In (h', i') (l ++ [(h, i)])) as NI.
           { intros IN. apply in_split in IN. destruct IN as (l1 & l2 & EQ). destruct l1 as [|a l1] using rev_ind.
             - assert ((h', i') = (h0, i0)) as X by (destruct l; cbn in EQ, HD; congruence). injection X as -> ->. lia.
             - assert (continues m coords a (h', i')) as CA. { eapply CH. rewrite EQ, <- app_assoc. reflexivity. }
               assert (a = (h, i)) as ->.
               { eapply continues_inj; eauto. apply CR. rewrite EQ. rewrite <- app_assoc. apply in_or_app. right. now left. }
               rewrite <- app_assoc in EQ. cbn in EQ. clear IHl1.
               rewrite EQ in ND. assert (In (h, i) ((h', i') :: l2)) as IN2.
               { destruct l2 as [|y l2] using rev_ind.
                 - replace (l1 ++ [(h, i); (h', i')]) with ((l1 ++ [(h, i)]) ++ [(h', i')]) in EQ by now rewrite <- app_assoc. apply app_inj_tail in EQ as (_ & EQ). left. congruence.
                 - replace (l1 ++ (h, i) :: (h', i') :: l2 ++ [y]) with ((l1 ++ (h, i) :: (h', i') :: l2) ++ [y]) in EQ by now rewrite <- app_assoc. apply app_inj_tail in EQ as (_ & EQ). right. apply in_or_app. right. left. congruence. }
               apply NoDup_remove_2 in ND. apply ND. apply in_or_app. right. exact IN2. }
           destruct (IH (l ++ [(h, i)]) (h', i')) with (fuel := fuel) as (r & e & tl & A1 & A2 & A3 & A4 & A5 & A6).
           ++ rewrite <- app_assoc. cbn. apply chained_snoc; auto.
           ++ apply NoDup_rev in ND. rewrite <- (rev_involutive ((l ++ [(h, i)]) ++ [(h', i')])). apply NoDup_rev. rewrite rev_app_distr. cbn.
              constructor; auto. rewrite <- in_rev. auto.
           ++ intros x Hx. apply in_app_or in Hx. destruct Hx as [Hx|[<-|[]]]; auto.
           ++ destruct l; cbn in *; auto.
           ++ rewrite app_length. cbn [length]. lia.
           ++ lia.
           ++ cbn [fst snd] in A1. rewrite A1. cbn [bind]. exists ((h', i') :: r), e, tl. rewrite <- app_assoc in A2, A3, A4. cbn in A2, A3, A4.
              split; auto. split; auto. split; auto. split; auto. split; [|auto]. rewrite A5. clear. destruct r using rev_ind; cbn; auto.
              rewrite last_last. destruct (r ++ [x]) eqn:X; [destruct r; discriminate|]. rewrite <- X. rewrite last_last. auto.
    + assert (ends m coords (h, i)) as EN by (exists t; auto).
      assert (edge (tw h) = edge h) as ET by apply tw_edge. rewrite ET, bnd_ok by auto. cbn [bind].
      assert (fFill m <=? fa m (tw h) = false) as -> by (unfold ext in E; lia). rewrite orb_false_r. cbn [orb].
      destruct ((tw h =? h0) && (i =? i0)) eqn:LP; cbn [orb].
      * assert (tw h = h0 /\ i = i0) as (X & ->) by lia. exists [], (h, i0), [(h0, i0)]. cbn [app last]. rewrite X. split; auto. split; auto. split; auto. split; [intros; apply CR; auto|]. split; auto.
        right. split; auto. split; auto. unfold slip. rewrite <- X, tw_tw. auto.
      * exists [], (h, i), []. cbn [app last]. split; auto. split; auto. split; auto. split; [intros; apply CR; auto|]. split; auto. left. constructor. auto.
Qed.
End Loop.
End Trace.
Lemma step_main m coords he index : Valid m -> Curves m coords -> crossing m coords (he, index) ->
  (ends m coords (he, index) /\ exists h i, stepTopologicalCurve m coords he index = Ok (h, i, true)) \/
  exists h i, continues m coords (he, index) (h, i) /\ stepTopologicalCurve m coords he index = Ok (h, i, false) /\
    liveH m h /\ fa m h = fa m (tw he) /\ 0 <= i < co coords h /\
    stepTopologicalCurve m coords (tw h) (co coords h - 1 - i) = Ok (tw he, co coords he - 1 - index, false).
Proof.
  intros V C K. pose proof K as (L & E & R). cbn in L, E, R. pose proof (cn_tw _ (va_cn _ V) _ L) as L0. destruct (cv_arcs _ _ C _ L0 E) as (t & T).
  pose proof (step_ok m V coords C he index t K T) as S. destruct (arcNext m t (he, index)) as [[h i]|] eqn:N.
  - right. destruct (next_in m V coords he index t h i K T N) as (A1 & A2 & A3 & A4). exists h, i. split; [exists t; auto|]. split; auto. split; auto. split; auto. split; auto.
    destruct (back m V coords C he index t h i K T N) as (t' & T' & N').
    rewrite (step_ok m V coords C (tw h) (co coords h - 1 - i) t').
    + change (tw h, co coords h - 1 - i) with (reversed coords (h, i)). rewrite N'. reflexivity.
    + split; [apply (cn_tw _ (va_cn _ V)); auto|]. cbn [fst snd]. rewrite tw_tw. split; auto. rewrite co_tw. lia.
    + rewrite tw_tw. auto.
  - left. split; [exists t; auto|]. eauto.
Qed.
Lemma trace_mono fuel m coords he index p : topologicalTrace fuel m coords he index = Ok p -> forall fuel', (fuel <= fuel')%nat -> topologicalTrace fuel' m coords he index = Ok p.
Proof.
  unfold topologicalTrace. intros H0 fuel' L0. revert H0 L0.
  assert (forall k h i p, traceLoop k m coords he index h i = Ok p -> forall k', (k <= k')%nat -> traceLoop k' m coords he index h i = Ok p) as MONO.
  { induction k as [|k IH]; intros h i q H k' L; [discriminate|]. destruct k' as [|k']; [lia|]. cbn [traceLoop] in *.
    destruct (coordAt coords h) as [n| |]; cbn [bind] in *; try discriminate. destruct (guard (i <? n)); cbn [bind] in *; try discriminate.
    destruct (stepTopologicalCurve m coords h i) as [[[h' i'] st]| |]; cbn [bind] in *; try discriminate.
    destruct (eIsBoundary m (edge h')) as [b| |]; cbn [bind] in *; try discriminate.
    destruct (st || _ || b); auto. destruct (traceLoop k m coords he index h' i') as [r| |] eqn:Q; cbn [bind] in H; try discriminate.
    rewrite (IH _ _ _ Q k') by lia. exact H. }
  eauto.
Qed.
Lemma trace_main m coords he index : Valid m -> Curves m coords -> crossing m coords (he, index) -> ~ ext m he ->
  exists N l e tl, (forall fuel, (N <= fuel)%nat -> topologicalTrace fuel m coords he index = Ok ((he, index) :: l ++ tl)) /\
    chained m coords ((he, index) :: l) /\ NoDup ((he, index) :: l) /\ (forall c, In c ((he, index) :: l) -> crossing m coords c) /\ e = last l (he, index) /\
    (tracedEnd m coords (he, index) e tl \/ (ends m coords e /\ e = (tw he, index) /\ tl = [(he, index)])).
Proof.
  intros V C K I0. remember (length (universe m)) as N eqn:HN. exists (S N).
  assert (forall fuel, (N < fuel)%nat -> exists r e tl, traceLoop fuel m coords he index he index = Ok ((he, index) :: r ++ tl) /\
    chained m coords ((he, index) :: r) /\ NoDup ((he, index) :: r) /\ (forall x, In x ((he, index) :: r) -> crossing m coords x) /\ e = last r (he, index) /\
    (tracedEnd m coords (he, index) e tl \/ (ends m coords e /\ slip he index e /\ tl = [(he, index)]))) as G.
  { intros fuel F. apply (traceLoop_ok m V coords C he index N [] (he, index)); auto.
    - intros [|? [|? ?]] ? ? ?; discriminate.
    - constructor; [intros []|constructor].
    - intros x [<-|[]]. auto.
    - cbn [length]. lia. }
  destruct (G (S N)) as (r & e & tl & A1 & A2); [lia|]. exists r, e, tl. split; [|exact A2].
  intros fuel F. apply trace_mono with (S N); auto.
Qed.
