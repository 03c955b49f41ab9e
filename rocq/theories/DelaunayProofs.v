(** The flipping loop, for any number type and any policy: when it stops every edge is settled. *)
From Coq Require Import Permutation.
From Verif Require Import Base MeshModel MeshSpec MeshOpSpec MeshBase MeshOrbit MeshExec MeshFlip MeshThms DelaunayModel.
Open Scope Z_scope.

Section Loop.
Context {T : Type} (P : policy T).

Definition tri (m : mesh) (len : Z -> T) (h : Z) : @T3 T := (len (edge h), len (edge (nx m h)), len (edge (nx m (nx m h)))).
Definition sideV m len h := (tri m len h, tri m len (fh m (fa m h))).
Definition badV m len e := pBad P (sideV m len (eHe e)) (sideV m len (tw (eHe e))).
Definition newL m (len : Z -> T) e :=
  let a := eHe e in let b := tw a in pLen P (len (edge (nx m a))) (len (edge (nx m (nx m a)))) (len (edge (nx m b))) (len (edge (nx m (nx m b)))) (len e).
Definition settled m len e := pFixed P e = true \/ badV m len e = false \/ pFin P (newL m len e) = false \/ ~ FlipPre m (eHe e).

Lemma triple_ok m len h : Valid m -> liveH m h -> triple m len h = Ok (tri m len h).
Proof.
  intros V L. unfold triple. rewrite (next_live m V) by auto. cbn [bind]. rewrite (next_live m V) by (apply (cn_nx _ (va_cn _ V)); auto). reflexivity.
Qed.
Lemma sideLens_ok m len h : Valid m -> triangular m -> liveH m h -> ~ ext m h -> sideLens P m len h = Ok (sideV m len h).
Proof.
  intros V TR L X. pose proof (va_cn _ V) as CN. pose proof (va_st _ V) as ST. unfold sideLens. rewrite triple_ok by auto. cbn [bind].
  assert (L2 := cn_nx _ CN _ L). assert (L3 := cn_nx _ CN _ L2).
  rewrite (next_live m V) by auto. cbn [bind]. rewrite (next_live m V) by auto. cbn [bind]. rewrite (next_live m V) by auto. cbn [bind].
  destruct (TR h L X) as (_ & E & _). rewrite E, Z.eqb_refl, orb_true_r. cbn [guard bind].
  rewrite faceOf_ok by (apply (liveH_bnd m V) in L; destruct ST; lia). cbn [bind]. pose proof (cn_fa _ CN h L) as F.
  rewrite fHe_ok by (apply (liveFL_bnd m V) in F; destruct ST; lia). cbn [bind]. rewrite triple_ok; auto. apply (cn_fh _ CN). auto.
Qed.

Lemma flipIfBad_ok m len e : Valid m -> triangular m -> liveH m (eHe e) ->
  (ext m (tw (eHe e)) /\ flipIfBad P m len e = if pThrow P then Throw else Ok None) \/
  (~ ext m (tw (eHe e)) /\ flipIfBad P m len e = Ok None /\ settled m len e) \/
  (~ ext m (tw (eHe e)) /\ pFixed P e = false /\ badV m len e = true /\ pFin P (newL m len e) = true /\ FlipPre m (eHe e) /\
   exists m', flip m e false = Ok (m', true) /\ flipIfBad P m len e = Ok (Some (m', setLen len e (newL m len e)))).
Proof.
  intros V TR L. assert (LT := cn_tw _ (va_cn _ V) _ L). assert (X0 : ~ ext m (eHe e)) by (apply (cn_ebd _ (va_cn _ V)); auto; unfold eHe; lia).
  unfold flipIfBad. rewrite eIsBoundary_ok by auto. cbn [bind].
  destruct (fFill m <=? fa m (tw (eHe e))) eqn:EB; [left; split; [unfold ext; lia|reflexivity]|].
  assert (X : ~ ext m (tw (eHe e))) by (unfold ext; lia). right.
  destruct (pFixed P e) eqn:EF; [left; split; auto; split; auto; left; auto|].
  rewrite !sideLens_ok by auto. cbn [bind]. fold (badV m len e).
  destruct (badV m len e) eqn:EBad; cbn [negb]; [|left; split; auto; split; auto; right; left; auto].
  unfold sideV, tri. rewrite edge_eHe. fold (newL m len e).
  destruct (pFin P (newL m len e)) eqn:EFin; cbn [negb]; [|left; split; auto; split; auto; right; right; left; auto].
  destruct (TR _ L X0) as (_ & _ & N1). destruct (TR _ LT X) as (_ & _ & N2).
  destruct (flip_run m e false V L N1 N2) as [(F & K)|(m' & F & K & _)]; rewrite F; cbn [bind].
  - left. split; auto. split; auto. right. right. right. destruct K as [K|(K & _)]; [auto|discriminate].
  - right. split; [exact X|]. split; [auto|]. split; [auto|]. split; [auto|]. split; [exact K|]. exists m'. auto.
Qed.

(** ** one flip *)
Section Step.
Context (m m' : mesh) (e : Z).
Context (V : Valid m) (TR : triangular m) (FP : FlipPre m (eHe e)) (FL : flip m e false = Ok (m', true)).
Let a1 := eHe e. Let a2 := nx m a1. Let a3 := nx m a2. Let b1 := tw a1. Let b2 := nx m b1. Let b3 := nx m b2.

Lemma step_eff : FlipEff m m' a1 a2 a3 b1 b2 b3.
Proof.
  destruct FP as [L1 Ia Ib Ta Tb Ma Mb D1 D2]. destruct (flip_run m e false V L1 Ma Mb) as [(F & _)|(m1 & F & _ & K & _)]; [congruence|].
  rewrite FL in F. injection F as <-. exact K.
Qed.
Lemma step_valid : Valid m'.
Proof. exact (flip_valid m m' a1 V FP step_eff). Qed.
Lemma step_same : counts m' = counts m /\ same_elements m m'.
Proof.
  destruct FP as [L1 Ia Ib Ta Tb Ma Mb D1 D2]. destruct (flip_spec m e false V L1 Ma Mb) as (m1 & ok & F & _ & _ & _ & K).
  rewrite FL in F. injection F as <- <-. destruct (K eq_refl) as (K1 & K2 & _). auto.
Qed.
Definition beside h := h = a1 \/ h = a2 \/ h = a3 \/ h = b1 \/ h = b2 \/ h = b3.
Lemma beside_face h : liveH m h -> (beside h <-> fa m h = fa m a1 \/ fa m h = fa m b1).
Proof.
  intros L. destruct FP as [L1 Ia Ib Ta Tb Ma Mb D1 D2]. assert (LB : liveH m b1) by (apply (va_cn _ V); auto).
  destruct (tri_facts m V a1 L1 Ta Ma) as (_ & _ & _ & _ & _ & _ & FA2 & FA3 & FA). destruct (tri_facts m V b1 LB Tb Mb) as (_ & _ & _ & _ & _ & _ & FB2 & FB3 & FB).
  fold a2 a3 in FA2, FA3, FA. fold b2 b3 in FB2, FB3, FB. unfold beside. split.
  - intros [->|[->|[->|[->|[->| ->]]]]]; auto.
  - intros [H|H]; [destruct (FA h L H) as [->|[->| ->]]|destruct (FB h L H) as [->|[->| ->]]]; tauto.
Qed.
Lemma away_next h : liveH m h -> ~ beside h -> ~ beside (nx m h).
Proof. intros L N. rewrite beside_face in * by (auto; apply (va_cn _ V); auto). rewrite (cn_fnx _ (va_cn _ V)) by auto. auto. Qed.
Lemma away_nx h : ~ beside h -> nx m' h = nx m h.
Proof. intros N. apply (fe_nx _ _ _ _ _ _ _ _ step_eff); intros C; apply N; unfold beside; tauto. Qed.
Lemma away_fa h : ~ beside h -> fa m' h = fa m h.
Proof. intros N. apply (fe_fa _ _ _ _ _ _ _ _ step_eff); intros C; apply N; unfold beside; tauto. Qed.
Lemma step_fa h : liveH m h -> beside h -> fa m' h = fa m a1 \/ fa m' h = fa m b1.
Proof.
  intros L B. pose proof step_eff as E. apply beside_face in B; auto.
  destruct (Z.eq_dec h a3) as [->|N3]; [right; apply (fe_fa1 _ _ _ _ _ _ _ _ E)|]. destruct (Z.eq_dec h b3) as [->|N3']; [left; apply (fe_fa2 _ _ _ _ _ _ _ _ E)|].
  rewrite (fe_fa _ _ _ _ _ _ _ _ E) by auto. auto.
Qed.
Lemma step_ext h : liveH m h -> (ext m' h <-> ext m h).
Proof.
  intros L. assert (S : fFill m' = fFill m). { pose proof (fe_scal _ _ _ _ _ _ _ _ step_eff) as S. unfold scal in S. injection S as S1 S2 S3 S4 S5 S6 S7 S8 S9 S10 S11 S12 S13 S14 S15. auto. }
  unfold ext. rewrite S. assert (D : beside h \/ ~ beside h) by (unfold beside; destruct (Z.eq_dec h a1), (Z.eq_dec h a2), (Z.eq_dec h a3), (Z.eq_dec h b1), (Z.eq_dec h b2), (Z.eq_dec h b3); tauto).
  destruct D as [D|D]; [|rewrite away_fa by auto; tauto].
  pose proof (step_fa h L D) as Q. apply beside_face in D; auto. destruct FP as [_ Ia Ib _]. unfold ext in Ia, Ib. fold a1 in Ia, Ib. fold b1 in Ib. clear -Ia Ib Q D. destruct Q as [-> | ->], D as [-> | ->]; tauto.
Qed.
Lemma beside_dec h : beside h \/ ~ beside h.
Proof. unfold beside; destruct (Z.eq_dec h a1), (Z.eq_dec h a2), (Z.eq_dec h a3), (Z.eq_dec h b1), (Z.eq_dec h b2), (Z.eq_dec h b3); tauto. Qed.
Lemma step_next : nx m' a1 = b3 /\ nx m' b3 = a2 /\ nx m' a2 = a1 /\ nx m' b1 = a3 /\ nx m' a3 = b2 /\ nx m' b2 = b1.
Proof. destruct step_eff. auto 10. Qed.
Lemma step_tri : triangular m'.
Proof.
  destruct step_same as (_ & SL & _). destruct (flip_six m e V FP) as (_ & D). fold a1 a2 a3 b1 b2 b3 in D.
  intros h L' X'. assert (L : liveH m h) by (apply SL; auto). assert (X : ~ ext m h) by (rewrite <- step_ext; auto).
  split; auto. destruct step_next as (E1 & E2 & E3 & E4 & E5 & E6). destruct (beside_dec h) as [B|B].
  - clearbody a1 a2 a3 b1 b2 b3. destruct B as [->|[->|[->|[->|[->| ->]]]]]; rewrite ?E1, ?E2, ?E3, ?E4, ?E5, ?E6, ?E1, ?E2, ?E3, ?E4, ?E5, ?E6; split; try reflexivity; intros C; rewrite C in *; tauto.
  - assert (L2 := cn_nx _ (va_cn _ V) _ L). assert (N2 := away_next h L B). assert (N3 := away_next _ L2 N2).
    rewrite (away_nx h B), (away_nx _ N2), (away_nx _ N3). destruct (TR h L X) as (_ & Q). exact Q.
Qed.
Lemma step_pre x : liveH m (eHe x) -> ~ beside (eHe x) -> ~ beside (tw (eHe x)) -> FlipPre m' (eHe x) -> FlipPre m (eHe x).
Proof.
  intros L N1 N2 [Q1 Q2 Q3 Q4 Q5 Q6 Q7 Q8 Q9]. assert (LT := cn_tw _ (va_cn _ V) _ L).
  assert (LA := cn_nx _ (va_cn _ V) _ L). assert (NA := away_next _ L N1). assert (NA2 := away_next _ LA NA).
  assert (LB := cn_nx _ (va_cn _ V) _ LT). assert (NB := away_next _ LT N2). assert (NB2 := away_next _ LB NB).
  rewrite ?(away_nx _ N1), ?(away_nx _ N2), ?(away_nx _ NA), ?(away_nx _ NB), ?(away_nx _ NA2), ?(away_nx _ NB2) in *.
  rewrite step_ext in Q2, Q3 by auto. split; auto.
Qed.
Context (len : Z -> T) (l : T).
Lemma away_len h : ~ beside h -> setLen len e l (edge h) = len (edge h).
Proof.
  intros N. unfold setLen. destruct (Z.eqb_spec (edge h) e) as [E|]; [|auto]. exfalso. apply N. rewrite <- (edge_eHe e) in E. apply edge_eq in E as [->| ->]; unfold beside; tauto.
Qed.
Lemma away_tri h : liveH m h -> ~ beside h -> tri m' (setLen len e l) h = tri m len h.
Proof.
  intros L N. assert (L2 := cn_nx _ (va_cn _ V) _ L). assert (N2 := away_next h L N). assert (N3 := away_next _ L2 N2).
  unfold tri. rewrite (away_nx h N), (away_nx _ N2), !away_len by auto. reflexivity.
Qed.
Lemma away_side h : liveH m h -> ~ beside h -> sideV m' (setLen len e l) h = sideV m len h.
Proof.
  intros L N. unfold sideV. rewrite away_tri, away_fa by auto. pose proof N as N'. rewrite beside_face in N' by auto.
  assert (E : fh m' (fa m h) = fh m (fa m h)) by (apply (fe_fh _ _ _ _ _ _ _ _ step_eff); intros C; apply N'; auto). rewrite E.
  destruct (cn_fh _ (va_cn _ V) (fa m h) (cn_fa _ (va_cn _ V) _ L)) as [G1 G2]. rewrite away_tri; auto. rewrite beside_face, G2 by auto. auto.
Qed.
Lemma step_settled x : liveH m (eHe x) -> ~ beside (eHe x) -> ~ beside (tw (eHe x)) -> settled m len x -> settled m' (setLen len e l) x.
Proof.
  intros L N1 N2 S. assert (LT := cn_tw _ (va_cn _ V) _ L). unfold settled in *. destruct S as [S|[S|[S|S]]]; [left; auto|right; left|right; right; left|right; right; right; intros C; apply S; apply step_pre; auto].
  - unfold badV. rewrite !away_side by auto. exact S.
  - pose proof (away_tri _ L N1) as E1. pose proof (away_tri _ LT N2) as E2. unfold tri in E1, E2. injection E1 as E11 E12 E13. injection E2 as E21 E22 E23.
    unfold newL in *. rewrite E12, E13, E22, E23. rewrite edge_eHe in E11. rewrite E11. exact S.
Qed.
(** the four sides of the diamond, seen from the flipped edge *)
Lemma step_neigh : let he := eHe e in
  [edge (nx m' he); edge (nx m' (nx m' he)); edge (nx m' (tw he)); edge (nx m' (nx m' (tw he)))] = [edge b3; edge a2; edge a3; edge b2].
Proof. cbv zeta. fold a1 b1. destruct step_next as (-> & -> & _ & -> & -> & _). reflexivity. Qed.
Lemma step_lens : let len' := setLen len e l in
  len' e = l /\ (forall h, h <> a1 -> h <> b1 -> len' (edge h) = len (edge h)) /\
  tri m' len' a1 = (l, len (edge b3), len (edge a2)) /\ tri m' len' b1 = (l, len (edge a3), len (edge b2)).
Proof.
  cbv zeta. assert (H0 : setLen len e l e = l) by (unfold setLen; rewrite Z.eqb_refl; auto).
  assert (H1 : forall h, h <> a1 -> h <> b1 -> setLen len e l (edge h) = len (edge h)).
  { intros h N1 N2. unfold setLen. destruct (Z.eqb_spec (edge h) e) as [E|]; [|auto]. exfalso. rewrite <- (edge_eHe e) in E. apply edge_eq in E as [E|E]; auto. }
  split; auto. split; auto. destruct (flip_six m e V FP) as (_ & D). fold a1 a2 a3 b1 b2 b3 in D. destruct step_next as (E1 & E2 & _ & E4 & E5 & _).
  unfold tri. rewrite E1, E2, E4, E5. assert (EA : edge a1 = e) by apply edge_eHe. assert (EB : edge b1 = e) by (rewrite <- EA; apply edge_eq; right; reflexivity).
  rewrite EA, EB, H0. rewrite !H1; [auto| | | | | | | |]; intros C; first [tauto | symmetry in C; tauto].
Qed.
End Step.

(** ** the queue *)
Lemma liveH_eHe m h : Valid m -> liveH m h -> liveH m (eHe (edge h)).
Proof.
  intros V L. assert (eHe (edge h) = h \/ eHe (edge h) = tw h) as [-> | ->] by (apply edge_eq; apply edge_eHe); auto. apply (cn_tw _ (va_cn _ V)); auto.
Qed.
Definition QI (m : mesh) (q : list Z) (inq : Z -> bool) : Prop :=
  NoDup q /\ (forall x, In x q -> liveH m (eHe x)) /\ (forall x, liveH m (eHe x) -> (inq x = true <-> In x q)).
Lemma enqueue_ok m q inq e : liveH m (eHe e) -> QI m q inq ->
  let st := enqueue (q, inq) e in QI m (fst st) (snd st) /\ (forall x, In x (fst st) <-> In x q \/ x = e).
Proof.
  intros L (ND & QL & QE). unfold enqueue. cbv zeta. destruct (inq e) eqn:E; cbn [fst snd].
  - split; [split; auto|]. intros x. split; auto. intros [H| ->]; auto. apply QE; auto.
  - assert (NI : ~ In e q) by (rewrite <- (QE e L); congruence).
    assert (IN : forall x, In x (q ++ [e]) <-> In x q \/ x = e) by (intros x; rewrite in_app_iff; cbn; intuition congruence).
    split; auto. split; [apply (Permutation_NoDup (Permutation_cons_append q e)); constructor; auto|]. split.
    + intros x H. apply IN in H as [H| ->]; auto.
    + intros x Lx. rewrite IN. destruct (Z.eqb_spec x e) as [->|N]; [tauto|]. rewrite (QE x Lx). intuition congruence.
Qed.
Lemma enqueue_all m es : forall q inq, (forall e, In e es -> liveH m (eHe e)) -> QI m q inq ->
  let st := fold_left enqueue es (q, inq) in QI m (fst st) (snd st) /\ (forall x, In x (fst st) <-> In x q \/ In x es).
Proof.
  induction es as [|e es IH]; intros q inq L Q; cbn [fold_left]; cbv zeta.
  - split; auto. intros x. cbn. tauto.
  - destruct (enqueue_ok m q inq e (L e (or_introl eq_refl)) Q) as (Q' & E). destruct (enqueue (q, inq) e) as (q', inq'). cbn [fst snd] in Q', E.
    destruct (IH q' inq' (fun e' H => L e' (or_intror H)) Q') as (Q2 & E2). split; auto. intros x. rewrite E2, E. cbn. intuition auto.
Qed.
Lemma pop_QI m e q inq : QI m (e :: q) inq -> QI m q (fun x => if x =? e then false else inq x).
Proof.
  intros (ND & QL & QE). inversion ND as [|? ? N1 N2]; subst. split; auto. split; [intros x H; apply QL; right; auto|].
  intros x L. destruct (Z.eqb_spec x e) as [->|N]; [split; [discriminate|tauto]|]. rewrite (QE x L). cbn. intuition congruence.
Qed.
Lemma liveEdges_in m : Valid m -> forall e, In e (liveEdges m) <-> liveH m (eHe e).
Proof.
  intros V e. unfold liveEdges. rewrite filter_In. pose proof (va_st _ V) as ST. destruct (st_edge _ ST) as (E & _).
  rewrite zseq_In. unfold liveH, eHe, nx, INVALID. rewrite negb_true_iff, Z.eqb_neq. lia.
Qed.
Lemma liveEdges_QI m : Valid m -> QI m (liveEdges m) (fun _ => true).
Proof.
  intros V. split; [apply NoDup_filter, zseq_NoDup|]. split; intros x; [apply liveEdges_in; auto|]. intros L. split; auto. intros _. apply liveEdges_in; auto.
Qed.

(** ** what stays the same *)
Definition Rel (m : mesh) (len : Z -> T) (m' : mesh) (len' : Z -> T) : Prop :=
  same_elements m m' /\ counts m' = counts m /\ (forall h, liveH m h -> (ext m' h <-> ext m h)) /\
  (forall h, liveH m h -> pFixed P (edge h) = true \/ ext m h \/ ext m (tw h) -> ve m' h = ve m h /\ len' (edge h) = len (edge h)).
Lemma Rel_refl m len : Rel m len m len.
Proof. unfold Rel, same_elements. split; [split; [tauto|split; tauto]|]. split; [reflexivity|]. split; [tauto|auto]. Qed.
Lemma Rel_trans m0 l0 m1 l1 m2 l2 : Valid m0 -> Rel m0 l0 m1 l1 -> Rel m1 l1 m2 l2 -> Rel m0 l0 m2 l2.
Proof.
  intros V (S & C & X & K) (S' & C' & X' & K'). destruct S as (S1 & S2 & S3). destruct S' as (S1' & S2' & S3').
  split. { split; [intros h; rewrite S1'; auto|]. split; intros h; [rewrite S2'|rewrite S3']; auto. }
  split; [congruence|]. split.
  - intros h L. rewrite X' by (apply S1; auto). auto.
  - intros h L H. destruct (K h L H) as (E1 & E2). destruct (K' h) as (E3 & E4); [apply S1; auto| |split; congruence].
    assert (LT := cn_tw _ (va_cn _ V) _ L). rewrite !X by auto. auto.
Qed.

(** ** the loop *)
Section Rule.
Context (Good : @T3 T -> Prop).
Definition rotated (s t : @T3 T) : Prop := let '(x, y, z) := s in t = (x, y, z) \/ t = (y, z, x) \/ t = (z, x, y).
Context (Hrot : forall x y z, Good (x, y, z) -> Good (y, z, x)).
Context (Hrule : forall l02 l01 l12 l23 l30 ta tb, Good (l02, l01, l12) -> Good (l02, l23, l30) ->
  rotated (l02, l01, l12) ta -> rotated (l02, l23, l30) tb -> pBad P ((l02, l01, l12), ta) ((l02, l23, l30), tb) = true ->
  let x := pLen P l01 l12 l23 l30 l02 in pFin P x = true ->
  Good (x, l30, l01) /\ Good (x, l12, l23) /\ pBad P ((x, l30, l01), (x, l30, l01)) ((x, l12, l23), (x, l12, l23)) = false).
Definition GoodM (m : mesh) (len : Z -> T) : Prop := forall h, liveH m h -> ~ ext m h -> Good (tri m len h).

Lemma side_rot m len h : Valid m -> triangular m -> liveH m h -> ~ ext m h -> rotated (tri m len h) (tri m len (fh m (fa m h))).
Proof.
  intros V TR L X. destruct (TR h L X) as (_ & E3 & N). destruct (tri_facts m V h L E3 N) as (_ & _ & _ & _ & _ & _ & _ & _ & K).
  destruct (cn_fh _ (va_cn _ V) (fa m h) (cn_fa _ (va_cn _ V) _ L)) as [G1 G2].
  unfold rotated, tri. destruct (K _ G1 G2) as [->|[->| ->]]; rewrite ?E3; auto.
Qed.

Lemma flip_step m m' len e : Valid m -> triangular m -> GoodM m len -> liveH m (eHe e) -> pFixed P e = false -> badV m len e = true ->
  pFin P (newL m len e) = true -> FlipPre m (eHe e) -> flip m e false = Ok (m', true) ->
  let len' := setLen len e (newL m len e) in
  Valid m' /\ triangular m' /\ GoodM m' len' /\ Rel m len m' len' /\ settled m' len' e.
Proof.
  intros V TR G L FX BAD FIN FP FL len'. set (l := newL m len e) in *. pose proof FP as [_ Ia Ib Ta Tb Ma Mb D1 D2].
  assert (LT := cn_tw _ (va_cn _ V) _ L).
  destruct (step_same m m' e V FP FL) as (SC & SE). destruct (step_lens m m' e V FP FL len l) as (Le & Lo & T1 & T2). fold len' in Le, Lo, T1, T2.
  pose proof (step_next m m' e V FP FL) as (E1 & E2 & E3 & E4 & E5 & E6). pose proof (step_eff m m' e V FP FL) as EFF.
  assert (SX : forall h, liveH m h -> (ext m' h <-> ext m h)) by (intros h Lh; apply (step_ext m m' e V FP FL h Lh)).
  pose proof (side_rot m len _ V TR L Ia) as R1. pose proof (side_rot m len _ V TR LT Ib) as R2.
  pose proof (G _ L Ia) as GA. pose proof (G _ LT Ib) as GB.
  assert (EB : edge (tw (eHe e)) = e) by (rewrite <- (edge_eHe e) at 2; apply edge_eq; auto).
  unfold badV, sideV in BAD. revert R1 R2 GA GB BAD.
  set (ta := tri m len (fh m (fa m (eHe e)))). set (tb := tri m len (fh m (fa m (tw (eHe e))))). unfold tri. rewrite edge_eHe, EB. intros R1 R2 GA GB BAD.
  destruct (Hrule _ _ _ _ _ _ _ GA GB R1 R2 BAD FIN) as (G1 & G2 & B). change (pLen P _ _ _ _ _) with l in G1, G2, B.
  rewrite <- T1 in G1. rewrite <- T2 in G2.
  split; [eapply step_valid; eauto|]. split; [eapply step_tri; eauto|]. split; [|split].
  - intros h Lh Xh. assert (Lh0 : liveH m h) by (apply (proj1 SE); auto). assert (Xh0 : ~ ext m h) by (rewrite <- SX; auto).
    destruct (beside_dec m e h) as [Bh|Bh]; [|rewrite (away_tri m m' e V FP FL len l) by auto; apply G; auto].
    assert (RT : forall y, Good (tri m' len' y) -> nx m' (nx m' (nx m' y)) = y -> Good (tri m' len' (nx m' y))).
    { intros y Q Ey. unfold tri in *. rewrite Ey. apply Hrot. exact Q. }
    assert (N1 : Good (tri m' len' (nx m (nx m (tw (eHe e)))))) by (rewrite <- E1; apply RT; auto; rewrite E1, E2, E3; auto).
    assert (N2 : Good (tri m' len' (nx m (eHe e)))) by (rewrite <- E2; apply RT; auto; rewrite E2, E3, E1; auto).
    assert (N3 : Good (tri m' len' (nx m (nx m (eHe e))))) by (rewrite <- E4; apply RT; auto; rewrite E4, E5, E6; auto).
    assert (N4 : Good (tri m' len' (nx m (tw (eHe e))))) by (rewrite <- E5; apply RT; auto; rewrite E5, E6, E4; auto).
    destruct Bh as [->|[->|[->|[->|[->| ->]]]]]; auto.
  - split; auto. split; auto. split; auto. intros h Lh H.
    assert (h <> eHe e) by (intros ->; rewrite edge_eHe in H; destruct H as [H|[H|H]]; [congruence|auto|auto]).
    assert (h <> tw (eHe e)) by (intros ->; rewrite EB, tw_tw in H; destruct H as [H|[H|H]]; [congruence|auto|auto]).
    split; [apply (fe_ve _ _ _ _ _ _ _ _ EFF); auto|apply Lo; auto].
  - right. left. unfold badV, sideV.
    assert (FD : fa m (tw (eHe e)) <> fa m (eHe e)) by (apply (flip_six m e V FP)).
    assert (F1 : fa m' (eHe e) = fa m (eHe e)). { destruct (flip_six m e V FP) as (_ & K). apply (fe_fa _ _ _ _ _ _ _ _ EFF); tauto. }
    assert (F2 : fa m' (tw (eHe e)) = fa m (tw (eHe e))). { destruct (flip_six m e V FP) as (_ & K). apply (fe_fa _ _ _ _ _ _ _ _ EFF); intros C; [|tauto]; symmetry in C; tauto. }
    rewrite F1, F2, (fe_fh1 _ _ _ _ _ _ _ _ EFF), (fe_fh2 _ _ _ _ _ _ _ _ EFF), T1, T2. exact B.
Qed.

Lemma drain_ok fuel : forall m len q inq n, Valid m -> triangular m -> GoodM m len -> QI m q inq ->
  (forall x, liveH m (eHe x) -> ~ ext m (tw (eHe x)) -> ~ In x q -> settled m len x) ->
  drain P fuel m len q inq n = Ok None \/
  (pThrow P = true /\ (exists e, liveH m (eHe e) /\ ext m (tw (eHe e))) /\ drain P fuel m len q inq n = Throw) \/
  (exists m' len' n', drain P fuel m len q inq n = Ok (Some (m', len', n')) /\ Valid m' /\ triangular m' /\ GoodM m' len' /\ Rel m len m' len' /\ n <= n' /\
    (n' = n -> m' = m /\ len' = len) /\
    (forall x, liveH m' (eHe x) -> ~ ext m' (tw (eHe x)) -> settled m' len' x)).
Proof.
  induction fuel as [|k IH]; intros m len q inq n V TR G Q S.
  - destruct q as [|e q]; cbn [drain]; [|auto]. right. right. exists m, len, n. split; auto. do 3 (split; [assumption|]). split; [apply Rel_refl|]. split; [lia|]. split; [auto|]. intros x Lx Xx. apply S; auto.
  - destruct q as [|e q]; cbn [drain]. { right. right. exists m, len, n. split; auto. do 3 (split; [assumption|]). split; [apply Rel_refl|]. split; [lia|]. split; [auto|]. intros x Lx Xx. apply S; auto. }
    assert (L : liveH m (eHe e)) by (apply (proj1 (proj2 Q)); left; auto). pose proof (pop_QI _ _ _ _ Q) as Q'.
    destruct (flipIfBad_ok m len e V TR L) as [(X & F)|[(X & F & St)|(X & FX & BAD & FIN & FP & m' & FL & F)]].
    + rewrite F. destruct (pThrow P) eqn:ET; cbn [bind]. { right. left. split; auto. split; auto. exists e; auto. }
      apply (IH m len q _ n V TR G Q'). intros x Lx Xx NI. destruct (Z.eq_dec x e) as [->|N]; [contradiction|]. apply S; auto. intros [C|C]; auto.
    + rewrite F. cbn [bind]. apply (IH m len q _ n V TR G Q'). intros x Lx Xx NI. destruct (Z.eq_dec x e) as [->|N]; [auto|]. apply S; auto. intros [C|C]; auto.
    + rewrite F. cbn [bind]. set (len' := setLen len e (newL m len e)).
      destruct (flip_step m m' len e V TR G L FX BAD FIN FP FL) as (V' & TR' & G' & R' & St). fold len' in G', R', St.
      assert (L' : liveH m' (eHe e)) by (apply (proj1 (proj1 R')); auto). assert (LT' := cn_tw _ (va_cn _ V') _ L').
      assert (LA := cn_nx _ (va_cn _ V') _ L'). assert (LB := cn_nx _ (va_cn _ V') _ LT').
      rewrite !(next_live m' V') by auto. cbn [bind]. rewrite !(next_live m' V') by auto. cbn [bind]. cbv zeta.
      pose proof (step_neigh m m' e V FP FL) as NB. cbv zeta in NB. rewrite NB.
      assert (LE : forall x, In x [edge (nx m (nx m (tw (eHe e)))); edge (nx m (eHe e)); edge (nx m (nx m (eHe e))); edge (nx m (tw (eHe e)))] -> liveH m (eHe x)).
      { assert (LT := cn_tw _ (va_cn _ V) _ L). assert (A2 := cn_nx _ (va_cn _ V) _ L). assert (B2 := cn_nx _ (va_cn _ V) _ LT). assert (A3 := cn_nx _ (va_cn _ V) _ A2). assert (B3 := cn_nx _ (va_cn _ V) _ B2).
        intros x [<-|[<-|[<-|[<-|[]]]]]; apply liveH_eHe; auto. }
      assert (Q2 : QI m' q (fun x => if x =? e then false else inq x)).
      { destruct Q' as (Q1 & Q2 & Q3). split; auto. split; intros x H; [apply (proj1 (proj1 R'))|apply Q3, (proj1 (proj1 R'))]; auto. }
      destruct (enqueue_all m' _ q (fun x => if x =? e then false else inq x) (fun x H => proj2 (proj1 (proj1 R') _) (LE x H)) Q2) as (Q3 & IN).
      destruct (fold_left enqueue _ _) as (q', inq'). cbn [fst snd] in Q3, IN.
      assert (S' : forall x, liveH m' (eHe x) -> ~ ext m' (tw (eHe x)) -> ~ In x q' -> settled m' len' x).
      { intros x Lx Xx NI. destruct (Z.eq_dec x e) as [->|Ne]; auto. rewrite IN in NI.
        assert (Lx0 : liveH m (eHe x)) by (apply (proj1 (proj1 R')); auto). assert (LT0 := cn_tw _ (va_cn _ V) _ Lx0).
        assert (NBs : forall h, edge h = x -> ~ beside m e h).
        { intros h Eh [->|[->|[->|[->|[->| ->]]]]].
          - apply Ne. rewrite <- Eh. apply edge_eHe.
          - apply NI. right. rewrite <- Eh. cbn [In]. auto.
          - apply NI. right. rewrite <- Eh. cbn [In]. auto.
          - apply Ne. rewrite <- Eh. rewrite <- (edge_eHe e) at 2. apply edge_eq; auto.
          - apply NI. right. rewrite <- Eh. cbn [In]. auto.
          - apply NI. right. rewrite <- Eh. cbn [In]. auto. }
        assert (N1 : ~ beside m e (eHe x)) by (apply NBs, edge_eHe).
        assert (N2 : ~ beside m e (tw (eHe x))) by (apply NBs; rewrite <- (edge_eHe x) at 2; apply edge_eq; auto).
        apply (step_settled m m' e V FP FL len _ x Lx0 N1 N2). apply S; auto.
        - rewrite <- (proj1 (proj2 (proj2 R'))) by auto. auto.
        - intros [C|C]; [congruence|]. apply NI. auto. }
      destruct (IH m' len' q' inq' (n + 1) V' TR' G' Q3 S') as [D|[(D1 & (x & D2 & D3) & D4)|(m2 & len2 & n2 & D1 & D2 & D3 & D4 & D5 & D6 & D7 & D8)]].
      * auto.
      * right. left. split; auto. split; auto. assert (Lx0 : liveH m (eHe x)) by (apply (proj1 (proj1 R')); auto). exists x. split; auto.
        rewrite <- (proj1 (proj2 (proj2 R'))) by (apply (va_cn _ V); auto). auto.
      * right. right. exists m2, len2, n2. split; auto. split; auto. split; auto. split; auto. split; [eapply Rel_trans; eauto|]. split; [lia|]. split; [lia|auto].
Qed.

Theorem flipLoop_ok fuel m len : Valid m -> triangular m -> GoodM m len ->
  flipLoop P fuel m len = Ok None \/
  (pThrow P = true /\ (exists e, liveH m (eHe e) /\ ext m (tw (eHe e))) /\ flipLoop P fuel m len = Throw) \/
  (exists m' len' n', flipLoop P fuel m len = Ok (Some (m', len', n')) /\ Valid m' /\ triangular m' /\ GoodM m' len' /\ Rel m len m' len' /\ 0 <= n' /\
    (n' = 0 -> m' = m /\ len' = len) /\
    (forall x, liveH m' (eHe x) -> ~ ext m' (tw (eHe x)) -> settled m' len' x)).
Proof.
  intros V TR G. apply (drain_ok fuel m len (liveEdges m) _ 0 V TR G (liveEdges_QI m V)).
  intros x L _ N. exfalso. apply N. apply liveEdges_in; auto.
Qed.
End Rule.
(** under a policy that raises an error at a boundary edge, a mesh with boundary never gets through *)
Lemma drain_boundary fuel : forall m len q inq n e0, pThrow P = true -> Valid m -> triangular m -> QI m q inq -> liveH m (eHe e0) -> ext m (tw (eHe e0)) -> In e0 q ->
  drain P fuel m len q inq n = Ok None \/ drain P fuel m len q inq n = Throw.
Proof.
  induction fuel as [|k IH]; intros m len q inq n e0 PT V TR Q L0 X0 I0; (destruct q as [|e q]; [destruct I0|]); cbn [drain]; auto.
  assert (L : liveH m (eHe e)) by (apply (proj1 (proj2 Q)); left; auto). pose proof (pop_QI _ _ _ _ Q) as Q'.
  assert (I1 : ~ ext m (tw (eHe e)) -> In e0 q) by (intros X; destruct I0 as [->|]; [contradiction|auto]).
  destruct (flipIfBad_ok m len e V TR L) as [(X & F)|[(X & F & St)|(X & FX & BAD & FIN & FP & m' & FL & F)]]; rewrite F; [rewrite PT; auto| |]; cbn [bind].
  { apply (IH m len q _ n e0); auto. }
  assert (V' := step_valid m m' e V FP FL). assert (TR' := step_tri m m' e V TR FP FL). destruct (step_same m m' e V FP FL) as (_ & SL & _).
  assert (L' : liveH m' (eHe e)) by (apply SL; auto). assert (LT' := cn_tw _ (va_cn _ V') _ L').
  assert (LA := cn_nx _ (va_cn _ V') _ L'). assert (LB := cn_nx _ (va_cn _ V') _ LT').
  rewrite !(next_live m' V') by auto. cbn [bind]. rewrite !(next_live m' V') by auto. cbn [bind]. cbv zeta.
  assert (LE : forall x, In x [edge (nx m' (eHe e)); edge (nx m' (nx m' (eHe e))); edge (nx m' (tw (eHe e))); edge (nx m' (nx m' (tw (eHe e))))] -> liveH m' (eHe x))
    by (assert (LA2 := cn_nx _ (va_cn _ V') _ LA); assert (LB2 := cn_nx _ (va_cn _ V') _ LB); intros x [<-|[<-|[<-|[<-|[]]]]]; apply liveH_eHe; auto).
  assert (Q2 : QI m' q (fun x => if x =? e then false else inq x)) by (destruct Q' as (Q1 & Q2 & Q3); split; auto; split; intros x Hx; [apply SL|apply Q3, SL]; auto).
  destruct (enqueue_all m' _ q _ LE Q2) as (Q3 & IN). destruct (fold_left enqueue _ _) as (q', inq'). cbn [fst snd] in Q3, IN.
  apply (IH m' _ q' inq' _ e0); auto; [apply SL; auto|apply (step_ext m m' e V FP FL); auto; apply (va_cn _ V); auto|apply IN; left; auto].
Qed.
End Loop.
