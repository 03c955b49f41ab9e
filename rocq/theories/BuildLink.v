(** The constructor accepts exactly the oriented manifold polygon lists. *)
From Verif Require Import Base MeshModel MeshSpec MeshBase MeshOrbit MeshExec MeshAlloc MeshBuildModel BuildProofs BuildLoops BuildWalk BuildValid BuildSpec BuildThm BuildList.
Open Scope Z_scope.

(** a partial injection: connected elements lie on one forward path *)
Section PartialInjection.
Context (R : Z -> Z -> Prop) (fn : forall a b b', R a b -> R a b' -> b = b') (inj : forall a a' b, R a b -> R a' b -> a = a').
Lemma crst_path a b : clos_refl_sym_trans Z R a b -> clos_refl_trans_1n Z R a b \/ clos_refl_trans_1n Z R b a.
Proof.
  intros H. apply clos_rst_rst1n in H. induction H as [a|a c b H _ IH]; [left; constructor|].
  destruct H as [H|H].
  - destruct IH as [IH|IH]; [left; econstructor; eauto|].
    (* b ->* c, a -> c *)
    apply clos_rt1n_rt in IH. apply clos_rt_rtn1 in IH. inversion IH as [E|c1 c2 H1 H2 E]; subst.
    + left. econstructor; eauto. constructor.
    + right. rewrite (inj _ _ _ H H1). apply clos_rt_rt1n. apply clos_rtn1_rt. exact H2.
  - destruct IH as [IH|IH].
    + inversion IH as [E|c1 c2 H1 H2 E]; subst.
      * right. econstructor; eauto. constructor.
      * left. rewrite (fn _ _ _ H H1). exact H2.
    + right. apply clos_rt_rt1n. apply rt_trans with c; [apply clos_rt1n_rt; auto|apply rt_step; auto].
Qed.
Lemma crst_roots a b : (forall x, ~ R x a) -> (forall x, ~ R x b) -> clos_refl_sym_trans Z R a b -> a = b.
Proof.
  intros Na Nb H. apply crst_path in H as [H|H]; apply clos_rt1n_rt in H; apply clos_rt_rtn1 in H; inversion H as [E|c1 c2 H1 H2 E]; subst; auto; exfalso; [eapply Nb|eapply Na]; eauto.
Qed.
End PartialInjection.

Lemma crst_map {A B} (R : A -> A -> Prop) (S : B -> B -> Prop) (P : A -> Prop) (g : A -> B) : (forall a a', R a a' -> S (g a) (g a')) ->
  forall a b, clos_refl_sym_trans A R a b -> clos_refl_sym_trans B S (g a) (g b).
Proof. intros H a b C. induction C; [apply rst_step; auto|apply rst_refl|apply rst_sym; auto|eapply rst_trans; eauto]. Qed.

Section Link.
Context (polys : list (list Z)) (m : mesh) (d : dict) (used : list Z) (FS : list (list (Z * Z * Z))) (MI : Mid polys m d used FS).
Notation n := (heFill m).
Notation I := (isI d).
Lemma V : Inter (maxIndex polys + 1) (Z.of_nat (length polys)) n I m.
Proof. exact (mid_inter _ _ _ _ _ MI). Qed.

Lemma arc_he a b : arc polys a b <-> exists h, I h /\ ve m h = a /\ ve m (tw h) = b.
Proof.
  pose proof (mi_st _ _ _ _ _ MI) as S. pose proof (mi_fs _ _ _ _ _ MI) as K. rewrite arc_In, <- K, <- concat_map. pose proof (s_d _ _ _ _ _ _ _ S) as D. rewrite app_nil_r in D.
  assert (Q : In (a, b) (map fst (concat FS)) <-> In (a, b) (map fst d)) by (rewrite D, map_rev, <- in_rev; tauto). rewrite Q. split.
  - intros H. apply in_map_iff in H as ([k h] & E & H). cbn in E. subst k. exists h. destruct (he_in _ _ _ _ (s_he _ _ _ _ _ _ _ S) _ _ _ H) as (_ & E1 & E2 & _).
    split; auto. apply in_map_iff. exists (a, b, h). auto.
  - intros (h & H & E1 & E2). apply in_map_iff. exists (a, b, h). split; auto. eapply HEs_snd; eauto. apply (s_he _ _ _ _ _ _ _ S).
Qed.
Lemma corner_he a v b : corner polys a v b <-> exists h, I h /\ ve m h = a /\ ve m (tw h) = v /\ ve m (tw (nx m h)) = b.
Proof.
  pose proof (mi_st _ _ _ _ _ MI) as S. pose proof (mi_fs _ _ _ _ _ MI) as K. split.
  - intros (j & i & p & Hp & Ha & Hv & Hb). assert (LFS : length FS = length polys) by (rewrite <- (map_length (map fst) FS), K, map_length; reflexivity).
    destruct (nth_error FS j) as [l|] eqn:El.
    2:{ exfalso. apply nth_error_None in El. assert (NN : nth_error polys j <> None) by congruence. apply nth_error_Some in NN. lia. }
    assert (Kp : map fst l = sides p). { pose proof (map_nth_error (map fst) _ _ El) as Q. rewrite K, (map_nth_error sides _ _ Hp) in Q. congruence. }
    assert (Li : (i < length p)%nat) by (apply nth_error_Some; congruence).
    destruct (s_done _ _ _ _ _ _ _ S j l El) as [Q1 Q2 Q3 Q4 Q5].
    destruct (face_side _ _ _ _ _ _ polys S _ _ _ i El Kp Li) as (LL & E1 & E2).
    assert (Ls : (Nat.modulo (Datatypes.S i) (length p) < length p)%nat) by (apply Nat.mod_upper_bound; lia).
    destruct (face_side _ _ _ _ _ _ polys S _ _ _ _ El Kp Ls) as (_ & E3 & E4).
    exists (nth i (hds l) (-1)). split; [apply (I_face _ _ _ _ _ _ S); exists j, l; split; auto; apply nth_In; lia|].
    rewrite (cyc_nth _ _ i (hds_ne _ Q1) Q4 Q5), LL by lia. rewrite E1, E2, E4.
    replace (i + 1)%nat with (Datatypes.S i) in Hv by lia. split; [apply nth_error_nth; auto|split; [apply nth_error_nth; auto|]].
    replace (Datatypes.S (Nat.modulo (Datatypes.S i) (length p))) with (1 + Nat.modulo (Datatypes.S i) (length p))%nat by lia. rewrite Nat.add_mod_idemp_r by lia.
    replace (1 + Datatypes.S i)%nat with (i + 2)%nat by lia. apply nth_error_nth; auto.
  - intros (h & H & E1 & E2 & E3). apply (I_face _ _ _ _ _ _ S) in H as (j & l & El & Hl).
    destruct (face_poly _ polys K _ _ El) as (p & Hp & Kp).
    apply (In_nth _ _ (-1)) in Hl as (i & Li & <-).
    destruct (s_done _ _ _ _ _ _ _ S j l El) as [Q1 Q2 Q3 Q4 Q5].
    assert (LL : length (hds l) = length p). { unfold hds. rewrite map_length, <- (map_length fst l), Kp. apply sides_length. }
    rewrite LL in Li. destruct (face_side _ _ _ _ _ _ polys S _ _ _ i El Kp Li) as (_ & F1 & F2).
    assert (Ls : (Nat.modulo (Datatypes.S i) (length p) < length p)%nat) by (apply Nat.mod_upper_bound; lia).
    destruct (face_side _ _ _ _ _ _ polys S _ _ _ _ El Kp Ls) as (_ & F3 & F4).
    rewrite (cyc_nth _ _ i (hds_ne _ Q1) Q4 Q5), LL in E3 by lia. rewrite F1 in E1. rewrite F2 in E2. rewrite F4 in E3. subst a v b.
    exists j, i, p. split; auto. split; [apply nth_error_nth'; lia|]. replace (i + 1)%nat with (Datatypes.S i) by lia. split; [apply nth_error_nth'; lia|].
    replace (Datatypes.S (Nat.modulo (Datatypes.S i) (length p))) with (1 + Nat.modulo (Datatypes.S i) (length p))%nat by lia. rewrite Nat.add_mod_idemp_r by lia.
    replace (1 + Datatypes.S i)%nat with (i + 2)%nat by lia. apply nth_error_nth'. apply Nat.mod_upper_bound. lia.
Qed.

(** turning around a vertex, where a face allows it *)
Definition turn (o o' : Z) := 0 <= o < n /\ I (tw o) /\ o' = nx m (tw o).
Lemma turn_fn a b b' : turn a b -> turn a b' -> b = b'.
Proof. intros (_ & _ & ->) (_ & _ & ->). auto. Qed.
Lemma turn_inj a a' b : turn a b -> turn a' b -> a = a'.
Proof. intros (_ & H & ->) (_ & H' & E). apply tw_inj. apply (i_inj _ _ _ _ _ V); auto. Qed.
Lemma turn_I a b : turn a b -> I b.
Proof. intros (_ & H & ->). apply (i_nx _ _ _ _ _ V); auto. Qed.
Lemma turn_ve a b : turn a b -> ve m b = ve m a.
Proof. intros (_ & H & ->). rewrite (i_vnx _ _ _ _ _ V) by auto. rewrite tw_tw. auto. Qed.
Definition fans := forall o o', 0 <= o < n -> 0 <= o' < n -> ve m o = ve m o' -> clos_refl_sym_trans Z turn o o'.
Definition links := forall v x y, neighbour polys v x -> neighbour polys v y -> clos_refl_sym_trans Z (fun a b => corner polys a v b) x y.

Lemma neighbour_he v x : neighbour polys v x <-> exists o, 0 <= o < n /\ ve m o = v /\ ve m (tw o) = x.
Proof.
  unfold neighbour. rewrite !arc_he. split.
  - intros [(h & H & E1 & E2)|(h & H & E1 & E2)].
    + exists h. split; auto. apply (i_rng _ _ _ _ _ V); auto.
    + exists (tw h). rewrite tw_tw. split; auto. apply (n_tw _ _ _ _ _ V). apply (i_rng _ _ _ _ _ V); auto.
  - intros (o & R & E1 & E2). destruct (int_or _ _ _ _ _ V o R) as [Y|Y]; [left; eauto|right]. exists (tw o). rewrite tw_tw. split; auto. apply (ext_tw _ _ _ _ _ V); auto.
Qed.
Lemma turn_corner o o' : turn o o' -> corner polys (ve m (tw o)) (ve m o) (ve m (tw o')).
Proof. intros (R & H & ->). apply corner_he. exists (tw o). rewrite tw_tw. auto. Qed.
Lemma corner_turn a v b : corner polys a v b -> exists o o', turn o o' /\ ve m o = v /\ ve m (tw o) = a /\ ve m (tw o') = b.
Proof.
  intros H. apply corner_he in H as (h & H & E1 & E2 & E3). exists (tw h), (nx m h). unfold turn. rewrite tw_tw. split; auto. split; auto.
  apply (n_tw _ _ _ _ _ V). apply (i_rng _ _ _ _ _ V). auto.
Qed.
Lemma crst_range (R : relation Z) (P : Z -> Prop) : (forall a b : Z, R a b -> P a /\ P b) -> forall a b, clos_refl_sym_trans Z R a b -> (P a <-> P b).
Proof. intros H a b C. induction C as [x y K|x|x y _ IH|x y z _ IH1 _ IH2]; [destruct (H _ _ K); tauto|tauto|tauto|tauto]. Qed.

Lemma fans_links : fans <-> links.
Proof.
  split.
  - intros F v x y Hx Hy. apply neighbour_he in Hx as (o & R & E1 & E2), Hy as (o' & R' & E1' & E2'). subst x y.
    assert (C : clos_refl_sym_trans Z turn o o') by (apply F; congruence || auto; congruence). clear R' E1'.
    assert (G : forall p q, clos_refl_sym_trans Z turn p q -> ve m p = v \/ ve m q = v -> clos_refl_sym_trans Z (fun a b => corner polys a v b) (ve m (tw p)) (ve m (tw q)) /\ ve m p = ve m q).
    { clear - MI. intros p q C. induction C as [p q K|p|p q C IH|p q r C1 IH1 C2 IH2].
      - intros E. pose proof (turn_ve _ _ K) as E'. split; [|auto]. apply rst_step. replace v with (ve m p) by (destruct E; congruence). apply turn_corner; auto.
      - intros _. split; [apply rst_refl|auto].
      - intros E. destruct IH as [IH IHE]; [tauto|]. split; [apply rst_sym; auto|auto].
      - intros E. assert (C12 : ve m p = ve m q /\ ve m q = ve m r).
        { assert (T : forall x y, clos_refl_sym_trans Z turn x y -> ve m x = ve m y). { clear - MI. intros x y C. induction C as [x y K|x|x y _ IH|x y z _ IH1 _ IH2]; [symmetry; apply turn_ve; auto|auto|auto|congruence]. }
          split; apply T; auto. }
        destruct C12 as [E1 E2]. destruct IH1 as [IH1 _]; [destruct E; [left; auto|left; congruence]|]. destruct IH2 as [IH2 _]; [destruct E; [left; congruence|right; auto]|].
        split; [eapply rst_trans; eauto|congruence]. }
    apply G; auto.
  - intros L o o' R R' E. remember (ve m o) as v eqn:Ev in *.
    assert (C : clos_refl_sym_trans Z (fun a b => corner polys a v b) (ve m (tw o)) (ve m (tw o'))) by (apply L; apply neighbour_he; [exists o|exists o']; auto). clear L.
    assert (G : forall x y, clos_refl_sym_trans Z (fun a b => corner polys a v b) x y -> forall p q, 0 <= p < n -> 0 <= q < n -> ve m p = v -> ve m q = v -> ve m (tw p) = x -> ve m (tw q) = y -> clos_refl_sym_trans Z turn p q).
    { clear - MI. intros x y C. induction C as [x y K|x|x y C IH|x y z C1 IH1 C2 IH2]; intros p q Rp Rq Ep Eq Ex Ey.
      - apply corner_turn in K as (o & o' & T & F1 & F2 & F3). assert (Ro : 0 <= o < n) by (destruct T; auto).
        assert (Ro' : 0 <= o' < n) by (apply (i_rng _ _ _ _ _ V); eapply turn_I; eauto).
        assert (p = o) by (eapply mid_key; eauto; congruence). pose proof (turn_ve _ _ T).
        assert (q = o') by (eapply mid_key; eauto; congruence). subst p q. apply rst_step; auto.
      - assert (p = q) by (eapply mid_key; eauto; congruence). subst q. apply rst_refl.
      - apply rst_sym. apply IH; auto.
      - assert (NY : neighbour polys v y).
        { assert (P : forall a b, corner polys a v b -> neighbour polys v a /\ neighbour polys v b).
          { intros a b K. apply corner_turn in K as (o & o' & T & F1 & F2 & F3). pose proof (turn_ve _ _ T). split; apply neighbour_he; [exists o; destruct T; auto|exists o'].
            split; [apply (i_rng _ _ _ _ _ V); eapply turn_I; eauto|split; congruence]. }
          apply (crst_range _ (neighbour polys v) P _ _ C1). apply neighbour_he. exists p; auto. }
        apply neighbour_he in NY as (r & Rr & Er & Er'). apply rst_trans with r; [apply IH1|apply IH2]; auto. }
    eapply G; eauto.
Qed.

Lemma fans_unique : fans -> uniqueTails m d.
Proof.
  intros F x y X Y E. apply (crst_roots turn turn_fn turn_inj x y); [| |apply F; auto; [apply X|apply Y]].
  - intros z T. apply turn_I in T. destruct X; auto.
  - intros z T. apply turn_I in T. destruct Y; auto.
Qed.

Context (m1 : mesh) (LS : list (list Z)) (LO : Looped polys m d m1 LS) (UT : uniqueTails m d).
Lemma turn_ro a b : turn a b -> ro (finish m1) a = b.
Proof. intros (R & H & ->). unfold ro. destruct LO as [T _ _]. apply (M_int _ _ _ _ _ V _ _ T); auto. Qed.
Lemma fin_ro a : 0 <= a < n -> 0 <= ro (finish m1) a < n.
Proof. intros R. destruct LO as [T A C]. apply (ro_rng _ _ _ _ _ V _ _ T C); auto. Qed.
Lemma fin_ro_inj a b : 0 <= a < n -> 0 <= b < n -> ro (finish m1) a = ro (finish m1) b -> a = b.
Proof. intros Ra Rb E. destruct LO as [T A C]. apply (ro_inj _ _ _ _ _ V UT (mid_vh _ _ _ _ _ MI) _ _ T C); auto. Qed.
Lemma fin_ro_ve a : 0 <= a < n -> ve m (ro (finish m1) a) = ve m a.
Proof. intros R. destruct LO as [T A C]. apply (ro_ve _ _ _ _ _ V _ _ T C); auto. Qed.
(** outside the fans the rotation crosses the boundary *)
Lemma ro_cross a : 0 <= a < n -> turn a (ro (finish m1) a) \/ ext0 n I (ro (finish m1) a).
Proof.
  intros R. pose proof (n_tw _ _ _ _ _ V a R) as RT. destruct (int_or _ _ _ _ _ V (tw a) RT) as [Y|Y].
  - left. split; auto. split; auto. unfold ro. destruct LO as [T _ _]. apply (M_int _ _ _ _ _ V _ _ T); auto.
  - right. destruct LO as [T _ C]. destruct (M_loop_face _ _ _ _ _ _ _ T C (tw a) Y) as (k & l & K1 & K2 & _).
    destruct (t_loop _ _ _ _ _ _ _ _ _ T k l K1) as (_ & _ & _ & _ & Q). destruct (Q _ K2) as (_ & Q2 & _).
    apply (loops_in _ _ _ _ _ _ _ T k l); auto.
Qed.
Lemma ext_fan e k : ext0 n I e -> clos_refl_sym_trans Z turn e (Nat.iter k (ro (finish m1)) e) /\ 0 <= Nat.iter k (ro (finish m1)) e < n /\ ve m (Nat.iter k (ro (finish m1)) e) = ve m e.
Proof.
  intros X. induction k as [|k (IH1 & IH2 & IH3)]; [split; [apply rst_refl|split; [apply X|reflexivity]]|].
  cbn [Nat.iter nat_rect]. fold (Nat.iter k (ro (finish m1)) e). set (c := Nat.iter k (ro (finish m1)) e) in *.
  split; [|split; [apply fin_ro; auto|rewrite fin_ro_ve; auto]].
  destruct (ro_cross c IH2) as [T|Y].
  - eapply rst_trans; [exact IH1|apply rst_step; exact T].
  - replace (ro (finish m1) c) with e; [apply rst_refl|]. apply UT; auto. rewrite fin_ro_ve by auto. auto.
Qed.
Lemma any_fan a k : 0 <= a < n -> 0 <= Nat.iter k (ro (finish m1)) a < n /\ ve m (Nat.iter k (ro (finish m1)) a) = ve m a /\
  (clos_refl_sym_trans Z turn a (Nat.iter k (ro (finish m1)) a) \/ exists e, ext0 n I e /\ ve m e = ve m a /\ clos_refl_sym_trans Z turn e (Nat.iter k (ro (finish m1)) a)).
Proof.
  intros R. induction k as [|k (IH2 & IH3 & IH1)]; [split; [auto|split; [reflexivity|left; apply rst_refl]]|].
  cbn [Nat.iter nat_rect]. fold (Nat.iter k (ro (finish m1)) a). set (c := Nat.iter k (ro (finish m1)) a) in *.
  split; [apply fin_ro; auto|]. split; [rewrite fin_ro_ve; auto|].
  destruct (ro_cross c IH2) as [T|Y].
  - destruct IH1 as [IH1|(e & X1 & X2 & X3)]; [left|right; exists e; split; auto; split; auto]; (eapply rst_trans; [eassumption|apply rst_step; exact T]).
  - right. exists (ro (finish m1) c). split; auto. split; [rewrite fin_ro_ve; auto|apply rst_refl].
Qed.
Lemma stars_fans : stars n m m1 <-> fans.
Proof.
  split.
  - intros ST a b Ra Rb E. destruct (ST a b Ra Rb E) as (k & Ek). destruct (any_fan a k Ra) as (_ & _ & K). rewrite Ek in K. destruct K as [K|(e & X1 & X2 & X3)]; [auto|].
    destruct (ST e a (proj1 X1) Ra X2) as (k' & Ek'). destruct (ext_fan e k' X1) as (K' & _). rewrite Ek' in K'. eapply rst_trans; [apply rst_sym; exact K'|exact X3].
  - intros F a b Ra Rb E. specialize (F a b Ra Rb E). clear E.
    assert (N0 : 0 <= n) by lia.
    assert (G : forall x y, clos_refl_sym_trans Z turn x y -> (0 <= x < n <-> 0 <= y < n) /\ (0 <= x < n -> reach (ro (finish m1)) x y)).
    { intros x y C. induction C as [x y K|x|x y C IH|x y z C1 IH1 C2 IH2].
      - rewrite <- (turn_ro _ _ K). assert (Rx : 0 <= x < n) by (destruct K; auto). pose proof (fin_ro x Rx). split; [tauto|]. intros _. apply reach_step.
      - split; [tauto|]. intros _. apply reach_refl.
      - destruct IH as [IH1 IH2]. split; [tauto|]. intros Ry. apply (reach_sym (fun h => 0 <= h < n)) with (N := n); auto; try tauto.
        + intros h Rh. apply fin_ro; auto.
        + intros h h' Rh Rh' Eh. apply fin_ro_inj; auto.
      - destruct IH1 as [A1 A2], IH2 as [B1 B2]. split; [tauto|]. intros Rx. apply reach_trans with y; [apply A2; auto|apply B2; tauto]. }
    apply G; auto.
Qed.
End Link.

(** ** the tests on the list against the manifold conditions *)
Lemma manifold_inner polys : indices polys -> OrientedManifold polys -> Inner polys.
Proof.
  intros NN [H1 H2 H3 H4 H5 _]. split; auto.
  - apply fresh_arcs. auto.
  - intros v Hv. destruct (maxIndex_spec polys) as (_ & M2 & M3).
    assert (U : uses polys (maxIndex polys)).
    { destruct M3 as [M3|M3]; auto. rewrite M3. destruct polys as [|p t]; [congruence|]. pose proof (H2 p (or_introl eq_refl)) as Lp. destruct p as [|x p]; [cbn in Lp; lia|].
      assert (U : uses ((x :: p) :: t) x) by (exists (x :: p); split; left; auto). pose proof (M2 x U).
      pose proof (NN x U). replace 0 with x by lia. auto. }
    destruct (Z.eq_dec v (maxIndex polys)) as [->|N]; [auto|]. apply (H5 v (maxIndex polys)); auto. lia.
Qed.
Lemma inner_manifold polys : Inner polys -> links polys -> OrientedManifold polys.
Proof.
  intros [H1 H2 H3] L. apply fresh_arcs in H2 as [A1 A2]. destruct (maxIndex_spec polys) as (M1 & M2 & _). split; auto.
  - intros ->. destruct (H3 0) as (p & [] & _). cbn. lia.
  - intros v w Uw Hv. apply H3. pose proof (M2 w Uw). lia.
Qed.

Theorem build_accepts polys : indices polys -> ((exists M, buildMesh polys = Ok M) <-> OrientedManifold polys) /\ (~ OrientedManifold polys -> buildMesh polys = Throw).
Proof.
  intros NN.
  assert (A : Inner polys -> (exists M, buildMesh polys = Ok M) <-> links polys).
  { intros IN. destruct (build_main polys NN IN) as (m & d & used & FS & MI & [[UT E]|(UT & m1 & LS & LO & [[ST E]|[ST E]])]); rewrite E.
    - split; [intros (M & C); discriminate|]. intros L. exfalso. apply UT. apply (fans_unique _ _ _ _ _ MI). apply (fans_links _ _ _ _ _ MI). auto.
    - split; [|eauto]. intros _. apply (fans_links _ _ _ _ _ MI). apply (stars_fans _ _ _ _ _ MI _ _ LO UT). auto.
    - split; [intros (M & C); discriminate|]. intros L. exfalso. apply ST. apply (stars_fans _ _ _ _ _ MI _ _ LO UT). apply (fans_links _ _ _ _ _ MI). auto. }
  assert (E : (exists M, buildMesh polys = Ok M) <-> OrientedManifold polys).
  { split.
    - intros (M & E). destruct (build_outcome polys NN) as [C|(M' & E' & _ & IN)]; [congruence|]. apply inner_manifold; auto. apply A; eauto.
    - intros O. apply A; [apply manifold_inner; auto|]. exact (om_link _ O). }
  split; auto. intros NO. destruct (build_outcome polys NN) as [C|(M' & E' & _ & IN)]; auto. exfalso. apply NO. apply E. eauto.
Qed.

Theorem build_contents polys M : indices polys -> buildMesh polys = Ok M ->
  Valid M /\ getFaceVertexList M = Ok polys /\ nFaces M = Z.of_nat (length polys) /\ (forall v, liveV M v <-> uses polys v) /\
  (forall h, liveH M h -> ~ ext M h -> arc polys (ve M h) (ve M (tw h))) /\
  (forall a b, arc polys a b -> exists h, liveH M h /\ ~ ext M h /\ ve M h = a /\ ve M (tw h) = b /\ (ext M (tw h) <-> ~ arc polys b a)) /\
  (forall h h', liveH M h -> liveH M h' -> ve M h = ve M h' -> ve M (tw h) = ve M (tw h') -> h = h').
Proof.
  intros NN E. destruct (build_outcome polys NN) as [C|(M' & E' & B & IN)]; [congruence|]. rewrite E in E'. injection E' as <-.
  split; [apply (bu_valid _ _ B)|]. split; [apply (bu_list _ _ B IN)|]. split; [apply (bu_nf _ _ B)|]. split; [intros v; apply (bu_uses _ _ B IN v NN)|].
  split; [intros h; apply (bu_he_arc _ _ B IN)|]. split.
  - intros a b A. destruct (bu_arc_he _ _ B IN a b A) as (h & L & X & E1 & E2). exists h. repeat (split; [assumption|]). rewrite <- E1, <- E2. apply (bu_boundary _ _ B IN); auto.
  - intros h h' L L'. apply (bu_key _ _ B); [exact (proj1 (bu_live _ _ B h) L)|exact (proj1 (bu_live _ _ B h') L')].
Qed.
Theorem build_rejects polys : indices polys ->
  (exists p, In p polys /\ (length p < 3)%nat) \/ (exists a, arc polys a a) \/
  (exists j i j' i' a b, arcAt polys j i a b /\ arcAt polys j' i' a b /\ (j, i) <> (j', i')) \/
  (exists v w, uses polys w /\ 0 <= v < w /\ ~ uses polys v) \/ polys = [] ->
  buildMesh polys = Throw.
Proof.
  intros NN H. apply (build_accepts polys NN). intros [O1 O2 O3 O4 O5 _].
  destruct H as [(p & H1 & H2)|[(a & H)|[(j & i & j' & i' & a & b & H1 & H2 & H3)|[(v & w & H1 & H2 & H3)|H]]]].
  - pose proof (O2 p H1). lia.
  - exact (O3 a H).
  - destruct (O4 _ _ _ _ _ _ H1 H2) as [-> ->]. auto.
  - apply H3. eapply O5; eauto.
  - auto.
Qed.
