(** The polygon constructor, fourth part: the tests on vertices, and the finished mesh
    (manifold_surface_mesh.cpp:144-163, 213-255). *)
From Coq Require Import ListDec.
From Verif Require Import Base MeshModel MeshSpec MeshBase MeshExec MeshAlloc MeshBuildModel BuildProofs BuildLoops BuildWalk.
Open Scope Z_scope.

Lemma foldM_guard (p : Z -> bool) (f : unit -> Z -> res unit) l : (forall x, In x l -> f tt x = guard (p x)) ->
  (forallb p l = true -> foldM f l tt = Ok tt) /\ (forallb p l = false -> foldM f l tt = Throw).
Proof.
  induction l as [|x t IH]; intros H; cbn [foldM forallb]; [split; [auto|discriminate]|].
  rewrite (H x (or_introl eq_refl)). destruct (p x); cbn [guard bind andb]; [apply IH; intros; apply H; right; auto|split; [discriminate|auto]].
Qed.

Lemma filter_split (p : Z -> bool) l : (length (filter p l) + length (filter (fun x => negb (p x)) l) = length l)%nat.
Proof. induction l as [|x t IH]; cbn; auto. destruct (p x); cbn; lia. Qed.

Lemma getZ_repeat x k i : 0 <= i < Z.of_nat k -> getZ (repeat x k) i = x.
Proof. intros H. unfold getZ. destruct (Z.ltb_spec i 0); [lia|]. apply nth_error_nth. apply nth_error_repeat. lia. Qed.
Lemma zlen_repeat x k : 0 <= k -> zlen (repeat x (Z.to_nat k)) = k.
Proof. intros H. unfold zlen. rewrite repeat_length. lia. Qed.

(** ** no vertex twice on the boundary *)
Section Boundary.
Context (nV nF n : Z) (I : Z -> Prop) (m : mesh) (V : Inter nV nF n I m) (LN : n <= zlen (heNext m)) (LV : n <= zlen (heVertex m)).
Definition bstep (seen : list Z) (h : Z) : res (list Z) :=
      let* n := next m h in
      if n =? INVALID then
        let* v := vertexOf m h in let* s := rdZ seen v in
        let* _ := guard (s =? 0) in wrZ seen v 1
      else Ok seen.
Let E := ext0 n I.
Lemma bsteps : forall hs seen, NoDup hs -> (forall h, In h hs -> 0 <= h < n) -> zlen seen = nV ->
  let A := (forall x, In x hs -> E x -> getZ seen (ve m x) = 0) /\ (forall x y, In x hs -> In y hs -> E x -> E y -> ve m x = ve m y -> x = y) in
  (A /\ exists s, foldM bstep hs seen = Ok s) \/ (~ A /\ foldM bstep hs seen = Throw).
Proof.
  induction hs as [|h t IH]; intros seen ND R L; cbv zeta.
  - left. cbn [foldM]. split; [split; [intros x []|intros x y []]|eauto].
  - inversion ND as [|? ? N1 N2]; subst x l. pose proof (R h (or_introl eq_refl)) as Rh. cbn [foldM]. unfold bstep at 1 3. rewrite next_ok by lia. cbn [bind].
    destruct (i_dec _ _ _ _ _ V h) as [Y|N].
    + pose proof (i_rng _ _ _ _ _ V _ (i_nx _ _ _ _ _ V _ Y)). destruct (Z.eqb_spec (nx m h) INVALID); [unfold INVALID in *; lia|]. cbn [bind].
      assert (NE : forall x, E x -> x <> h) by (intros x [_ Ex] ->; auto).
      destruct (IH seen N2) as [[A O]|[A O]]; [intros; apply R; right; auto|auto|left|right]; (split; [|exact O]).
      * destruct A as [A1 A2]. split.
        { intros x [<-|Hx] Ex; [exfalso; apply (NE _ Ex); auto|auto]. }
        { intros x y [<-|Hx] [<-|Hy] Ex Ey; try (exfalso; apply (NE _ Ex); auto; fail); try (exfalso; apply (NE _ Ey); auto; fail). auto. }
      * intros [A1 A2]. apply A. split; intros; [apply A1; auto; right; auto|apply A2; auto; right; auto].
    + destruct (i_out _ _ _ _ _ V h Rh N) as [-> _]. change (-1 =? INVALID) with true. cbv iota. rewrite vertexOf_ok by lia. cbn [bind].
      pose proof (i_ve _ _ _ _ _ V _ Rh). rewrite rdZ_ok by lia. cbn [bind]. assert (Eh : E h) by (split; auto).
      destruct (Z.eqb_spec (getZ seen (ve m h)) 0) as [Z0|Z0]; cbn [guard bind].
      2:{ right. split; [|auto]. intros [A1 _]. apply Z0. apply A1; [left; auto|auto]. }
      rewrite wrZ_ok by lia. cbn [bind].
      destruct (IH (updZ seen (ve m h) 1) N2) as [[A O]|[A O]]; [intros; apply R; right; auto|rewrite zlen_updZ; auto|left|right]; (split; [|exact O]).
      * destruct A as [A1 A2].
        assert (NV : forall x, In x t -> E x -> ve m x <> ve m h /\ getZ seen (ve m x) = 0).
        { intros x Hx Ex. specialize (A1 x Hx Ex). rewrite getZ_updZ in A1 by lia. destruct (Z.eqb_spec (ve m x) (ve m h)); [lia|auto]. }
        split; [intros x [<-|Hx] Ex; [auto|apply NV; auto]|].
        intros x y [<-|Hx] [<-|Hy] Ex Ey Exy; auto; exfalso; [apply (NV y)|apply (NV x)]; auto.
      * intros [A1 A2]. apply A. split.
        { intros x Hx Ex. rewrite getZ_updZ by lia. destruct (Z.eqb_spec (ve m x) (ve m h)) as [C|C]; [|apply A1; auto; right; auto].
          exfalso. apply N1. assert (x = h) by (apply A2; auto; [right; auto|left; auto]). subst; auto. }
        { intros x y Hx Hy. apply A2; right; auto. }
Qed.
Lemma checkBoundary_ok : 0 <= nV -> nHalfedges m = n ->
  ((forall x y, E x -> E y -> ve m x = ve m y -> x = y) /\ checkBoundaryVertices m nV = Ok tt) \/
  (~ (forall x y, E x -> E y -> ve m x = ve m y -> x = y) /\ checkBoundaryVertices m nV = Throw).
Proof.
  intros HV HN. unfold checkBoundaryVertices. rewrite HN. change (foldM _ (zseq n) ?s) with (foldM bstep (zseq n) s).
  destruct (bsteps (zseq n) (repeat 0 (Z.to_nat nV)) (zseq_NoDup n)) as [[[A1 A2] (s & ->)]|[A ->]].
  - intros h Hh. apply zseq_In; auto.
  - apply zlen_repeat; auto.
  - left. split; [|reflexivity]. intros x y Ex Ey. apply A2; auto; apply zseq_In; [apply Ex|apply Ey].
  - right. split; [|reflexivity]. intros C. apply A. split.
    + intros x Hx Ex. apply getZ_repeat. pose proof (i_ve _ _ _ _ _ V x (proj1 Ex)). lia.
    + intros x y _ _. apply C.
Qed.
End Boundary.

(** ** the finished mesh *)
Definition finish (m : mesh) : mesh :=
  mkMesh (heNext m) (heVertex m) (heFace m) (vHalfedge m) (fHalfedge m) (nHalfedges m) (nInterior m) (nEdges m) (nVertices m) (nFaces m) (nLoops m)
     (nHalfedges m) (nEdges m) (nVertices m) (nFaces m) (nLoops m) (nHalfedges m) (nEdges m) (nVertices m) (nFaces m + nLoops m) true [].

Section Finished.
Context (nV nF n : Z) (I : Z -> Prop) (m0 : mesh) (V : Inter nV nF n I m0).
Context (UT : forall x y, ext0 n I x -> ext0 n I y -> ve m0 x = ve m0 y -> x = y).
Context (VH0 : forall v, 0 <= v < nV -> I (vh m0 v) /\ ve m0 (vh m0 v) = v).
Context (HV : 0 <= nV) (HF : 0 <= nF) (NE0 : n = 2 * nEdges m0).
Context (m1 : mesh) (LS : list (list Z)) (T : WSt nV nF n I m0 m1 LS [] [])
        (A : WArr nV nF n m0 m1 (Z.of_nat (length LS)) (n - Z.of_nat (length (concat LS)))).
Context (COV : forall h, ext0 n I h -> In h (concat LS)).
Let M := finish m1.

Lemma M_ve h : ve M h = ve m0 h.
Proof. unfold ve. change (heVertex M) with (heVertex m1). rewrite (proj1 (w_ve _ _ _ _ _ _ _ A)). reflexivity. Qed.
Lemma M_fills : heFill M = n /\ vFill M = nV /\ fFill M = nF /\ bFill M = Z.of_nat (length LS) /\ fCap M = nF + Z.of_nat (length LS).
Proof. destruct A. unfold M, finish. pj. lia. Qed.
Lemma in_loops h : In h (concat LS) -> exists k l, nth_error LS k = Some l /\ In h l.
Proof. intros H. apply in_concat in H as (l & H1 & H2). apply In_nth_error in H1 as (k & H1). eauto. Qed.
Lemma loops_in k l h : nth_error LS k = Some l -> In h l -> ext0 n I h.
Proof. intros H1 H2. apply (t_ext _ _ _ _ _ _ _ _ _ T). cbn [app]. rewrite app_nil_r. eapply nth_error_concat; eauto. Qed.
Lemma loop_lt k l : nth_error LS k = Some l -> (k < length LS)%nat.
Proof. intros H. apply nth_error_Some. congruence. Qed.
Lemma loop_facts k l : nth_error LS k = Some l -> l <> [] /\ fh M (nF + Z.of_nat k) = hd (-1) l /\
      linked (nx M) (rev l) /\ nx M (hd (-1) l) = last l (-1) /\
      forall x, In x l -> fa M x = nF + Z.of_nat k /\ In (nx M x) l /\ ve m0 (nx M x) = ve m0 (tw x).
Proof. exact (t_loop _ _ _ _ _ _ _ _ _ T k l). Qed.
Lemma M_int h : I h -> nx M h = nx m0 h /\ fa M h = fa m0 h.
Proof.
  intros H. pose proof (i_rng _ _ _ _ _ V _ H) as R. assert (NI : ~ In h (concat LS)).
  { intros C. destruct (t_ext _ _ _ _ _ _ _ _ _ T h) as [_ K]; [cbn [app]; rewrite app_nil_r; auto|]. auto. }
  split; [apply (t_nx _ _ _ _ _ _ _ _ _ T)|apply (t_fa _ _ _ _ _ _ _ _ _ T)]; auto; cbn [app]; rewrite ?app_nil_r; auto.
Qed.
Lemma int_or h : 0 <= h < n -> I h \/ ext0 n I h.
Proof. intros R. destruct (i_dec _ _ _ _ _ V h); [left; auto|right; split; auto]. Qed.
Lemma M_next h : 0 <= h < n -> 0 <= nx M h < n.
Proof.
  intros R. destruct (int_or h R) as [Y|Y].
  - rewrite (proj1 (M_int h Y)). apply (i_rng _ _ _ _ _ V). apply (i_nx _ _ _ _ _ V). auto.
  - destruct (in_loops h (COV h Y)) as (k & l & K1 & K2). destruct (loop_facts _ _ K1) as (_ & _ & _ & _ & Q). destruct (Q _ K2) as (_ & Q2 & _).
    apply (loops_in _ _ _ K1 Q2).
Qed.
Lemma M_live h : liveH M h <-> 0 <= h < n.
Proof.
  destruct M_fills as (F1 & _). unfold liveH. rewrite F1. split; [tauto|]. intros R. pose proof (M_next h R). split; [auto|lia].
Qed.
Lemma M_loop_face h : ext0 n I h -> exists k l, nth_error LS k = Some l /\ In h l /\ fa M h = nF + Z.of_nat k.
Proof.
  intros H. destruct (in_loops h (COV h H)) as (k & l & K1 & K2). destruct (loop_facts _ _ K1) as (_ & _ & _ & _ & Q). exists k, l. split; auto. split; auto. apply Q; auto.
Qed.
Lemma M_ext h : 0 <= h < n -> (ext M h <-> ext0 n I h).
Proof.
  intros R. unfold ext. destruct M_fills as (_ & _ & -> & _). destruct (int_or h R) as [Y|Y].
  - rewrite (proj2 (M_int h Y)). pose proof (i_fa _ _ _ _ _ V _ Y). split; [lia|]. intros [_ C]. contradiction.
  - destruct (M_loop_face h Y) as (k & l & _ & _ & ->). split; [auto|lia].
Qed.
Lemma loop_rev l : l <> [] -> rev l <> [] /\ last (rev l) (-1) = hd (-1) l /\ hd (-1) (rev l) = last l (-1).
Proof.
  intros H. split; [|split; [apply last_rev_hd; auto|apply hd_rev_last; auto]]. destruct l; [congruence|]. cbn. destruct (rev l); discriminate.
Qed.
Lemma loop_nd k l : nth_error LS k = Some l -> NoDup l.
Proof.
  intros H. pose proof (t_nd _ _ _ _ _ _ _ _ _ T) as ND. cbn [app] in ND. rewrite app_nil_r in ND. clear -H ND. revert k H.
  induction LS as [|x t IH]; intros k H; [destruct k; discriminate|]. cbn [concat] in ND. destruct k; cbn in H.
  - injection H as <-. eapply NoDup_app_l; eauto.
  - eapply IH; eauto. eapply NoDup_app_r; eauto.
Qed.
Lemma M_inj a b : 0 <= a < n -> 0 <= b < n -> nx M a = nx M b -> a = b.
Proof.
  intros Ra Rb E. destruct (int_or a Ra) as [Ya|Ya], (int_or b Rb) as [Yb|Yb].
  - rewrite (proj1 (M_int a Ya)), (proj1 (M_int b Yb)) in E. apply (i_inj _ _ _ _ _ V); auto.
  - exfalso. destruct (M_loop_face b Yb) as (k & l & K1 & K2 & _). destruct (loop_facts _ _ K1) as (_ & _ & _ & _ & Q). destruct (Q _ K2) as (_ & Q2 & _).
    destruct (loops_in _ _ _ K1 Q2) as [_ C]. apply C. rewrite <- E, (proj1 (M_int a Ya)). apply (i_nx _ _ _ _ _ V); auto.
  - exfalso. destruct (M_loop_face a Ya) as (k & l & K1 & K2 & _). destruct (loop_facts _ _ K1) as (_ & _ & _ & _ & Q). destruct (Q _ K2) as (_ & Q2 & _).
    destruct (loops_in _ _ _ K1 Q2) as [_ C]. apply C. rewrite E, (proj1 (M_int b Yb)). apply (i_nx _ _ _ _ _ V); auto.
  - destruct (M_loop_face a Ya) as (k & l & K1 & K2 & _). destruct (M_loop_face b Yb) as (k' & l' & K1' & K2' & _).
    destruct (loop_facts _ _ K1) as (P1 & _ & P3 & P4 & Q). destruct (loop_facts _ _ K1') as (_ & _ & _ & _ & Q').
    destruct (Q _ K2) as (_ & Q2 & _). destruct (Q' _ K2') as (_ & Q2' & _). rewrite <- E in Q2'.
    assert (k = k') by (destruct (Q _ Q2) as (F1 & _); destruct (Q' _ Q2') as (F2 & _); lia). subst k'. assert (l' = l) by congruence. subst l'.
    destruct (loop_rev l P1) as (R1 & R2 & R3). apply (cyc_inj (nx M) (rev l)); auto; try (apply -> in_rev; auto).
    + apply NoDup_rev. eapply loop_nd; eauto.
    + congruence.
Qed.
Lemma M_vnx h : 0 <= h < n -> ve m0 (nx M h) = ve m0 (tw h).
Proof.
  intros R. destruct (int_or h R) as [Y|Y].
  - rewrite (proj1 (M_int h Y)). apply (i_vnx _ _ _ _ _ V); auto.
  - destruct (M_loop_face h Y) as (k & l & K1 & K2 & _). destruct (loop_facts _ _ K1) as (_ & _ & _ & _ & Q). apply Q; auto.
Qed.
Lemma M_vh v : 0 <= v < nV -> 0 <= vh M v < n /\ ve m0 (vh M v) = v.
Proof.
  intros Hv. destruct (t_vh0 _ _ _ _ _ _ _ _ _ T v Hv) as [E|(x & X1 & X2 & X3)].
  - change (vh M v) with (vh m1 v). rewrite E. destruct (VH0 v Hv). split; auto. apply (i_rng _ _ _ _ _ V); auto.
  - change (vh M v) with (vh m1 v). rewrite X3. split; auto. apply (n_tw _ _ _ _ _ V). exact (proj1 (t_ext _ _ _ _ _ _ _ _ _ T x X1)).
Qed.
Lemma nl_none k : nth_error LS k = None -> (length LS <= k)%nat.
Proof. apply nth_error_None. Qed.
Lemma M_fh f : 0 <= f < nF + Z.of_nat (length LS) -> 0 <= fh M f < n /\ fa M (fh M f) = f.
Proof.
  intros Hf. destruct (Z_lt_dec f nF) as [L|L].
  - assert (E : fh M f = fh m0 f) by (apply (t_fh _ _ _ _ _ _ _ _ _ T); lia). rewrite E. destruct (i_fh _ _ _ _ _ V f) as [F1 F2]; [lia|].
    split; [apply (i_rng _ _ _ _ _ V); auto|]. rewrite (proj2 (M_int _ F1)). auto.
  - destruct (nth_error LS (Z.to_nat (f - nF))) as [l|] eqn:E; [|apply nl_none in E; lia].
    destruct (loop_facts _ _ E) as (P1 & P2 & _ & _ & Q). rewrite Z2Nat.id in * by lia. replace (nF + (f - nF)) with f in * by lia. rewrite P2.
    pose proof (hd_In l P1) as IH. split; [apply (loops_in _ _ _ E IH)|apply Q; auto].
Qed.

Lemma M_liveFL f : 0 <= f < nF + Z.of_nat (length LS) <-> liveFL M f.
Proof.
  destruct M_fills as (F1 & F2 & F3 & F4 & F5). unfold liveFL, liveF, liveL. rewrite F3, F4, F5. split.
  - intros H. pose proof (M_fh f H). destruct (Z_lt_dec f nF); [left|right]; (split; [lia|lia]).
  - lia.
Qed.
Lemma M_fa h : 0 <= h < n -> 0 <= fa M h < nF + Z.of_nat (length LS).
Proof.
  intros R. destruct (int_or h R) as [Y|Y].
  - rewrite (proj2 (M_int h Y)). pose proof (i_fa _ _ _ _ _ V _ Y). lia.
  - destruct (M_loop_face h Y) as (k & l & K1 & _ & ->). apply loop_lt in K1. lia.
Qed.

(** rotation about a vertex permutes the halfedges and keeps the tail *)
Lemma ro_rng h : 0 <= h < n -> 0 <= ro M h < n.
Proof. intros R. apply M_next. apply (n_tw _ _ _ _ _ V); auto. Qed.
Lemma ro_inj a b : 0 <= a < n -> 0 <= b < n -> ro M a = ro M b -> a = b.
Proof. intros Ra Rb E. apply tw_inj. apply M_inj; auto; apply (n_tw _ _ _ _ _ V); auto. Qed.
Lemma ro_ve h : 0 <= h < n -> ve m0 (ro M h) = ve m0 h.
Proof. intros R. unfold ro. rewrite M_vnx by (apply (n_tw _ _ _ _ _ V); auto). rewrite tw_tw. auto. Qed.
Lemma ro_iter k h : 0 <= h < n -> 0 <= Nat.iter k (ro M) h < n /\ ve m0 (Nat.iter k (ro M) h) = ve m0 h.
Proof.
  intros R. induction k as [|k [IH1 IH2]]; [cbn; auto|]. cbn [Nat.iter nat_rect]. fold (Nat.iter k (ro M) h). split; [apply ro_rng; auto|]. rewrite ro_ve; auto.
Qed.

Definition stars := forall a b, 0 <= a < n -> 0 <= b < n -> ve m0 a = ve m0 b -> reach (ro M) a b.

Lemma M_valid : stars -> Valid M.
Proof.
  intros ST. destruct M_fills as (F1 & F2 & F3 & F4 & F5). pose proof (i_n _ _ _ _ _ V) as HN.
  assert (LL : length (concat LS) = length (filter (fun h => negb (negb (nF <=? fa M h))) (zseq n))).
  { assert (Q : forall x, In x (concat LS) <-> In x (filter (fun h => negb (negb (nF <=? fa M h))) (zseq n))).
    { intros x. rewrite filter_In, zseq_In, negb_involutive. split.
      - intros H. destruct (in_loops x H) as (k & l & K1 & K2). pose proof (loops_in _ _ _ K1 K2) as Ex. split; [apply Ex|].
        destruct (loop_facts _ _ K1) as (_ & _ & _ & _ & Q). destruct (Q _ K2) as (-> & _). lia.
      - intros [R H]. apply COV. apply (M_ext x R). unfold ext. rewrite F3. lia. }
    pose proof (t_nd _ _ _ _ _ _ _ _ _ T) as ND. cbn [app] in ND. rewrite app_nil_r in ND.
    apply Nat.le_antisymm; apply NoDup_incl_length; auto; [intros x Hx; apply Q; auto|apply NoDup_filter, zseq_NoDup|intros x Hx; apply Q; auto]. }
  assert (LB : forall h, 0 <= h < n -> liveHb M h = true) by (intros h R; unfold liveHb; pose proof (M_next h R); lia).
  split.
  - destruct A as [A1 [A2 A2'] A3 A4 A5 A6 A7 A8 A9 A10 A11]. split; unfold M, finish; pj; try lia. rewrite A2. lia.
  - assert (NN : nHalfedges M = n /\ nInterior M = n - Z.of_nat (length (concat LS)) /\ nEdges M = nEdges m0 /\ nVertices M = nV /\ nFaces M = nF /\ nLoops M = Z.of_nat (length LS) /\ eFill M = nEdges m0).
    { destruct A. unfold M, finish. pj. repeat split; auto. } destruct NN as (N1 & N2 & N3 & N4 & N5 & N6 & N7).
    split.
    + rewrite N1, F1. symmetry. apply countb_full; [lia|auto].
    + rewrite N2, F1. rewrite (countb_ext _ (fun h => negb (nF <=? fa M h))).
      * unfold countb. rewrite LL. pose proof (filter_split (fun h => negb (nF <=? fa M h)) (zseq n)). pose proof (zseq_length n (proj1 HN)). lia.
      * intros h R. unfold intHb. rewrite LB by auto. rewrite F3. reflexivity.
    + rewrite N3, N7. symmetry. apply countb_full; [lia|]. intros e He. apply LB. lia.
    + rewrite N4, F2. symmetry. apply countb_full; [lia|]. intros v Hv. unfold liveVb. pose proof (M_vh v Hv). lia.
    + rewrite N5, F3. symmetry. apply countb_full; [lia|]. intros f Hf. unfold liveFb. pose proof (M_fh f). lia.
    + rewrite N6, F4. symmetry. apply countb_full; [lia|]. intros i Hi. unfold liveFb. pose proof (M_fh (fCap M - 1 - i)). lia.
  - split.
    + intros h H. apply M_live in H. apply M_live. apply (n_tw _ _ _ _ _ V); auto.
    + intros h H. apply M_live in H. apply M_live. apply M_next; auto.
    + intros a b Ha Hb. apply M_live in Ha, Hb. apply M_inj; auto.
    + intros h H. apply M_live in H. rewrite M_ve. pose proof (i_ve _ _ _ _ _ V h H) as R. pose proof (M_vh _ R). unfold liveV. rewrite F2. lia.
    + intros h H. apply M_live in H. apply M_liveFL. apply M_fa; auto.
    + intros h H. apply M_live in H. rewrite !M_ve. apply M_vnx; auto.
    + intros h H. apply M_live in H. destruct (int_or h H) as [Y|Y].
      * rewrite (proj1 (M_int h Y)). rewrite (proj2 (M_int h Y)), (proj2 (M_int _ (i_nx _ _ _ _ _ V _ Y))). apply (i_fnx _ _ _ _ _ V); auto.
      * destruct (M_loop_face h Y) as (k & l & K1 & K2 & ->). destruct (loop_facts _ _ K1) as (_ & _ & _ & _ & Q). destruct (Q _ K2) as (_ & Q2 & _). apply Q; auto.
    + intros v [Hv _]. rewrite F2 in Hv. destruct (M_vh v Hv) as [R1 R2]. split; [apply M_live; auto|]. rewrite M_ve. auto.
    + intros f H. apply M_liveFL in H. destruct (M_fh f H). split; [apply M_live; auto|auto].
    + intros a b Ha Hb E. apply M_live in Ha, Hb. destruct (int_or a Ha) as [Ya|Ya], (int_or b Hb) as [Yb|Yb].
      * rewrite (proj2 (M_int a Ya)), (proj2 (M_int b Yb)) in E. destruct (i_orb _ _ _ _ _ V a b Ya Yb E) as (k & Hk).
        exists k. rewrite <- Hk. assert (K : I (Nat.iter k (nx m0) a) /\ Nat.iter k (nx M) a = Nat.iter k (nx m0) a); [|apply K].
        clear Hk. induction k as [|k [IH1 IH2]]; [cbn; auto|]. cbn [Nat.iter nat_rect]. fold (Nat.iter k (nx m0) a). fold (Nat.iter k (nx M) a). rewrite IH2.
        split; [apply (i_nx _ _ _ _ _ V); auto|apply M_int; auto].
      * exfalso. rewrite (proj2 (M_int a Ya)) in E. pose proof (i_fa _ _ _ _ _ V _ Ya). destruct (M_loop_face b Yb) as (k & l & _ & _ & K). lia.
      * exfalso. rewrite (proj2 (M_int b Yb)) in E. pose proof (i_fa _ _ _ _ _ V _ Yb). destruct (M_loop_face a Ya) as (k & l & _ & _ & K). lia.
      * destruct (M_loop_face a Ya) as (k & l & K1 & K2 & Ka). destruct (M_loop_face b Yb) as (k' & l' & K1' & K2' & Kb).
        assert (k = k') by lia. subst k'. assert (l' = l) by congruence. subst l'. destruct (loop_facts _ _ K1) as (P1 & _ & P3 & P4 & _).
        destruct (loop_rev l P1) as (R1 & R2 & R3). apply (cyc_reach (nx M) (rev l)); auto; try (apply -> in_rev; auto). congruence.
    + intros a b Ha Hb E. apply M_live in Ha, Hb. rewrite !M_ve in E. apply ST; auto.
    + intros h H Ev Ex. apply M_live in H. apply (M_ext h H) in Ex. apply Ex. apply (i_even _ _ _ _ _ V); auto.
    + intros h H Ex. apply M_live in H. pose proof (n_tw _ _ _ _ _ V h H) as Rt. apply (M_ext _ Rt) in Ex. rewrite M_ve.
      destruct (t_vh _ _ _ _ _ _ _ _ _ T (tw h)) as (x & X1 & X2 & X3); [rewrite app_nil_r; apply COV; auto|]. rewrite tw_tw in X2, X3.
      change (vh M (ve m0 h)) with (vh m1 (ve m0 h)). rewrite X3. rewrite app_nil_r in X1.
      assert (Exx : ext0 n I x) by (apply (t_ext _ _ _ _ _ _ _ _ _ T); cbn [app]; rewrite app_nil_r; auto).
      assert (x = tw h); [|subst x; apply tw_tw]. apply M_inj; [apply Exx|auto|].
      destruct (M_loop_face x Exx) as (k & l & K1 & K2 & _). destruct (loop_facts _ _ K1) as (_ & _ & _ & _ & Q). destruct (Q _ K2) as (_ & Q2 & Q3).
      destruct (M_loop_face (tw h) Ex) as (k' & l' & K1' & K2' & _). destruct (loop_facts _ _ K1') as (_ & _ & _ & _ & Q'). destruct (Q' _ K2') as (_ & Q2' & Q3').
      apply UT; [apply (loops_in _ _ _ K1 Q2)|apply (loops_in _ _ _ K1' Q2')|]. rewrite Q3, Q3', tw_tw. auto.
  - split; intros v; rewrite ?F2, ?F3, ?F5, ?F4; [|lia]. destruct A. unfold M, finish. pj. lia.
Qed.
End Finished.

(** ** one fan around each vertex *)
Section Stars.
Context (n nV : Z) (M : mesh) (tail : Z -> Z) (Hn : 0 <= n) (HV : 0 <= nV).
Context (TWR : forall h, 0 <= h < n -> 0 <= tw h < n) (LN : n <= zlen (heNext M)) (LV : zlen (vHalfedge M) = nV).
Context (SN : nHalfedges M = n) (SV : nVertices M = nV).
Context (RR : forall h, 0 <= h < n -> 0 <= ro M h < n) (RI : forall a b, 0 <= a < n -> 0 <= b < n -> ro M a = ro M b -> a = b).
Context (RT : forall h, 0 <= h < n -> tail (ro M h) = tail h) (TV : forall h, 0 <= h < n -> 0 <= tail h < nV).
Context (VH : forall v, 0 <= v < nV -> 0 <= vh M v < n /\ tail (vh M v) = v).
Let it i h := Nat.iter i (ro M) h.

Lemma it_rng i h : 0 <= h < n -> 0 <= it i h < n.
Proof. intros R. unfold it. induction i; cbn; auto. Qed.
Lemma it_tail i h : 0 <= h < n -> tail (it i h) = tail h.
Proof. intros R. induction i as [|i IH]; [auto|]. change (it (S i) h) with (ro M (it i h)). rewrite RT by (apply it_rng; auto). auto. Qed.
Lemma it_inj i a b : 0 <= a < n -> 0 <= b < n -> it i a = it i b -> a = b.
Proof. intros Ra Rb. induction i as [|i IH]; [auto|]. intros E. apply IH. apply RI; try (apply it_rng; auto). exact E. Qed.
Lemma it_add i k h : it (i + k) h = it i (it k h).
Proof. apply iter_add. Qed.

Lemma orbitSeen_ok : forall fuel i first seen p, 0 <= first < n -> zlen seen = n -> it p first = first -> (0 < p)%nat -> (p - i <= fuel)%nat ->
  (forall j, (0 < j <= i)%nat -> it j first <> first) ->
  (forall h, 0 <= h < n -> (getZ seen h <> 0 <-> (exists j, (j < i)%nat /\ h = it j first) \/ (tail h <> tail first /\ getZ seen h <> 0))) ->
  exists seen', orbitSeen fuel M first (it i first) seen = Ok seen' /\ zlen seen' = n /\
    forall h, 0 <= h < n -> (getZ seen' h <> 0 <-> getZ seen h <> 0 \/ exists j, h = it j first).
Proof.
  induction fuel as [|fuel IH]; intros i first seen p Rf L P P0 FU NB MK.
  { exfalso. apply (NB p); [lia|auto]. }
  assert (Ri := it_rng i first Rf). assert (IP : (i < p)%nat).
  { destruct (Nat.lt_ge_cases i p); auto. exfalso. apply (NB p); [lia|auto]. }
  cbn [orbitSeen]. rewrite rdZ_ok by lia. cbn [bind].
  assert (U : getZ seen (it i first) = 0).
  { destruct (Z.eq_dec (getZ seen (it i first)) 0) as [|C]; auto. exfalso. apply (MK _ Ri) in C as [(j & Hj & E)|[E _]].
    - replace i with (j + (i - j))%nat in E by lia. rewrite it_add in E. apply it_inj in E; auto; [|apply it_rng; auto].
      apply (NB (i - j)%nat); [lia|auto].
    - apply E. apply it_tail; auto. }
  rewrite U. change (0 =? 0) with true. cbn [guard bind]. rewrite wrZ_ok by lia. cbn [bind]. pose proof (TWR _ Ri). rewrite next_ok by lia. cbn [bind].
  change (nx M (tw (it i first))) with (it (S i) first).
  assert (MK1 : forall h, getZ (updZ seen (it i first) 1) h = if h =? it i first then 1 else getZ seen h) by (intros h; apply getZ_updZ; lia).
  destruct (Z.eqb_spec (it (S i) first) first) as [E|E].
  - exists (updZ seen (it i first) 1). split; auto. split; [rewrite zlen_updZ; auto|]. intros h Rh. rewrite MK1. destruct (Z.eqb_spec h (it i first)) as [->|N].
    + split; [intros _; right; exists i; auto|lia].
    + split; [tauto|]. intros [C|(j & C)]; [auto|]. apply MK; auto. left.
      (* j reduced modulo the period *)
      exists (Nat.modulo j (S i)). assert (EQ : h = it (Nat.modulo j (S i)) first).
      { rewrite C. rewrite (Nat.div_mod j (S i)) at 1 by lia. generalize (Nat.div j (S i)) as q. generalize (Nat.modulo j (S i)) as r. clear -E. intros r q.
        induction q as [|q IHq]; [rewrite Nat.mul_0_r; reflexivity|]. replace (S i * S q + r)%nat with ((S i * q + r) + S i)%nat by lia. rewrite it_add, E. auto. }
      split; auto. pose proof (Nat.mod_upper_bound j (S i) ltac:(lia)). destruct (Nat.eq_dec (Nat.modulo j (S i)) i) as [E2|E2]; [exfalso; apply N; rewrite EQ, E2; auto|lia].
  - destruct (IH (S i) first (updZ seen (it i first) 1) p) as (s' & E' & L' & M'); auto.
    + rewrite zlen_updZ; auto.
    + lia.
    + intros j Hj. destruct (Nat.eq_dec j (S i)); [subst; auto|apply NB; lia].
    + intros h Rh. rewrite MK1. destruct (Z.eqb_spec h (it i first)) as [->|N].
      * split; [intros _; left; exists i; auto|lia].
      * split.
        { intros C. apply (MK h Rh) in C. destruct C as [(j & Hj & C)|C]; [left; exists j; split; [lia|auto]|right; auto]. }
        { intros [(j & Hj & C)|C]; apply (MK h Rh); [|right; auto]. left. exists j. split; auto. destruct (Nat.eq_dec j i); [congruence|lia]. }
    + exists s'. split; auto. split; auto. intros h Rh. rewrite (M' h Rh), MK1. destruct (Z.eqb_spec h (it i first)) as [->|N]; [|tauto].
      split; [intros _; right; exists i; auto|intros _; left; lia].
Qed.

Lemma orbits_ok : forall k seen, (Z.of_nat k <= nV) -> zlen seen = n -> (forall h, 0 <= h < n -> getZ seen h = 0) ->
  exists seen', foldM (fun seen v => let* h := vHe M v in orbitSeen (S (Z.to_nat (nHalfedges M))) M h h seen) (zseq (Z.of_nat k)) seen = Ok seen' /\ zlen seen' = n /\
    forall h, 0 <= h < n -> (getZ seen' h <> 0 <-> exists v, 0 <= v < Z.of_nat k /\ reach (ro M) (vh M v) h).
Proof.
  induction k as [|k IH]; intros seen Hk L Z0.
  - exists seen. split; auto. split; auto. intros h Rh. rewrite Z0 by auto. split; [congruence|]. intros (v & Hv & _). lia.
  - destruct (IH seen) as (s1 & E1 & L1 & M1); [lia|auto|auto|]. replace (Z.of_nat (S k)) with (Z.of_nat k + 1) by lia. rewrite zseq_S by lia. rewrite foldM_snoc, E1. cbn [bind].
    rewrite vHe_ok by lia. cbn [bind]. rewrite SN. destruct (VH (Z.of_nat k)) as [R T]; [lia|].
    destruct (periodic (fun h => 0 <= h < n) (ro M) RR n (fun a H => H) RI (vh M (Z.of_nat k)) R) as (p & Hp & P).
    destruct (orbitSeen_ok (S (Z.to_nat n)) 0 (vh M (Z.of_nat k)) s1 p) as (s2 & E2 & L2 & M2); [exact R|exact L1|exact P|clear - Hp; lia|clear - Hp; lia|intros j Hj; clear - Hj; lia| |].
    { intros h Rh. split; [|intros [(j & Hj & _)|C]; [lia|tauto]]. intros C. right. split; auto. apply M1 in C as (v & Hv & (j & <-)); auto.
      destruct (VH v) as [Rv Tv]; [lia|]. fold (it j (vh M v)). rewrite it_tail by auto. lia. }
    exists s2. split; [exact E2|]. split; auto. intros h Rh. rewrite (M2 h Rh), (M1 h Rh). split.
    + intros [(v & Hv & C)|(j & C)]; [exists v; split; [lia|auto]|exists (Z.of_nat k); split; [lia|exists j; auto]].
    + intros (v & Hv & C). destruct (Z.eq_dec v (Z.of_nat k)) as [->|N]; [right; destruct C as (j & C); exists j; auto|left; exists v; split; [lia|auto]].
Qed.

Definition oneFan := forall a b, 0 <= a < n -> 0 <= b < n -> tail a = tail b -> reach (ro M) a b.
Lemma checkStars_ok : (oneFan /\ checkStars M = Ok tt) \/ (~ oneFan /\ checkStars M = Throw).
Proof.
  unfold checkStars. rewrite SN, SV.
  destruct (orbits_ok (Z.to_nat nV) (repeat 0 (Z.to_nat n))) as (s & E & L & MK).
  { lia. } { apply zlen_repeat; auto. } { intros h Rh. apply getZ_repeat. lia. }
  rewrite Z2Nat.id in * by auto. rewrite SN in E. rewrite E. cbn [bind]. clear E.
  destruct (foldM_guard (fun h => negb (getZ s h =? 0)) (fun _ h => let* x := rdZ s h in guard (negb (x =? 0))) (zseq n)) as [G1 G2].
  { intros h Hh. apply zseq_In in Hh. rewrite rdZ_ok by lia. reflexivity. }
  assert (FB : forallb (fun h => negb (getZ s h =? 0)) (zseq n) = true <-> oneFan).
  { rewrite forallb_forall. split.
    - intros H a b Ra Rb E. assert (K : forall h, 0 <= h < n -> reach (ro M) (vh M (tail h)) h).
      { intros h Rh. specialize (H h). rewrite zseq_In in H. specialize (H Rh). assert (C : getZ s h <> 0) by lia. apply MK in C as (v & Hv & C); auto.
        destruct (VH v Hv) as [Rv Tv]. destruct C as (j & C). pose proof (it_tail j _ Rv) as Q. unfold it in Q. rewrite C, Tv in Q. rewrite Q. exists j; auto. }
      apply (reach_trans (ro M) a (vh M (tail a)) b).
      + apply (reach_sym (fun h => 0 <= h < n) (ro M) RR n (fun a H => H) RI); [apply VH; auto|apply K; auto].
      + rewrite E. apply K; auto.
    - intros H h Hh. apply zseq_In in Hh. assert (getZ s h <> 0); [|lia]. apply MK; auto. exists (tail h). split; [apply TV; auto|].
      destruct (VH (tail h) (TV h Hh)). apply H; auto. }
  destruct (forallb (fun h => negb (getZ s h =? 0)) (zseq n)) eqn:Q.
  - left. split; [apply FB; auto|apply G1; auto].
  - right. split; [intros C; apply FB in C; discriminate|apply G2; auto].
Qed.
End Stars.
