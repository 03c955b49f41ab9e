(** The polygon constructor, third part: the loops along the boundary (manifold_surface_mesh.cpp:165-211). *)
From Coq Require Import ListDec.
From Verif Require Import Base MeshModel MeshSpec MeshBase MeshExec MeshAlloc MeshBuildModel BuildProofs BuildLoops.
Open Scope Z_scope.

Section Walk.
Context (nV nF n : Z) (I : Z -> Prop) (m0 : mesh) (V : Inter nV nF n I m0).
Definition ext0 h := 0 <= h < n /\ ~ I h.

Lemma n_tw h : 0 <= h < n -> 0 <= tw h < n.
Proof. pose proof (i_n _ _ _ _ _ V). unfold tw. lia. Qed.
Lemma ext_tw h : ext0 h -> I (tw h).
Proof.
  intros [H1 H2]. destruct (Z.eq_dec (h mod 2) 0) as [E|E].
  - exfalso. apply H2. apply (i_even _ _ _ _ _ V); auto.
  - apply (i_even _ _ _ _ _ V); [apply n_tw; auto|rewrite tw_mod; lia].
Qed.

(** rotation about the tip *)
Definition spin (c : Z) : Z := tw (nx m0 c).
Lemma spin_tip c : I c -> ve m0 (tw (spin c)) = ve m0 (tw c).
Proof. intros H. unfold spin. rewrite tw_tw. apply (i_vnx _ _ _ _ _ V); auto. Qed.
Lemma spin_rng c : I c -> 0 <= spin c < n.
Proof. intros H. apply n_tw. apply (i_rng _ _ _ _ _ V). apply (i_nx _ _ _ _ _ V); auto. Qed.
Lemma spin_inj a b : I a -> I b -> spin a = spin b -> a = b.
Proof. intros Ha Hb E. apply tw_inj in E. apply (i_inj _ _ _ _ _ V); auto. Qed.

Lemma first_out x N : (forall i, (i < N)%nat -> I (Nat.iter i spin x)) \/ exists i, (i < N)%nat /\ ~ I (Nat.iter i spin x) /\ forall j, (j < i)%nat -> I (Nat.iter j spin x).
Proof.
  induction N as [|N [IH|(i & Hi & H)]].
  - left. intros; lia.
  - destruct (i_dec _ _ _ _ _ V (Nat.iter N spin x)) as [Y|Y].
    + left. intros i Hi. destruct (Nat.eq_dec i N); [subst; auto|apply IH; lia].
    + right. exists N. split; [lia|]. auto.
  - right. exists i. split; [lia|auto].
Qed.

Lemma iter_S_in {A} (f : A -> A) k x : Nat.iter (S k) f x = Nat.iter k f (f x).
Proof. induction k; cbn; auto. cbn in IHk. rewrite IHk. reflexivity. Qed.

(** starting from the twin of a boundary halfedge, the rotation meets a boundary halfedge *)
Lemma fan x : ext0 x -> exists k, (k < Z.to_nat n - 1)%nat /\ ext0 (Nat.iter k spin (spin (tw x))) /\ (forall j, (j < k)%nat -> I (Nat.iter j spin (spin (tw x)))) /\
  ve m0 (tw (Nat.iter k spin (spin (tw x)))) = ve m0 x.
Proof.
  intros Hx. pose proof (ext_tw x Hx) as HT. destruct (i_n _ _ _ _ _ V) as [Hn0 _].
  destruct (first_out (tw x) (Z.to_nat n)) as [A|(i & Hi & NI & B)].
  - exfalso. destruct (pigeon (fun _ => False) (fun z => z) ltac:(auto) 0 ltac:(intros; contradiction) ltac:(intros; contradiction) (fun i => Nat.iter i spin (tw x)) (Z.to_nat n)) as (i & j & Hij & E).
    { intros [|i] Hi; [cbn; pose proof (i_rng _ _ _ _ _ V _ HT); lia|]. cbn [Nat.iter nat_rect]. fold (Nat.iter i spin (tw x)).
      rewrite Z2Nat.id by lia. apply spin_rng. apply A. lia. }
    assert (K : forall a b, (a < b <= Z.to_nat n)%nat -> Nat.iter a spin (tw x) = Nat.iter b spin (tw x) -> False).
    { induction a as [|a IH]; intros b Hb Eb.
      - destruct b as [|b]; [lia|]. cbn [Nat.iter nat_rect] in Eb. fold (Nat.iter b spin (tw x)) in Eb. unfold spin at 1 in Eb. apply tw_inj in Eb.
        apply (proj2 Hx). rewrite Eb. apply (i_nx _ _ _ _ _ V). apply A. lia.
      - destruct b as [|b]; [lia|]. cbn [Nat.iter nat_rect] in Eb. apply spin_inj in Eb; [|apply A; lia|apply A; lia]. apply (IH b); [lia|exact Eb]. }
    exact (K i j Hij E).
  - destruct i as [|i]; [contradiction NI; exact HT|]. exists i. rewrite iter_S_in in NI. split; [lia|].
    assert (TIP : forall j, (j <= i)%nat -> 0 <= Nat.iter j spin (spin (tw x)) < n /\ ve m0 (tw (Nat.iter j spin (spin (tw x)))) = ve m0 x).
    { induction j as [|j IH]; intros Hj.
      - cbn. split; [apply spin_rng; auto|]. rewrite spin_tip by auto. rewrite tw_tw. auto.
      - assert (J : I (Nat.iter j spin (spin (tw x)))) by (rewrite <- iter_S_in; apply B; lia). cbn [Nat.iter nat_rect]. fold (Nat.iter j spin (spin (tw x))).
        split; [apply spin_rng; auto|]. rewrite spin_tip by auto. apply IH. lia. }
    destruct (TIP i (Nat.le_refl i)) as [T1 T2]. split; [split; auto|]. split; [intros j Hj; rewrite <- iter_S_in; apply B; lia|auto].
Qed.

Context (UT : forall x y, ext0 x -> ext0 y -> ve m0 x = ve m0 y -> x = y).

(** sizes of the arrays during the walk *)
Record WArr (m : mesh) (nb ni : Z) : Prop := {
  w_n : n <= zlen (heNext m); w_ve : heVertex m = heVertex m0 /\ n <= zlen (heVertex m0); w_fa : n <= zlen (heFace m);
  w_vh : zlen (vHalfedge m) = nV; w_fh : zlen (fHalfedge m) = nF + nb;
  w_nh : nHalfedges m = n; w_ni : nInterior m = ni; w_ne : nEdges m = nEdges m0; w_nv : nVertices m = nV; w_nf : nFaces m = nF; w_nl : nLoops m = nb }.

(** LS: finished loops; pre: halfedges of the current loop already assigned; opn: the one at hand *)
Record WSt (m : mesh) (LS : list (list Z)) (pre opn : list Z) : Prop := {
  t_ext : forall x, In x (concat LS ++ pre ++ opn) -> ext0 x;
  t_nd : NoDup (concat LS ++ pre ++ opn);
  t_nx : forall h, 0 <= h < n -> ~ In h (concat LS ++ pre ++ opn) -> nx m h = nx m0 h;
  t_fa : forall h, 0 <= h < n -> ~ In h (concat LS ++ pre) -> fa m h = fa m0 h;
  t_fh : forall f, 0 <= f < nF -> fh m f = fh m0 f;
  t_vh : forall x, In x (concat LS ++ pre) -> exists x', In x' (concat LS ++ pre) /\ ve m0 (tw x') = ve m0 (tw x) /\ vh m (ve m0 (tw x)) = tw x';
  t_vh0 : forall v, 0 <= v < nV -> vh m v = vh m0 v \/ exists x', In x' (concat LS ++ pre) /\ ve m0 (tw x') = v /\ vh m v = tw x';
  t_loop : forall k l, nth_error LS k = Some l -> l <> [] /\ fh m (nF + Z.of_nat k) = hd (-1) l /\
      linked (nx m) (rev l) /\ nx m (hd (-1) l) = last l (-1) /\
      forall x, In x l -> fa m x = nF + Z.of_nat k /\ In (nx m x) l /\ ve m0 (nx m x) = ve m0 (tw x);
  t_cur : forall x, In x pre -> fa m x = nF + Z.of_nat (length LS);
  t_lk : linked (nx m) (rev (pre ++ opn));
  t_pred : forall y, In y (pre ++ opn) -> y = hd (-1) (pre ++ opn) \/ (In (nx m y) pre /\ ve m0 (nx m y) = ve m0 (tw y)) }.

Lemma walkInner_ok m iHe : n <= zlen (heNext m) -> n <= zlen (heFace m) -> ext0 iHe ->
  (forall h, I h -> nx m h = nx m0 h /\ fa m h = fa m0 h) ->
  forall k c fuel, (k <= fuel)%nat -> (forall j, (j < k)%nat -> I (Nat.iter j spin c)) -> ext0 (Nat.iter k spin c) ->
  (fa m (Nat.iter k spin c) = -1 \/ Nat.iter k spin c = iHe) ->
  walkInner fuel m iHe c = Ok (Nat.iter k spin c).
Proof.
  intros LN LF EI OLD. induction k as [|k IH]; intros c fuel Hf HI HE HX.
  - cbn [Nat.iter nat_rect] in *. destruct fuel; cbn [walkInner]; rewrite faceOf_ok by (destruct HE; lia); cbn [bind];
    (destruct (Z.eqb_spec (fa m c) INVALID); [auto|]); (destruct (Z.eqb_spec c iHe); [auto|]); exfalso; destruct HX; unfold INVALID in *; congruence.
  - destruct fuel as [|fuel]; [lia|]. assert (Ic : I c) by (apply (HI 0%nat); lia). pose proof (i_rng _ _ _ _ _ V _ Ic) as Rc.
    cbn [walkInner]. rewrite faceOf_ok by lia. cbn [bind]. destruct (OLD c Ic) as [O1 O2].
    rewrite O2. pose proof (i_fa _ _ _ _ _ V _ Ic). destruct (Z.eqb_spec (fa m0 c) INVALID); [unfold INVALID in *; lia|].
    destruct (Z.eqb_spec c iHe); [exfalso; subst; apply EI; auto|]. rewrite next_ok by lia. cbn [bind]. rewrite O1. fold (spin c).
    rewrite iter_S_in. apply IH; [lia| | |].
    + intros j Hj. rewrite <- iter_S_in. apply HI. lia.
    + rewrite <- iter_S_in. auto.
    + rewrite <- iter_S_in. auto.
Qed.

Lemma NoDup_len_bound (l : list Z) : NoDup l -> (forall x, In x l -> ext0 x) -> l <> [] -> (length l < Z.to_nat n)%nat.
Proof.
  intros ND E NE. destruct l as [|x t]; [congruence|]. assert (K : NoDup (tw x :: x :: t)).
  { constructor; auto. intros C. apply (proj2 (E _ C)). apply ext_tw. apply E. left; auto. }
  assert (L : (length (tw x :: x :: t) <= length (zseq n))%nat).
  { apply NoDup_incl_length; auto. intros y [<-|Hy]; apply zseq_In; [apply n_tw; apply E; left; auto|apply E; auto]. }
  unfold zseq in L. rewrite map_length, seq_length in L. cbn [length] in *. lia.
Qed.

Lemma hd_In (l : list Z) : l <> [] -> In (hd (-1) l) l.
Proof. destruct l; [congruence|left; auto]. Qed.
Lemma last_rev_hd (l : list Z) : l <> [] -> last (rev l) (-1) = hd (-1) l.
Proof. destruct l; [congruence|]. intros _. cbn [rev hd]. apply last_last. Qed.
Lemma hd_rev_last (l : list Z) : l <> [] -> hd (-1) (rev l) = last l (-1).
Proof. intros H. destruct (exists_last H) as (p & x & ->). rewrite rev_app_distr, last_last. reflexivity. Qed.
Lemma rev_hd_tl (l : list Z) : l <> [] -> rev l = rev (tl l) ++ [hd (-1) l].
Proof. destruct l; [congruence|reflexivity]. Qed.
Lemma In_tl (l : list Z) z : In z (tl l) -> In z l.
Proof. destruct l; [auto|right; auto]. Qed.
Lemma hd_not_tl (l : list Z) : l <> [] -> NoDup l -> ~ In (hd (-1) l) (tl l).
Proof. destruct l; [congruence|]. intros _ H. inversion H; auto. Qed.
Lemma NoDup_app_disj (l1 l2 : list Z) x : NoDup (l1 ++ l2) -> In x l1 -> In x l2 -> False.
Proof.
  induction l1 as [|y t IH]; intros ND H1 H2; [destruct H1|]. cbn in ND. inversion ND; subst. destruct H1 as [<-|H1]; [apply H3; apply in_or_app; auto|auto].
Qed.
Lemma NoDup_app_r (l1 l2 : list Z) : NoDup (l1 ++ l2) -> NoDup l2.
Proof. induction l1; auto. intros H. inversion H; auto. Qed.
Lemma NoDup_app_l (l1 l2 : list Z) : NoDup (l1 ++ l2) -> NoDup l1.
Proof. intros H. apply NoDup_rev in H. rewrite rev_app_distr in H. apply NoDup_app_r in H. rewrite <- (rev_involutive l1). apply NoDup_rev; auto. Qed.

Lemma walkLoop_ok : forall fuel m LS pre curr iHe bl,
  WSt m LS pre [curr] -> WArr m (Z.of_nat (length LS) + 1) (n - Z.of_nat (length (concat LS ++ pre))) ->
  bl = nF + Z.of_nat (length LS) -> iHe = hd (-1) (pre ++ [curr]) -> fh m bl = iHe ->
  (Z.to_nat n - 1 <= fuel + length pre)%nat ->
  exists m' l, walkLoop fuel m bl iHe curr = Ok m' /\ WSt m' (LS ++ [l]) [] [] /\
    WArr m' (Z.of_nat (length LS) + 1) (n - Z.of_nat (length (concat (LS ++ [l])))) /\ (exists post, l = pre ++ curr :: post).
Proof.
  induction fuel as [|fuel IH]; intros m LS pre curr iHe bl T A EB EH EFH FU.
  { (* never out of fuel *) exfalso. pose proof (NoDup_len_bound (pre ++ [curr])) as K. destruct T as [T1 T2 _ _ _ _ _ _ _ _ _].
    apply NoDup_app_r in T2. assert (length (pre ++ [curr]) < Z.to_nat n)%nat.
    { apply K; [exact T2| |destruct pre; discriminate]. intros x Hx. apply T1. apply in_or_app; auto. }
    rewrite app_length in H. cbn in H. lia. }
  pose proof (t_ext _ _ _ _ T curr ltac:(rewrite !in_app_iff; cbn; auto)) as Ec. destruct Ec as [Rc NIc]. pose proof (n_tw _ Rc) as Rt. pose proof (ext_tw curr (conj Rc NIc)) as It.
  destruct A as [A1 [A2 A2'] A3 A4 A5 A6 A7 A8 A9 A10 A11].
  pose proof (i_ve _ _ _ _ _ V _ Rt) as Rv.
  cbn [walkLoop]. step.
  assert (EV : forall mm h, heVertex mm = heVertex m0 -> ve mm h = ve m0 h) by (intros mm h E; unfold ve; congruence).
  rewrite vertexOf_ok by (proj; rewrite A2; lia). cbn [bind].
  rewrite EV by exact A2. rewrite setVHe_ok by (proj; lia). cbn [bind].
  match goal with |- context [mkMesh ?a ?b ?c ?d ?e ?f ?g ?h ?i ?j ?k ?l ?o ?p ?q ?r ?s ?t ?u ?v ?w ?x] => set (m2 := mkMesh a b c d e f g h i j k l o p q r s t u v w x) end.
  assert (N2 : forall h, nx m2 h = nx m h) by reflexivity.
  assert (L2 : zlen (heNext m2) = zlen (heNext m)) by reflexivity.
  assert (LF2 : zlen (heFace m2) = zlen (heFace m)) by (unfold m2; proj; apply zlen_updZ).
  assert (V2 : heVertex m2 = heVertex m0) by exact A2.
  assert (F2 : forall h, fa m2 h = if h =? curr then bl else fa m h).
  { intros h. unfold m2, fa. proj. apply getZ_updZ. lia. }
  assert (VH2 : forall v, vh m2 v = if v =? ve m0 (tw curr) then tw curr else vh m v).
  { intros v. unfold m2, vh. proj. apply getZ_updZ. lia. }
  assert (LV2 : zlen (vHalfedge m2) = nV) by (unfold m2; proj; rewrite zlen_updZ; auto).
  assert (FH2 : fHalfedge m2 = fHalfedge m) by reflexivity.
  assert (SC : nHalfedges m2 = n /\ nInterior m2 = n - Z.of_nat (length (concat LS ++ pre)) - 1 /\ nEdges m2 = nEdges m0 /\ nVertices m2 = nV /\ nFaces m2 = nF /\ nLoops m2 = Z.of_nat (length LS) + 1).
  { unfold m2; proj. rewrite A7. repeat split; auto. }
  clearbody m2. destruct SC as (SC1 & SC2 & SC3 & SC4 & SC5 & SC6).
  assert (INT : forall h, I h -> ~ In h (concat LS ++ pre ++ [curr])) by (intros h Ih C; apply (proj2 (t_ext _ _ _ _ T _ C)); auto).
  assert (OLD : forall h, I h -> nx m2 h = nx m0 h /\ fa m2 h = fa m0 h).
  { intros h Ih. pose proof (i_rng _ _ _ _ _ V _ Ih) as Rh. pose proof (INT h Ih) as NI. rewrite N2, F2. split; [apply (t_nx _ _ _ _ T); auto|].
    destruct (Z.eqb_spec h curr); [exfalso; apply NI; subst; rewrite !in_app_iff; cbn; auto|]. apply (t_fa _ _ _ _ T); auto. intros C. apply NI. rewrite in_app_iff in *. rewrite in_app_iff. tauto. }
  rewrite next_ok by lia. cbn [bind]. rewrite (proj1 (OLD _ It)). fold (spin (tw curr)).
  destruct (fan curr (conj Rc NIc)) as (k & Hk & Ek & Ik & Vk). set (c := Nat.iter k spin (spin (tw curr))) in *.
  assert (EI : ext0 iHe) by (rewrite EH; apply (t_ext _ _ _ _ T); rewrite in_app_iff; right; apply hd_In; destruct pre; discriminate).
  (* c is new, or closes the loop *)
  assert (NC : c = iHe \/ ~ In c (concat LS ++ pre ++ [curr])).
  { destruct (in_dec Z.eq_dec c (concat LS ++ pre ++ [curr])) as [C|C]; [left|right; auto].
    apply in_app_iff in C as [C|C].
    - exfalso. apply in_concat in C as (l & Hl & Hc). apply In_nth_error in Hl as (j & Hj). destruct (t_loop _ _ _ _ T _ _ Hj) as (_ & _ & _ & _ & Q).
      destruct (Q c Hc) as (_ & Q2 & Q3). assert (E : nx m c = curr).
      { apply UT; [apply (t_ext _ _ _ _ T); apply in_app_iff; left; eapply nth_error_concat; eauto|split; auto|]. congruence. }
      apply (NoDup_app_disj _ _ curr (t_nd _ _ _ _ T)); [eapply nth_error_concat; [exact Hj|]; congruence|apply in_app_iff; right; left; auto].
    - destruct (t_pred _ _ _ _ T c C) as [P|(P1 & P2)]; [congruence|]. exfalso. assert (E : nx m c = curr).
      { apply UT; [apply (t_ext _ _ _ _ T); rewrite !in_app_iff; auto|split; auto|]. congruence. }
      pose proof (NoDup_app_r _ _ (t_nd _ _ _ _ T)) as ND. apply (NoDup_app_disj _ _ curr ND); [congruence|left; auto]. }
  rewrite (walkInner_ok m2 iHe ltac:(lia) ltac:(lia) EI OLD k).
  2:{ rewrite SC1. lia. } 2:{ exact Ik. } 2:{ exact Ek. }
  2:{ fold c. destruct NC as [NC|NC]; [right; auto|left]. rewrite F2. destruct (Z.eqb_spec c curr) as [e|e]; [exfalso; apply NC; rewrite e; rewrite !in_app_iff; cbn; auto|].
      rewrite (t_fa _ _ _ _ T); [apply (i_out _ _ _ _ _ V); apply Ek|apply Ek|]. intros C. apply NC. rewrite in_app_iff in *. rewrite in_app_iff. tauto. }
  fold c. cbn [bind]. destruct Ek as [Rk NIk]. clearbody c. rewrite setNext_ok by lia. cbn [bind].
  set (m3 := with_next m2 c curr).
  assert (N3 : forall h, nx m3 h = if h =? c then curr else nx m h) by (intros h; unfold m3; rewrite nx_wnext by lia; rewrite N2; auto).
  assert (F3 : forall h, fa m3 h = if h =? curr then bl else fa m h) by exact F2.
  assert (VH3 : forall v, vh m3 v = if v =? ve m0 (tw curr) then tw curr else vh m v) by exact VH2.
  assert (FH3 : forall f, fh m3 f = fh m f) by (intros f; unfold fh; rewrite <- FH2; reflexivity).
  assert (A3' : forall ni, ni = n - Z.of_nat (length (concat LS ++ pre)) - 1 -> WArr m3 (Z.of_nat (length LS) + 1) ni).
  { intros ni Eni. unfold m3. split; proj; rewrite ?zlen_updZ; try lia; try auto. rewrite FH2; auto. }
  assert (CIn : forall y, In y (concat LS) -> y <> c /\ y <> curr).
  { intros y Hy. split.
    - intros ->. destruct NC as [NC|NC]; [|apply NC; apply in_app_iff; auto].
      apply (NoDup_app_disj _ _ c (t_nd _ _ _ _ T)); auto. rewrite NC, EH. apply hd_In. destruct pre; discriminate.
    - intros ->. apply (NoDup_app_disj _ _ curr (t_nd _ _ _ _ T)); auto. apply in_app_iff. right; left; auto. }
  assert (VHX : forall x, In x (concat LS ++ pre ++ [curr]) -> exists x', In x' (concat LS ++ pre ++ [curr]) /\ ve m0 (tw x') = ve m0 (tw x) /\ vh m3 (ve m0 (tw x)) = tw x').
  { intros x Hx. rewrite VH3. destruct (Z.eqb_spec (ve m0 (tw x)) (ve m0 (tw curr))) as [E|E].
    - exists curr. split; [rewrite !in_app_iff; cbn; auto|]. auto.
    - assert (Hx' : In x (concat LS ++ pre)). { rewrite !in_app_iff in *. destruct Hx as [Hx|[Hx|[Hx|[]]]]; auto. exfalso. congruence. }
      destruct (t_vh _ _ _ _ T x Hx') as (x' & X1 & X2 & X3). exists x'. split; [|auto]. rewrite !in_app_iff in *. tauto. }
  assert (VHY : forall v, 0 <= v < nV -> vh m3 v = vh m0 v \/ exists x', In x' (concat LS ++ pre ++ [curr]) /\ ve m0 (tw x') = v /\ vh m3 v = tw x').
  { intros v Hv. rewrite VH3. destruct (Z.eqb_spec v (ve m0 (tw curr))) as [E|E].
    - right. exists curr. split; [rewrite !in_app_iff; cbn; auto|]. auto.
    - destruct (t_vh0 _ _ _ _ T v Hv) as [X|(x' & X1 & X2 & X3)]; [left; auto|right; exists x'; split; [|auto]]. rewrite !in_app_iff in *. tauto. }
  assert (LPX : forall j l, nth_error LS j = Some l -> l <> [] /\ fh m3 (nF + Z.of_nat j) = hd (-1) l /\
      linked (nx m3) (rev l) /\ nx m3 (hd (-1) l) = last l (-1) /\
      forall x, In x l -> fa m3 x = nF + Z.of_nat j /\ In (nx m3 x) l /\ ve m0 (nx m3 x) = ve m0 (tw x)).
  { intros j l Hj. destruct (t_loop _ _ _ _ T _ _ Hj) as (Q1 & Q2 & Q3 & Q4 & Q5).
    assert (SN : forall x, In x l -> nx m3 x = nx m x /\ fa m3 x = fa m x).
    { intros x Hx. destruct (CIn x) as [X1 X2]; [eapply nth_error_concat; eauto|]. rewrite N3, F3. destruct (Z.eqb_spec x c); [congruence|]. destruct (Z.eqb_spec x curr); [congruence|]. auto. }
    split; auto. split; [rewrite FH3; auto|]. split; [eapply linked_ext; [|exact Q3]; intros x Hx; apply SN; apply in_rev; auto|].
    split; [rewrite (proj1 (SN _ (hd_In l Q1))); auto|]. intros x Hx. destruct (SN x Hx) as [-> ->]. auto. }
  assert (ND : NoDup (pre ++ [curr])) by (apply (NoDup_app_r _ _ (t_nd _ _ _ _ T))).
  assert (CURX : forall x, In x (pre ++ [curr]) -> fa m3 x = bl).
  { intros x Hx. rewrite F3. destruct (Z.eqb_spec x curr); auto. rewrite in_app_iff in Hx. destruct Hx as [Hx|[Hx|[]]]; [|congruence]. rewrite (t_cur _ _ _ _ T); auto. }
  destruct (Z.eqb_spec c iHe) as [CE|CE].
  - (* the loop closes *)
    set (l := pre ++ [curr]) in *. assert (NL : l <> []) by (unfold l; destruct pre; discriminate).
    exists m3, l. split; [reflexivity|].
    assert (EC : concat (LS ++ [l]) = concat LS ++ pre ++ [curr]) by (rewrite concat_app; cbn [concat]; rewrite app_nil_r; reflexivity).
    split; [|split; [apply A3'; rewrite EC; rewrite !app_length; cbn; lia|exists []; reflexivity]].
    assert (LAST : last l (-1) = curr) by apply last_last.
    assert (SNl : forall x, In x l -> x <> hd (-1) l -> nx m3 x = nx m x) by (intros x Hx Hn; rewrite N3; destruct (Z.eqb_spec x c); [congruence|auto]).
    split; rewrite ?EC, ?app_nil_r.
    + apply T.
    + apply T.
    + intros h Hh NI. rewrite N3. destruct (Z.eqb_spec h c); [|apply (t_nx _ _ _ _ T); auto]. exfalso. apply NI. apply in_app_iff. right. subst h. rewrite CE, EH. apply hd_In; auto.
    + intros h Hh NI. rewrite F3. destruct (Z.eqb_spec h curr) as [e|e]; [exfalso; apply NI; rewrite e; rewrite !in_app_iff; cbn; auto|]. apply (t_fa _ _ _ _ T); auto. intros C. apply NI. rewrite !in_app_iff in *. tauto.
    + intros f Hf. rewrite FH3. apply T; auto.
    + exact VHX.
    + exact VHY.
    + intros j l' Hj. destruct (Nat.eq_dec j (length LS)) as [->|NE].
      * rewrite nth_error_app2 in Hj by lia. rewrite Nat.sub_diag in Hj. cbn in Hj. assert (El : l' = l) by congruence. clear Hj. rewrite El. clear l' El. split; auto.
        split; [rewrite FH3, <- EB; congruence|]. split.
        { assert (RL : rev l = rev (tl l) ++ [hd (-1) l]) by (apply rev_hd_tl; auto). rewrite RL. apply (linked_ext_snoc (nx m)).
          - rewrite <- RL. apply NoDup_rev; auto.
          - intros z Hz. apply in_rev in Hz. apply SNl; [apply In_tl; auto|]. intros ->. apply (hd_not_tl l NL ND Hz).
          - rewrite <- RL. apply T. }
        split; [rewrite N3, LAST, <- EH; rewrite CE, Z.eqb_refl; auto|].
        intros x Hx. split; [rewrite <- EB; auto|]. destruct (Z.eq_dec x c) as [->|NX].
        { rewrite N3, Z.eqb_refl. split; [unfold l; apply in_app_iff; right; left; auto|]. congruence. }
        rewrite N3. destruct (Z.eqb_spec x c); [congruence|]. destruct (t_pred _ _ _ _ T x Hx) as [P|(P1 & P2)]; [exfalso; apply NX; rewrite CE, EH; exact P|].
        split; auto. unfold l. apply in_app_iff; auto.
      * assert (j < length LS)%nat by (assert (NN : nth_error (LS ++ [l]) j <> None) by congruence; apply nth_error_Some in NN; rewrite app_length in NN; cbn in NN; lia).
        rewrite nth_error_app1 in Hj by auto. apply LPX; auto.
    + intros x [].
    + exact Logic.I.
    + intros x [].
  - (* one step on *)
    destruct NC as [NC|NC]; [congruence|].
    assert (SNl : forall x, In x (pre ++ [curr]) -> nx m3 x = nx m x) by (intros x Hx; rewrite N3; destruct (Z.eqb_spec x c); [exfalso; apply NC; subst; apply in_app_iff; auto|auto]).
    destruct (IH m3 LS (pre ++ [curr]) c iHe bl) as (m' & l & E' & T' & A' & post & EP).
    + assert (E3 : forall x, In x (concat LS ++ (pre ++ [curr]) ++ [c]) <-> In x (concat LS ++ pre ++ [curr]) \/ x = c) by (intros x; rewrite !in_app_iff; cbn; intuition).
      split.
      * intros x Hx. apply E3 in Hx as [Hx| ->]; [apply T; auto|split; auto].
      * rewrite !app_assoc. rewrite <- (rev_involutive (_ ++ [c])). apply NoDup_rev. rewrite rev_app_distr. cbn [rev app]. constructor.
        { intros C. apply NC. apply in_rev in C. rewrite <- !app_assoc in C. exact C. }
        apply NoDup_rev. rewrite <- !app_assoc. apply T.
      * intros h Hh NI. rewrite N3. destruct (Z.eqb_spec h c); [exfalso; apply NI; apply E3; auto|]. apply (t_nx _ _ _ _ T); auto. intros C. apply NI. apply E3; auto.
      * intros h Hh NI. rewrite F3. destruct (Z.eqb_spec h curr); [exfalso; apply NI; subst; rewrite !in_app_iff; cbn; auto|]. apply (t_fa _ _ _ _ T); auto. intros C. apply NI. rewrite !in_app_iff in *. tauto.
      * intros f Hf. rewrite FH3. apply T; auto.
      * exact VHX.
      * exact VHY.
      * exact LPX.
      * intros x Hx. rewrite CURX by auto. exact EB.
      * rewrite rev_app_distr. cbn [rev app]. rewrite rev_app_distr. cbn [rev app]. split; [rewrite N3, Z.eqb_refl; auto|].
        assert (RL : linked (nx m) (rev (pre ++ [curr]))) by apply T. rewrite rev_app_distr in RL. eapply linked_ext; [|exact RL].
        intros x Hx. apply SNl. apply in_rev. rewrite rev_app_distr. exact Hx.
      * intros y Hy. apply in_app_iff in Hy as [Hy|[<-|[]]].
        { rewrite SNl by auto. destruct (t_pred _ _ _ _ T y Hy) as [P|(P1 & P2)]; [left; rewrite P; destruct pre; reflexivity|right; split; auto; apply in_app_iff; auto]. }
        { right. rewrite N3, Z.eqb_refl. split; [apply in_app_iff; right; left; auto|congruence]. }
    + apply A3'. rewrite !app_length. cbn [length]. lia.
    + exact EB.
    + rewrite EH. destruct pre; reflexivity.
    + rewrite FH3. auto.
    + rewrite app_length. cbn [length]. lia.
    + exists m', l. split; [exact E'|]. split; auto. split; auto. exists (c :: post). rewrite EP, <- app_assoc. reflexivity.
Qed.

Lemma addLoop_ok m LS iHe : WSt m LS [] [] -> WArr m (Z.of_nat (length LS)) (n - Z.of_nat (length (concat LS))) -> 0 <= iHe < n ->
  exists m' LS', addLoop m iHe = Ok m' /\ WSt m' LS' [] [] /\ WArr m' (Z.of_nat (length LS')) (n - Z.of_nat (length (concat LS'))) /\
    incl (concat LS) (concat LS') /\ (ext0 iHe -> In iHe (concat LS')).
Proof.
  intros T A Hh. unfold addLoop. pose proof (w_fa _ _ _ A). rewrite faceOf_ok by lia. cbn [bind].
  assert (IN : (fa m iHe =? INVALID) = false <-> I iHe \/ In iHe (concat LS)).
  { rewrite Z.eqb_neq. unfold INVALID. destruct (in_dec Z.eq_dec iHe (concat LS)) as [C|C].
    - split; [auto|]. intros _. apply in_concat in C as (l & Hl & Hc). apply In_nth_error in Hl as (j & Hj). destruct (t_loop _ _ _ _ T _ _ Hj) as (_ & _ & _ & _ & Q).
      destruct (Q _ Hc) as (-> & _). pose proof (w_fh _ _ _ A). destruct (i_dec _ _ _ _ _ V (tw iHe)) as [Y|N]; [pose proof (i_fa _ _ _ _ _ V _ Y); lia|].
      exfalso. apply N. apply ext_tw. apply (t_ext _ _ _ _ T). rewrite app_nil_r. eapply nth_error_concat; eauto.
    - rewrite (t_fa _ _ _ _ T) by (auto; rewrite app_nil_r; auto). destruct (i_dec _ _ _ _ _ V iHe) as [Y|N].
      + pose proof (i_fa _ _ _ _ _ V _ Y). split; [auto|lia].
      + destruct (i_out _ _ _ _ _ V iHe Hh N) as [_ ->]. split; [congruence|tauto]. }
  destruct (fa m iHe =? INVALID) eqn:E; cbn [negb].
  - destruct IN as [_ IN]. assert (EX : ext0 iHe) by (split; auto; intros C; discriminate (IN (or_introl C))).
    assert (NC : ~ In iHe (concat LS)) by (intros C; discriminate (IN (or_intror C))).
    match goal with |- context [mkMesh ?a ?b ?c ?d ?e ?f ?g ?h ?i ?j ?k ?l ?o ?p ?q ?r ?s ?t ?u ?v ?w ?x] => set (m2 := mkMesh a b c d e f g h i j k l o p q r s t u v w x) end.
    destruct A as [A1 [A2 A2'] A3 A4 A5 A6 A7 A8 A9 A10 A11].
    assert (FH2 : forall f, 0 <= f -> fh m2 f = if f =? nF + Z.of_nat (length LS) then iHe else fh m f).
    { intros f Hf. unfold m2, fh. proj. unfold getZ, zlen in *. destruct (Z.ltb_spec f 0); [lia|]. destruct (Z.eqb_spec f (nF + Z.of_nat (length LS))).
      - rewrite app_nth2 by lia. replace (Z.to_nat f - length (fHalfedge m))%nat with 0%nat by lia. reflexivity.
      - destruct (Nat.lt_ge_cases (Z.to_nat f) (length (fHalfedge m))); [rewrite app_nth1; auto|]. rewrite !nth_overflow; auto. rewrite app_length. cbn. lia. }
    assert (NF0 : 0 <= nF). { destruct (i_fa _ _ _ _ _ V _ (ext_tw _ EX)). lia. }
    destruct (walkLoop_ok (Z.to_nat (nHalfedges m2) - 1) m2 LS [] iHe iHe (nFaces m2 + nLoops m)) as (m' & l & E1 & T1 & W1 & post & EP).
    + destruct T as [T1 T2 T3 T4 T5 T6 T7 T8 T9 T10 T11]. cbn [app] in *. rewrite app_nil_r in *. split; cbn [app]; rewrite ?app_nil_r.
      * intros x Hx. apply in_app_iff in Hx as [Hx|[<-|[]]]; auto.
      * rewrite <- (rev_involutive (_ ++ _)). apply NoDup_rev. rewrite rev_app_distr. cbn. constructor; [rewrite <- in_rev; auto|apply NoDup_rev; auto].
      * intros h Hh' NI. apply T3; auto. intros C. apply NI. apply in_app_iff; auto.
      * exact T4.
      * intros f Hf. rewrite FH2 by lia. destruct (Z.eqb_spec f (nF + Z.of_nat (length LS))); [lia|auto].
      * exact T6.
      * exact T7.
      * intros k l Hk. rewrite FH2 by lia. destruct (Z.eqb_spec (nF + Z.of_nat k) (nF + Z.of_nat (length LS))).
        { exfalso. assert (NN : nth_error LS k <> None) by congruence. apply nth_error_Some in NN. lia. } apply T8; auto.
      * intros x [].
      * exact Logic.I.
      * intros y [<-|[]]. left; auto.
    + unfold m2. split; proj; auto; try lia. unfold zlen in *. rewrite app_length. cbn. lia. rewrite app_nil_r. auto.
    + unfold m2. proj. lia.
    + reflexivity.
    + rewrite FH2 by (unfold m2; proj; lia). unfold m2. proj. rewrite A10, A11, Z.eqb_refl. auto.
    + unfold m2. proj. rewrite A6. cbn. lia.
    + exists m', (LS ++ [l]). change (nFaces m + nLoops m) with (nFaces m2 + nLoops m). split; [exact E1|]. split; auto. split; [rewrite app_length; cbn [length]; rewrite Nat2Z.inj_add; exact W1|].
      rewrite concat_app. split; [intros x Hx; apply in_app_iff; auto|]. intros _. apply in_app_iff. right. cbn [concat]. rewrite app_nil_r, EP. left; auto.
  - exists m, LS. split; auto. split; auto. split; auto. split; [apply incl_refl|]. intros [_ EX]. destruct (proj1 IN eq_refl); [contradiction|auto].
Qed.

Lemma addLoops_ok : forall hs m LS, WSt m LS [] [] -> WArr m (Z.of_nat (length LS)) (n - Z.of_nat (length (concat LS))) -> (forall h, In h hs -> 0 <= h < n) ->
  exists m' LS', foldM addLoop hs m = Ok m' /\ WSt m' LS' [] [] /\ WArr m' (Z.of_nat (length LS')) (n - Z.of_nat (length (concat LS'))) /\
    incl (concat LS) (concat LS') /\ (forall h, In h hs -> ext0 h -> In h (concat LS')).
Proof.
  induction hs as [|h t IH]; intros m LS T A R; cbn [foldM].
  - exists m, LS. split; auto. split; auto. split; auto. split; [apply incl_refl|intros h []].
  - destruct (addLoop_ok m LS h T A (R h (or_introl eq_refl))) as (m1 & LS1 & -> & T1 & A1 & I1 & J1). cbn [bind].
    destruct (IH m1 LS1 T1 A1) as (m2 & LS2 & E2 & T2 & A2 & I2 & J2); [intros x Hx; apply R; right; auto|].
    exists m2, LS2. split; auto. split; auto. split; auto. split; [eapply incl_tran; eauto|]. intros x [<-|Hx] Ex; [apply I2; auto|auto].
Qed.
End Walk.
