(** The polygon constructor, fifth part: the whole of buildMesh. *)
From Coq Require Import ListDec.
From Verif Require Import Base MeshModel MeshSpec MeshBase MeshExec MeshAlloc MeshBuildModel BuildSpec BuildProofs BuildLoops BuildWalk BuildValid.
Open Scope Z_scope.

(** ** sides against arcs *)
Lemma nth_error_sides p i a b : nth_error (sides p) i = Some (a, b) <-> nth_error p i = Some a /\ nth_error p (Nat.modulo (S i) (length p)) = Some b.
Proof.
  split.
  - intros H. assert (Hi : (i < length p)%nat) by (rewrite <- sides_length; apply nth_error_Some; congruence).
    pose proof (nth_error_nth _ _ (-1, -1) H) as E. rewrite sides_nth in E by auto. injection E as E1 E2.
    rewrite <- E1, <- E2. split; apply nth_error_nth'; auto. apply Nat.mod_upper_bound. lia.
  - intros [H1 H2]. assert (Hi : (i < length p)%nat) by (apply nth_error_Some; congruence).
    rewrite (nth_error_nth' _ (-1, -1)) by (rewrite sides_length; auto). rewrite sides_nth by auto. f_equal. f_equal; apply nth_error_nth; auto.
Qed.
Lemma arcAt_sides polys j i a b : arcAt polys j i a b <-> exists l, nth_error (map sides polys) j = Some l /\ nth_error l i = Some (a, b).
Proof.
  unfold arcAt. split.
  - intros (p & H1 & H2). exists (sides p). split; [apply map_nth_error; auto|apply nth_error_sides; auto].
  - intros (l & H1 & H2). destruct (nth_error polys j) as [p|] eqn:E.
    + rewrite (map_nth_error sides _ _ E) in H1. injection H1 as <-. exists p. split; auto. apply nth_error_sides; auto.
    + assert (C : nth_error (map sides polys) j = None) by (apply nth_error_None; rewrite map_length; apply nth_error_None; auto). congruence.
Qed.
Lemma arc_In polys a b : arc polys a b <-> In (a, b) (concat (map sides polys)).
Proof.
  unfold arc. split.
  - intros (j & i & H). apply arcAt_sides in H as (l & H1 & H2). eapply nth_error_concat; eauto. eapply nth_error_In; eauto.
  - intros H. apply in_concat in H as (l & H1 & H2). apply In_nth_error in H1 as (j & H1). apply In_nth_error in H2 as (i & H2).
    exists j, i. apply arcAt_sides. eauto.
Qed.
Lemma NoDup_app_iff {A} (l1 l2 : list A) : NoDup (l1 ++ l2) <-> NoDup l1 /\ NoDup l2 /\ (forall x, In x l1 -> In x l2 -> False).
Proof.
  induction l1 as [|x t IH]; cbn [app].
  - split; [intros H; split; [constructor|split; [auto|intros x []]]|tauto].
  - split.
    + intros H. inversion H as [|? ? N1 N2]; subst. apply IH in N2 as (A1 & A2 & A3). split; [constructor; auto; intros C; apply N1; apply in_or_app; auto|].
      split; auto. intros y [<-|Hy] Hz; [apply N1; apply in_or_app; auto|eauto].
    + intros (H1 & H2 & H3). inversion H1 as [|? ? N1 N2]; subst. constructor.
      * intros C. apply in_app_or in C as [C|C]; [auto|]. apply (H3 x); [left; auto|auto].
      * apply IH. split; auto. split; auto. intros y Hy Hz. apply (H3 y); [right; auto|auto].
Qed.
Lemma NoDup_concat {A} (LL : list (list A)) : NoDup (concat LL) <->
  forall j i j' i' l l' x, nth_error LL j = Some l -> nth_error l i = Some x -> nth_error LL j' = Some l' -> nth_error l' i' = Some x -> j = j' /\ i = i'.
Proof.
  induction LL as [|h t IH]; cbn [concat].
  - split; [intros _ [|j]; discriminate|constructor].
  - rewrite NoDup_app_iff, IH. split.
    + intros (H1 & H2 & H3) j i j' i' l l' x E1 E2 E3 E4. destruct j as [|j], j' as [|j']; cbn in E1, E3.
      * injection E1 as <-. injection E3 as <-. split; auto. apply (proj1 (NoDup_nth_error h) H1); [apply nth_error_Some; congruence|congruence].
      * exfalso. injection E1 as <-. apply (H3 x); [eapply nth_error_In; eauto|]. eapply nth_error_concat; [exact E3|eapply nth_error_In; eauto].
      * exfalso. injection E3 as <-. apply (H3 x); [eapply nth_error_In; eauto|]. eapply nth_error_concat; [exact E1|eapply nth_error_In; eauto].
      * destruct (H2 j i j' i' l l' x) as [-> ->]; auto.
    + intros H. split; [|split].
      * apply NoDup_nth_error. intros i i' Hi E. destruct (nth_error h i) as [x|] eqn:Ex; [|apply nth_error_None in Ex; lia].
        destruct (H 0%nat i 0%nat i' h h x) as [_ K]; auto.
      * intros j i j' i' l l' x E1 E2 E3 E4. destruct (H (S j) i (S j') i' l l' x) as [K1 K2]; auto.
      * intros x H1 H2. apply In_nth_error in H1 as (i & H1). apply in_concat in H2 as (l & H2 & H2'). apply In_nth_error in H2 as (j & H2). apply In_nth_error in H2' as (i' & H2').
        destruct (H 0%nat i (S j) i' h l x) as [K _]; auto. discriminate.
Qed.
Lemma once_NoDup polys : NoDup (concat (map sides polys)) <-> forall j i j' i' a b, arcAt polys j i a b -> arcAt polys j' i' a b -> j = j' /\ i = i'.
Proof.
  rewrite NoDup_concat. split.
  - intros H j i j' i' a b H1 H2. apply arcAt_sides in H1 as (l & E1 & E2), H2 as (l' & E3 & E4). eapply H; eauto.
  - intros H j i j' i' l l' [a b] E1 E2 E3 E4. apply (H j i j' i' a b); apply arcAt_sides; eauto.
Qed.
Lemma fresh_arcs polys : fresh [] (concat (map sides polys)) <->
  (forall a, ~ arc polys a a) /\ (forall j i j' i' a b, arcAt polys j i a b -> arcAt polys j' i' a b -> j = j' /\ i = i').
Proof.
  rewrite fresh_iff, once_NoDup, Forall_forall. split.
  - intros (H1 & H2 & _). split; auto. intros a Ha. apply arc_In in Ha. apply H1 in Ha. cbn in Ha. auto.
  - intros (H1 & H2). split; [|split; auto]. intros [a b] Hk. cbn. intros ->. apply arc_In in Hk. apply (H1 _ Hk).
Qed.

(** ** the largest index *)
Lemma maxList_ge l acc : acc <= fold_left Z.max l acc /\ forall x, In x l -> x <= fold_left Z.max l acc.
Proof.
  revert acc; induction l as [|x t IH]; intros acc; cbn [fold_left]; [split; [lia|intros x []]|]. destruct (IH (Z.max acc x)) as [H1 H2]. split; [lia|].
  intros y [<-|Hy]; [lia|auto].
Qed.
Lemma maxList_in l acc : fold_left Z.max l acc = acc \/ In (fold_left Z.max l acc) l.
Proof.
  revert acc; induction l as [|x t IH]; intros acc; cbn [fold_left]; [auto|]. destruct (IH (Z.max acc x)) as [->|H]; [|right; right; auto].
  destruct (Z.max_spec acc x) as [[_ ->]|[_ ->]]; [right; left; auto|auto].
Qed.
Lemma maxIndex_spec polys : 0 <= maxIndex polys /\ (forall v, uses polys v -> v <= maxIndex polys) /\ (maxIndex polys = 0 \/ uses polys (maxIndex polys)).
Proof.
  unfold maxIndex. assert (K : forall ps acc, acc <= fold_left (fun acc p => fold_left Z.max p acc) ps acc /\
    (forall v, uses ps v -> v <= fold_left (fun acc p => fold_left Z.max p acc) ps acc) /\
    (fold_left (fun acc p => fold_left Z.max p acc) ps acc = acc \/ uses ps (fold_left (fun acc p => fold_left Z.max p acc) ps acc))).
  { induction ps as [|p t IH]; intros acc; cbn [fold_left].
    - split; [lia|]. split; [intros v (q & [] & _)|auto].
    - destruct (IH (fold_left Z.max p acc)) as (H1 & H2 & H3). destruct (maxList_ge p acc) as [G1 G2]. split; [lia|]. split.
      + intros v (q & [<-|Hq] & Hv); [specialize (G2 v Hv); lia|apply H2; exists q; auto].
      + destruct H3 as [->|(q & Hq & Hv)]; [|right; exists q; split; [right; auto|auto]]. destruct (maxList_in p acc) as [->|H]; [auto|right; exists p; split; [left; auto|auto]]. }
  destruct (K polys 0) as (H1 & H2 & H3). auto.
Qed.

(** ** the whole constructor *)
Lemma checkDegrees_ok polys : (forallb (fun p => 3 <=? zlen p) polys = true -> checkDegrees polys = Ok tt) /\ (forallb (fun p => 3 <=? zlen p) polys = false -> checkDegrees polys = Throw).
Proof.
  unfold checkDegrees. induction polys as [|p t IH]; cbn [foldM forallb]; [split; [auto|discriminate]|].
  destruct (3 <=? zlen p); cbn [guard bind andb]; [apply IH|split; [discriminate|auto]].
Qed.

Definition start (nV nF : Z) : mesh :=
  mkMesh [] [] [] (repeat INVALID (Z.to_nat nV)) (repeat INVALID (Z.to_nat nF)) 0 0 0 nV nF 0 0 0 0 0 0 0 0 0 0 true [].
Lemma start_St nV nF : 0 <= nV -> 0 <= nF -> St nV nF (start nV nF) [] (repeat 0 (Z.to_nat nV)) [] [].
Proof.
  intros HV HF. split.
  - split; unfold start; pj; try apply zlen_repeat; try reflexivity; auto; unfold zlen; cbn; lia.
  - split; cbn [start heFill map].
    + intros ? ? ? [].
    + intros; lia.
    + intros; lia.
    + intros ? ? ? ? [].
    + constructor.
  - reflexivity.
  - intros [|f]; discriminate.
  - intros h [].
  - exact Logic.I.
  - congruence.
  - apply zlen_repeat; auto.
  - intros v Hv. left. rewrite getZ_repeat by lia. split; auto. split; [unfold vh; cbn [start vHalfedge]; apply getZ_repeat; lia|]. intros b h [].
Qed.

Definition loopsFrom (m : mesh) : mesh :=
  mkMesh (heNext m) (heVertex m) (heFace m) (vHalfedge m) (fHalfedge m) (nHalfedges m) (nHalfedges m) (nEdges m) (nVertices m) (nFaces m) (nLoops m)
     (heFill m) (eFill m) (vFill m) (fFill m) (bFill m) (heCap m) (eCap m) (vCap m) (fCap m) (compressed m) (cblog m).
Lemma buildMesh_unfold polys : buildMesh polys =
  let* _ := checkDegrees polys in
  let nF := zlen (map zlen polys) in
  let nV := maxIndex polys + 1 in
  let* (m, _, used, _) := foldM addFace polys (start nV nF, [], repeat 0 (Z.to_nat nV), 0) in
  let* _ := foldM (fun _ v => let* u := rdZ used v in guard (negb (u =? 0))) (zseq nV) tt in
  let* _ := checkBoundaryVertices m nV in
  let* m := foldM addLoop (zseq (nHalfedges (loopsFrom m))) (loopsFrom m) in
  let* _ := checkStars (finish m) in
  Ok (finish m).
Proof. reflexivity. Qed.

(** everything known about an accepted list *)
Record Built (polys : list (list Z)) (M : mesh) : Prop := {
  bu_valid : Valid M;
  bu_nv : nVertices M = maxIndex polys + 1 /\ vFill M = maxIndex polys + 1;
  bu_nf : nFaces M = Z.of_nat (length polys) /\ fFill M = Z.of_nat (length polys);
  bu_cap : heFill M = nHalfedges M /\ heCap M = nHalfedges M /\ vCap M = nVertices M /\ fCap M = nFaces M + nLoops M /\ bFill M = nLoops M /\ compressed M = true;
  bu_face : forall f p, nth_error polys f = Some p -> exists l, length l = length p /\ NoDup l /\ fh M (Z.of_nat f) = hd (-1) l /\
     linked (nx M) l /\ nx M (last l (-1)) = hd (-1) l /\
     (forall h, (0 <= h < heFill M /\ fa M h = Z.of_nat f) <-> In h l) /\
     (forall i, (i < length p)%nat -> ve M (nth i l (-1)) = nth i p (-1) /\ ve M (tw (nth i l (-1))) = nth (Nat.modulo (S i) (length p)) p (-1));
  bu_key : forall h h', 0 <= h < heFill M -> 0 <= h' < heFill M -> ve M h = ve M h' -> ve M (tw h) = ve M (tw h') -> h = h' }.

(** the two tests that remain when the sides are in order *)
Record Inner (polys : list (list Z)) : Prop := {
  in_deg : forall p, In p polys -> (3 <= length p)%nat;
  in_fresh : fresh [] (concat (map sides polys));
  in_used : forall v, 0 <= v <= maxIndex polys -> uses polys v }.

Lemma uses_sides polys v : uses polys v <-> exists b, In (v, b) (concat (map sides polys)).
Proof.
  split.
  - intros (p & Hp & Hv). apply In_nth_error in Hv as (i & Hi). assert (Li : (i < length p)%nat) by (apply nth_error_Some; congruence).
    exists (nth (Nat.modulo (S i) (length p)) p (-1)). apply in_concat. exists (sides p). split; [apply in_map; auto|].
    apply nth_error_In with i. apply nth_error_sides. split; auto. apply nth_error_nth'. apply Nat.mod_upper_bound. lia.
  - intros (b & H). apply in_concat in H as (l & Hl & H). apply in_map_iff in Hl as (p & <- & Hp). apply sides_In in H as [H _]. exists p; auto.
Qed.
Lemma uses_tip polys a b : In (a, b) (concat (map sides polys)) -> uses polys a /\ uses polys b.
Proof.
  intros H. apply in_concat in H as (l & Hl & H). apply in_map_iff in Hl as (p & <- & Hp). apply sides_In in H as [H1 H2]. split; exists p; auto.
Qed.

(** the faces phase *)
Lemma build_faces polys : indices polys ->
  (Inner polys -> exists m d used FS, St (maxIndex polys + 1) (Z.of_nat (length polys)) m d used FS [] /\ map (map fst) FS = map sides polys /\
     (forall v, 0 <= v < maxIndex polys + 1 -> exists b, In (v, b, vh m v) d) /\
     buildMesh polys = let* _ := checkBoundaryVertices m (maxIndex polys + 1) in
        let* m := foldM addLoop (zseq (nHalfedges (loopsFrom m))) (loopsFrom m) in let* _ := checkStars (finish m) in Ok (finish m)) /\
  (~ Inner polys -> buildMesh polys = Throw).
Proof.
  intros NN. rewrite buildMesh_unfold. cbv zeta. destruct (checkDegrees_ok polys) as [D1 D2]. destruct (maxIndex_spec polys) as (X1 & X2 & X3).
  assert (EF : zlen (map zlen polys) = Z.of_nat (length polys)) by (unfold zlen; rewrite map_length; reflexivity). rewrite EF.
  assert (DG : forallb (fun p => 3 <=? zlen p) polys = true <-> forall p, In p polys -> (3 <= length p)%nat).
  { rewrite forallb_forall. split; intros H p Hp; specialize (H p Hp); unfold zlen in *; lia. }
  destruct (forallb (fun p => 3 <=? zlen p) polys) eqn:ED.
  2:{ rewrite D2 by auto. cbn [bind]. split; [|auto]. intros [I1 _ _]. apply DG in I1. discriminate. }
  rewrite D1 by auto. cbn [bind]. apply proj1 in DG. specialize (DG eq_refl).
  assert (R : Forall (fun k : Z * Z => 0 <= fst k < maxIndex polys + 1 /\ 0 <= snd k < maxIndex polys + 1) (concat (map sides polys))).
  { apply Forall_forall. intros [a b] H. destruct (uses_tip _ _ _ H) as [U1 U2]. cbn [fst snd]. pose proof (NN _ U1). pose proof (NN _ U2). pose proof (X2 _ U1). pose proof (X2 _ U2). lia. }
  destruct (addFaces_ok (maxIndex polys + 1) (Z.of_nat (length polys)) polys [] (start (maxIndex polys + 1) (Z.of_nat (length polys))) [] (repeat 0 (Z.to_nat (maxIndex polys + 1)))) as [P1 P2].
  { rewrite !zlen_const. cbn. lia. } { apply Forall_forall. intros p Hp ->. specialize (DG _ Hp). cbn in DG. lia. } { apply start_St; lia. } { exact R. }
  cbn [map] in P1, P2. change (zlen []) with 0 in P1, P2.
  match type of P2 with _ -> ?x = Throw => match goal with |- context [bind ?y _] => change y with x end end.
  destruct (fresh_dec [] (concat (map sides polys))) as [FR|FR].
  2:{ rewrite (P2 FR). cbn [bind]. split; [|auto]. intros [_ I2 _]. contradiction. }
  destruct (P1 FR) as (m & d & used & FS & E & S & K). rewrite E. cbn [bind app] in *. clear E P1 P2 D1 D2.
  assert (KD : forall a b, (exists h, In (a, b, h) d) <-> In (a, b) (concat (map sides polys))).
  { intros a b. rewrite (s_d _ _ _ _ _ _ _ S), app_nil_r, <- K, <- concat_map. split.
    - intros (h & H). apply in_rev in H. apply in_map_iff. exists (a, b, h). auto.
    - intros H. apply in_map_iff in H as ([[a' b'] h] & E1 & H). cbn in E1. injection E1; intros; subst. exists h. apply -> in_rev. auto. }
  assert (US : forall v, 0 <= v < maxIndex polys + 1 -> (negb (getZ used v =? 0) = true <-> uses polys v)).
  { intros v Hv. rewrite uses_sides. destruct (s_used _ _ _ _ _ _ _ S v Hv) as [(U1 & U2 & U3)|(U1 & b & U2)]; rewrite U1.
    - split; [discriminate|]. intros (b & H). apply KD in H as (h & H). destruct (U3 _ _ H).
    - split; [|auto]. intros _. exists b. apply KD. eauto. }
  destruct (foldM_guard (fun v => negb (getZ used v =? 0)) (fun _ v => let* u := rdZ used v in guard (negb (u =? 0))) (zseq (maxIndex polys + 1))) as [G1 G2].
  { intros v Hv. apply zseq_In in Hv. rewrite rdZ_ok by (rewrite (s_ulen _ _ _ _ _ _ _ S); auto). reflexivity. }
  destruct (forallb (fun v => negb (getZ used v =? 0)) (zseq (maxIndex polys + 1))) eqn:EU.
  - rewrite forallb_forall in EU. assert (IU : forall v, 0 <= v <= maxIndex polys -> uses polys v) by (intros v Hv; apply US; [lia|apply EU; apply zseq_In; lia]).
    split; [intros _|intros NI; exfalso; apply NI; split; auto].
    exists m, d, used, FS. split; auto. split; auto. split; [|rewrite G1 by auto; reflexivity].
    intros v Hv. destruct (s_used _ _ _ _ _ _ _ S v Hv) as [(U1 & _)|(_ & U)]; auto. exfalso. specialize (EU v). rewrite U1 in EU. specialize (EU ltac:(apply zseq_In; auto)). discriminate.
  - split; [|intros _; rewrite G2 by auto; reflexivity]. intros [_ _ I3]. exfalso. assert (C : forallb (fun v => negb (getZ used v =? 0)) (zseq (maxIndex polys + 1)) = true); [|congruence].
    apply forallb_forall. intros v Hv. apply zseq_In in Hv. apply US; auto. apply I3. lia.
Qed.

(** the state between the faces and the loops, and what follows *)
Record Mid (polys : list (list Z)) (m : mesh) (d : dict) (used : list Z) (FS : list (list (Z * Z * Z))) : Prop := {
  mi_st : St (maxIndex polys + 1) (Z.of_nat (length polys)) m d used FS [];
  mi_fs : map (map fst) FS = map sides polys;
  mi_vh : forall v, 0 <= v < maxIndex polys + 1 -> exists b, In (v, b, vh m v) d }.
Definition isI (d : dict) (h : Z) := In h (map snd d).
Definition uniqueTails (m : mesh) (d : dict) := forall x y, ext0 (heFill m) (isI d) x -> ext0 (heFill m) (isI d) y -> ve m x = ve m y -> x = y.
Record Looped (polys : list (list Z)) (m : mesh) (d : dict) (m1 : mesh) (LS : list (list Z)) : Prop := {
  lo_w : WSt (maxIndex polys + 1) (Z.of_nat (length polys)) (heFill m) (isI d) m m1 LS [] [];
  lo_a : WArr (maxIndex polys + 1) (Z.of_nat (length polys)) (heFill m) m m1 (Z.of_nat (length LS)) (heFill m - Z.of_nat (length (concat LS)));
  lo_c : forall h, ext0 (heFill m) (isI d) h -> In h (concat LS) }.

Lemma mid_inter polys m d used FS : Mid polys m d used FS -> Inter (maxIndex polys + 1) (Z.of_nat (length polys)) (heFill m) (isI d) m.
Proof. intros [S K _]. apply (faces_inter _ _ _ _ _ _ polys S K eq_refl). Qed.
Lemma mid_vh polys m d used FS : Mid polys m d used FS -> forall v, 0 <= v < maxIndex polys + 1 -> isI d (vh m v) /\ ve m (vh m v) = v.
Proof.
  intros [S K H] v Hv. destruct (H v Hv) as (b & Hb). destruct (he_in _ _ _ _ (s_he _ _ _ _ _ _ _ S) _ _ _ Hb) as (_ & E & _). split; auto.
  apply in_map_iff. exists (v, b, vh m v). auto.
Qed.

Lemma start_WSt nV nF n I m : WSt nV nF n I m (loopsFrom m) [] [] [].
Proof.
  split; cbn [app concat rev].
  - intros x [].
  - constructor.
  - reflexivity.
  - reflexivity.
  - reflexivity.
  - intros x [].
  - intros w Hw. left. reflexivity.
  - intros [|k] l E; discriminate E.
  - intros x [].
  - exact Logic.I.
  - intros x [].
Qed.
Lemma build_main polys : indices polys -> Inner polys -> exists m d used FS, Mid polys m d used FS /\
  ((~ uniqueTails m d /\ buildMesh polys = Throw) \/
   (uniqueTails m d /\ exists m1 LS, Looped polys m d m1 LS /\
     ((stars (heFill m) m m1 /\ buildMesh polys = Ok (finish m1)) \/ (~ stars (heFill m) m m1 /\ buildMesh polys = Throw)))).
Proof.
  intros NN IN. destruct (build_faces polys NN) as [B _]. destruct (B IN) as (m & d & used & FS & S & K & VHs & ->). clear B.
  assert (MI : Mid polys m d used FS) by (split; auto). exists m, d, used, FS. split; auto.
  pose proof (mid_inter _ _ _ _ _ MI) as V. pose proof (mid_vh _ _ _ _ _ MI) as VH0. destruct (s_arr _ _ _ _ _ _ _ S) as [A1 A2 A3 A4 A5 A6 A7 A8 A9 A10 A11 A12 A13].
  pose proof (proj1 (maxIndex_spec polys)) as MX.
  destruct (checkBoundary_ok _ _ _ _ m V ltac:(lia) ltac:(lia) ltac:(lia) A7) as [[UT ->]|[UT ->]]; [right|left; split; auto]. split; [exact UT|]. cbn [bind].
  destruct (addLoops_ok _ _ _ _ m V UT (zseq (nHalfedges (loopsFrom m))) (loopsFrom m) []) as (m1 & LS & E1 & T1 & W1 & _ & COV).
  { apply start_WSt. }
  { split; unfold loopsFrom; pj; cbn [length concat]; try lia; auto. split; auto; lia. }
  { intros h Hh. apply zseq_In in Hh. unfold loopsFrom in Hh. cbn [nHalfedges] in Hh. lia. }
  rewrite E1. cbn [bind]. exists m1, LS.
  assert (LO : Looped polys m d m1 LS).
  { split; auto. intros h Eh. apply COV; auto. apply zseq_In. unfold loopsFrom. cbn [nHalfedges]. destruct Eh. lia. }
  split; auto. destruct LO as [_ _ C].
  destruct (checkStars_ok (heFill m) (maxIndex polys + 1) (finish m1) (ve m)) as [[F ->]|[F ->]]; cbn [bind].
  - lia.
  - lia.
  - intros h Hh. apply (n_tw _ _ _ _ _ V); auto.
  - apply (w_n _ _ _ _ _ _ _ W1).
  - apply (w_vh _ _ _ _ _ _ _ W1).
  - apply (w_nh _ _ _ _ _ _ _ W1).
  - apply (w_nv _ _ _ _ _ _ _ W1).
  - intros h Hh. eapply (ro_rng _ _ _ _ _ V); eauto.
  - intros a b Ha Hb. eapply (ro_inj _ _ _ _ _ V); eauto.
  - intros h Hh. eapply (ro_ve _ _ _ _ _ V); eauto.
  - intros h Hh. apply (i_ve _ _ _ _ _ V); auto.
  - intros v Hv. eapply (M_vh _ _ _ _ _ V); eauto.
  - left. split; auto.
  - right. split; auto.
Qed.

Lemma mid_key polys m d used FS h h' : Mid polys m d used FS -> 0 <= h < heFill m -> 0 <= h' < heFill m -> ve m h = ve m h' -> ve m (tw h) = ve m (tw h') -> h = h'.
Proof.
  intros MI R R' E1 E2. pose proof (mid_inter _ _ _ _ _ MI) as V. destruct MI as [S K _]. pose proof (s_he _ _ _ _ _ _ _ S) as H.
  destruct (int_or _ _ _ _ _ V h R) as [Y|Y], (int_or _ _ _ _ _ V h' R') as [Y'|Y'].
  - pose proof (HEs_snd _ _ _ _ _ _ _ H Y eq_refl eq_refl) as P. pose proof (HEs_snd _ _ _ _ _ _ _ H Y' eq_refl eq_refl) as P'. rewrite <- E1, <- E2 in P'.
    eapply key_fun; eauto. apply (he_nd _ _ _ _ H).
  - pose proof (HEs_snd _ _ _ _ _ _ _ H Y eq_refl eq_refl) as P. pose proof (HEs_snd _ _ _ _ _ _ _ H (ext_tw _ _ _ _ _ V h' Y') eq_refl eq_refl) as P'. rewrite tw_tw, <- E1, <- E2 in P'.
    apply tw_inj. symmetry. apply (he_tw _ _ _ _ H _ _ _ _ P P').
  - pose proof (HEs_snd _ _ _ _ _ _ _ H (ext_tw _ _ _ _ _ V h Y) eq_refl eq_refl) as P. pose proof (HEs_snd _ _ _ _ _ _ _ H Y' eq_refl eq_refl) as P'. rewrite tw_tw, E1, E2 in P.
    apply tw_inj. apply (he_tw _ _ _ _ H _ _ _ _ P' P).
  - pose proof (HEs_snd _ _ _ _ _ _ _ H (ext_tw _ _ _ _ _ V h Y) eq_refl eq_refl) as P. pose proof (HEs_snd _ _ _ _ _ _ _ H (ext_tw _ _ _ _ _ V h' Y') eq_refl eq_refl) as P'.
    rewrite tw_tw in P, P'. rewrite <- E1, <- E2 in P'. apply tw_inj. eapply key_fun; eauto. apply (he_nd _ _ _ _ H).
Qed.

Lemma built_ok polys m d used FS m1 LS : Mid polys m d used FS -> uniqueTails m d -> Looped polys m d m1 LS -> stars (heFill m) m m1 -> Built polys (finish m1).
Proof.
  intros MI UT [T W C] ST. pose proof (mid_inter _ _ _ _ _ MI) as V. pose proof (mid_vh _ _ _ _ _ MI) as VH0. pose proof (proj1 (maxIndex_spec polys)) as MX.
  pose proof (M_fills _ _ _ _ _ UT VH0 _ _ W C) as (F1 & F2 & F3 & F4 & F5).
  pose proof (s_arr _ _ _ _ _ _ _ (mi_st _ _ _ _ _ MI)) as AR. pose proof (ar_fill _ _ _ AR). pose proof (ar_ne _ _ _ AR).
  assert (MVE : forall h, ve (finish m1) h = ve m h) by (intros h; eapply M_ve; eauto).
  split.
  - eapply (M_valid _ _ _ _ _ V); eauto; lia.
  - split; [apply (w_nv _ _ _ _ _ _ _ W)|auto].
  - split; [apply (w_nf _ _ _ _ _ _ _ W)|auto].
  - unfold finish; pj. auto 10.
  - intros f p Hp. destruct MI as [S K VHH]. assert (LFS : length FS = length polys) by (rewrite <- (map_length (map fst) FS), K, map_length; reflexivity).
    destruct (nth_error FS f) as [l|] eqn:El.
    2:{ exfalso. apply nth_error_None in El. assert (NN : nth_error polys f <> None) by congruence. apply nth_error_Some in NN. lia. }
    assert (Kp : map fst l = sides p). { pose proof (map_nth_error (map fst) _ _ El) as Q. rewrite K, (map_nth_error sides _ _ Hp) in Q. congruence. }
    assert (Lf : (f < length polys)%nat) by (apply nth_error_Some; congruence).
    destruct (s_done _ _ _ _ _ _ _ S f l El) as [Q1 Q2 Q3 Q4 Q5].
    assert (II : forall h, In h (hds l) -> isI d h) by (intros h Hh; apply (I_face _ _ _ _ _ _ S); eauto).
    assert (NX : forall h, In h (hds l) -> nx (finish m1) h = nx m h /\ fa (finish m1) h = fa m h) by (intros h Hh; eapply (M_int _ _ _ _ _ V); eauto).
    exists (hds l). split; [|split; [|split; [|split; [|split; [|split]]]]].
    + unfold hds. rewrite map_length, <- (map_length fst l), Kp. apply sides_length.
    + eapply face_NoDup; eauto.
    + rewrite <- Q2. apply (t_fh _ _ _ _ _ _ _ _ _ T). lia.
    + eapply linked_ext; [|exact Q4]. intros x Hx. apply NX; auto.
    + rewrite (proj1 (NX _ (last_In (hds l) (-1) (hds_ne l Q1)))). auto.
    + intros h. rewrite F1. split.
      * intros [R E]. destruct (int_or _ _ _ _ _ V h R) as [Y|Y].
        { pose proof Y as Y2. apply (I_face _ _ _ _ _ _ S) in Y as (f' & l' & G1 & G2). rewrite (proj2 (M_int _ _ _ _ _ V _ _ T h Y2)) in E. rewrite (face_of _ _ _ _ _ _ S _ _ _ G1 G2) in E.
          assert (f' = f) by lia. subst f'. congruence. }
        { exfalso. destruct (M_loop_face _ _ _ _ _ _ _ T C h Y) as (k & l' & _ & _ & E2). lia. }
      * intros Hh. split; [apply (i_rng _ _ _ _ _ V); auto|]. rewrite (proj2 (NX h Hh)). auto.
    + intros i Hi. rewrite !MVE. destruct (face_side _ _ _ _ _ _ polys S _ _ _ i El Kp Hi) as (_ & E1 & E2). auto.
  - intros h h' R R' E1 E2. rewrite F1 in R, R'. rewrite !MVE in *. eapply mid_key; eauto.
Qed.

(** the outcome of the constructor: never undefined behaviour *)
Theorem build_outcome polys : indices polys -> buildMesh polys = Throw \/ exists M, buildMesh polys = Ok M /\ Built polys M /\ Inner polys.
Proof.
  intros NN. assert (D : Inner polys \/ buildMesh polys = Throw).
  { destruct (fresh_dec [] (concat (map sides polys))) as [FR|FR]; [|right; apply build_faces; auto; intros [_ C _]; contradiction].
    destruct (forallb (fun p => 3 <=? zlen p) polys) eqn:ED.
    2:{ right. apply build_faces; auto. intros [C _ _]. assert (forallb (fun p => 3 <=? zlen p) polys = true); [|congruence]. apply forallb_forall. intros p Hp. specialize (C p Hp). unfold zlen. lia. }
    destruct (forallb (fun v => existsb (fun p => existsb (Z.eqb v) p) polys) (zseq (maxIndex polys + 1))) eqn:EU.
    - left. rewrite forallb_forall in ED, EU. split; auto.
      + intros p Hp. specialize (ED p Hp). unfold zlen in ED. lia.
      + intros v Hv. specialize (EU v). rewrite zseq_In in EU. specialize (EU ltac:(lia)). apply existsb_exists in EU as (p & Hp & E). apply existsb_exists in E as (w & Hw & E). apply Z.eqb_eq in E. subst w. exists p; auto.
    - right. apply build_faces; auto. intros [_ _ C]. assert (forallb (fun v => existsb (fun p => existsb (Z.eqb v) p) polys) (zseq (maxIndex polys + 1)) = true); [|congruence].
      apply forallb_forall. intros v Hv. apply zseq_In in Hv. destruct (C v ltac:(lia)) as (p & Hp & Hv'). apply existsb_exists. exists p. split; auto. apply existsb_exists. exists v. split; auto. apply Z.eqb_refl. }
  destruct D as [D|D]; [|auto]. destruct (build_main polys NN D) as (m & d & used & FS & MI & [[_ E]|(UT & m1 & LS & LO & [[ST E]|[_ E]])]); auto.
  right. exists (finish m1). split; auto. split; auto. eapply built_ok; eauto.
Qed.
