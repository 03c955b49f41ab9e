(** The polygon constructor, second part: what the loop over the faces leaves behind, and the loops along the boundary
    (manifold_surface_mesh.cpp:144-211). *)
From Coq Require Import ListDec.
From Verif Require Import Base MeshModel MeshSpec MeshBase MeshExec MeshAlloc MeshBuildModel BuildProofs.
Open Scope Z_scope.

(** connectivity after the loop over the faces: [I] are the halfedges of the polygons *)
Record Inter (nV nF n : Z) (I : Z -> Prop) (m : mesh) : Prop := {
  i_dec : forall h, I h \/ ~ I h;
  i_rng : forall h, I h -> 0 <= h < n;
  i_even : forall h, 0 <= h < n -> h mod 2 = 0 -> I h;
  i_n : 0 <= n /\ n mod 2 = 0;
  i_out : forall h, 0 <= h < n -> ~ I h -> nx m h = -1 /\ fa m h = -1;
  i_fa : forall h, I h -> 0 <= fa m h < nF;
  i_nx : forall h, I h -> I (nx m h);
  i_vnx : forall h, I h -> ve m (nx m h) = ve m (tw h);
  i_fnx : forall h, I h -> fa m (nx m h) = fa m h;
  i_inj : forall a b, I a -> I b -> nx m a = nx m b -> a = b;
  i_orb : forall a b, I a -> I b -> fa m a = fa m b -> reach (nx m) a b;
  i_fh : forall f, 0 <= f < nF -> I (fh m f) /\ fa m (fh m f) = f;
  i_ve : forall h, 0 <= h < n -> 0 <= ve m h < nV }.

(** ** cyclic lists *)
Lemma linked_nth g : forall (l : list Z) i, linked g l -> (S i < length l)%nat -> g (nth i l (-1)) = nth (S i) l (-1).
Proof.
  induction l as [|x [|y t] IH]; intros i H K; cbn [length] in K; try lia. destruct H as [H1 H2]. destruct i as [|i]; [exact H1|].
  change (g (nth i (y :: t) (-1)) = nth (S i) (y :: t) (-1)). apply IH; auto. cbn [length]. lia.
Qed.
Lemma last_nth (l : list Z) : l <> [] -> last l (-1) = nth (length l - 1) l (-1).
Proof.
  intros H. destruct (exists_last H) as (p & x & ->). rewrite last_last, app_length. cbn [length].
  rewrite app_nth2 by lia. replace (length p + 1 - 1 - length p)%nat with 0%nat by lia. reflexivity.
Qed.
Lemma cyc_nth g l i : l <> [] -> linked g l -> g (last l (-1)) = hd (-1) l -> (i < length l)%nat ->
  g (nth i l (-1)) = nth (Nat.modulo (S i) (length l)) l (-1).
Proof.
  intros NE H C K. destruct (Nat.eq_dec (S i) (length l)) as [E|E].
  - rewrite E, Nat.mod_same by lia. rewrite last_nth in C by auto. replace (length l - 1)%nat with i in C by lia. rewrite C. destruct l; reflexivity.
  - rewrite Nat.mod_small by lia. apply linked_nth; auto. lia.
Qed.
Lemma cyc_iter g l i k : l <> [] -> linked g l -> g (last l (-1)) = hd (-1) l -> (i < length l)%nat ->
  Nat.iter k g (nth i l (-1)) = nth (Nat.modulo (i + k) (length l)) l (-1).
Proof.
  intros NE H C K. induction k as [|k IH].
  - rewrite Nat.add_0_r, Nat.mod_small by auto. reflexivity.
  - cbn [Nat.iter nat_rect]. fold (Nat.iter k g (nth i l (-1))). rewrite IH. rewrite (cyc_nth g) by (auto; apply Nat.mod_upper_bound; lia).
    f_equal. replace (i + S k)%nat with (S (i + k)) by lia. rewrite <- (Nat.add_1_l (_ mod _)), Nat.add_mod_idemp_r by lia. f_equal.
Qed.
Lemma cyc_in g l x : l <> [] -> linked g l -> g (last l (-1)) = hd (-1) l -> In x l -> In (g x) l.
Proof.
  intros NE H C K. apply (In_nth _ _ (-1)) in K as (i & Hi & <-). rewrite (cyc_nth g l i) by auto. apply nth_In. apply Nat.mod_upper_bound. lia.
Qed.
Lemma cyc_reach g l x y : l <> [] -> linked g l -> g (last l (-1)) = hd (-1) l -> In x l -> In y l -> reach g x y.
Proof.
  intros NE H C K1 K2. apply (In_nth _ _ (-1)) in K1 as (i & Hi & <-). apply (In_nth _ _ (-1)) in K2 as (j & Hj & <-).
  exists (length l - i + j)%nat. rewrite (cyc_iter g) by auto. f_equal. replace (i + (length l - i + j))%nat with (j + 1 * length l)%nat by lia.
  rewrite Nat.mod_add by lia. apply Nat.mod_small. auto.
Qed.
Lemma cyc_inj g l x y : l <> [] -> NoDup l -> linked g l -> g (last l (-1)) = hd (-1) l -> In x l -> In y l -> g x = g y -> x = y.
Proof.
  intros NE ND H C K1 K2 E. apply (In_nth _ _ (-1)) in K1 as (i & Hi & <-). apply (In_nth _ _ (-1)) in K2 as (j & Hj & <-).
  rewrite !(cyc_nth g l) in E by auto. assert (L : (length l <> 0)%nat) by lia.
  apply (proj1 (NoDup_nth l (-1)) ND) in E; try (apply Nat.mod_upper_bound; auto).
  destruct (Nat.eq_dec (S i) (length l)) as [E1|E1], (Nat.eq_dec (S j) (length l)) as [E2|E2].
  - f_equal. lia.
  - rewrite E1, Nat.mod_same, Nat.mod_small in E by lia. lia.
  - rewrite E2, Nat.mod_same, (Nat.mod_small (S i)) in E by lia. lia.
  - rewrite !Nat.mod_small in E by lia. f_equal. lia.
Qed.

(** ** sides of a polygon *)
Lemma sides_length p : length (sides p) = length p.
Proof. destruct p as [|x t]; [reflexivity|]. unfold sides. rewrite combine_length, app_length. cbn [length]. lia. Qed.
Lemma nth_combine2 (l1 l2 : list Z) i x y : length l1 = length l2 -> nth i (combine l1 l2) (x, y) = (nth i l1 x, nth i l2 y).
Proof. apply combine_nth. Qed.
Lemma sides_nth p i : (i < length p)%nat -> nth i (sides p) (-1, -1) = (nth i p (-1), nth (Nat.modulo (S i) (length p)) p (-1)).
Proof.
  intros H. destruct p as [|x t]; [cbn in H; lia|]. unfold sides. rewrite nth_combine2 by (rewrite app_length; cbn; lia). f_equal.
  cbn [length] in *. destruct (Nat.eq_dec (S i) (S (length t))) as [E|E].
  - rewrite E, Nat.mod_same by lia. rewrite app_nth2 by lia. replace (i - length t)%nat with 0%nat by lia. reflexivity.
  - rewrite Nat.mod_small by lia. rewrite app_nth1 by lia. reflexivity.
Qed.
Lemma sides_In p a b : In (a, b) (sides p) -> In a p /\ In b p.
Proof.
  intros H. apply (In_nth _ _ (-1, -1)) in H as (i & Hi & E). rewrite sides_length in Hi. rewrite sides_nth in E by auto.
  injection E as E1 E2. split; [rewrite <- E1; apply nth_In; auto|]. rewrite <- E2. apply nth_In. apply Nat.mod_upper_bound. lia.
Qed.

(** ** after the loop over the faces *)
Section AfterFaces.
Context (nV nF : Z) (m : mesh) (d : dict) (used : list Z) (FS : list (list (Z * Z * Z))) (polys : list (list Z)).
Context (S : St nV nF m d used FS []) (HP : map (map fst) FS = map sides polys) (HF : nF = Z.of_nat (length polys)).
Let I h := In h (map snd d).

Lemma FS_len : length FS = length polys.
Proof. rewrite <- (map_length (map fst) FS), HP, map_length. reflexivity. Qed.
Lemma I_face h : I h <-> exists f l, nth_error FS f = Some l /\ In h (hds l).
Proof.
  unfold I. rewrite (s_d _ _ _ _ _ _ _ S), app_nil_r, map_rev, <- in_rev. split.
  - intros H. apply in_map_iff in H as (t & <- & H). apply in_concat in H as (l & H1 & H2). apply In_nth_error in H1 as (f & Hf).
    exists f, l. split; auto. apply in_map; auto.
  - intros (f & l & H1 & H2). apply in_map_iff in H2 as (t & <- & H2). apply in_map. eapply nth_error_concat; eauto.
Qed.
Lemma face_poly f l : nth_error FS f = Some l -> exists p, nth_error polys f = Some p /\ map fst l = sides p.
Proof.
  intros H. pose proof (map_nth_error (map fst) _ _ H) as K. rewrite HP in K. destruct (nth_error polys f) as [p|] eqn:E.
  - exists p. split; auto. rewrite (map_nth_error sides _ _ E) in K. congruence.
  - apply nth_error_None in E. assert (C : nth_error (map sides polys) f = None) by (apply nth_error_None; rewrite map_length; auto). congruence.
Qed.
Lemma face_NoDup f l : nth_error FS f = Some l -> NoDup (hds l).
Proof.
  intros H. pose proof (NoDup_snd _ _ _ _ (s_he _ _ _ _ _ _ _ S)) as ND. rewrite (s_d _ _ _ _ _ _ _ S), app_nil_r, map_rev in ND.
  apply NoDup_rev in ND. rewrite rev_involutive in ND. clear -H ND. revert f H. induction FS as [|x t IH]; intros f H; [destruct f; discriminate|].
  cbn [concat] in ND. rewrite map_app in ND. destruct f as [|f]; cbn in H.
  - injection H as <-. clear IH. unfold hds. induction (map snd x); [constructor|]. inversion ND; subst. constructor; [intros C; apply H1; apply in_or_app; auto|auto].
  - apply (IH) with f; auto. clear -ND. induction (map snd x); auto. inversion ND; auto.
Qed.
Lemma face_of h f l : nth_error FS f = Some l -> In h (hds l) -> fa m h = Z.of_nat f.
Proof. intros H K. apply (fo_fa _ _ _ (s_done _ _ _ _ _ _ _ S _ _ H)); auto. Qed.
Lemma same_face f l f' l' h h' : nth_error FS f = Some l -> nth_error FS f' = Some l' -> In h (hds l) -> In h' (hds l') -> fa m h = fa m h' -> l = l'.
Proof. intros H H' K K' E. rewrite (face_of _ _ _ H K), (face_of _ _ _ H' K') in E. apply Nat2Z.inj in E. congruence. Qed.
Lemma hds_ne l : l <> [] -> hds l <> [].
Proof. destruct l; [congruence|discriminate]. Qed.

(** the i-th halfedge of a face runs along the i-th side *)
Lemma face_side f l p i : nth_error FS f = Some l -> map fst l = sides p -> (i < length p)%nat ->
  length (hds l) = length p /\ ve m (nth i (hds l) (-1)) = nth i p (-1) /\ ve m (tw (nth i (hds l) (-1))) = nth (Nat.modulo (Datatypes.S i) (length p)) p (-1).
Proof.
  intros H E Hi. assert (L : length l = length p) by (rewrite <- (map_length fst l), E; apply sides_length).
  assert (K : In (nth i l (-1, -1, -1)) d).
  { rewrite (s_d _ _ _ _ _ _ _ S), app_nil_r. apply -> in_rev. eapply nth_error_concat; eauto. apply nth_In. lia. }
  split; [unfold hds; rewrite map_length; auto|].
  assert (EF : fst (nth i l (-1, -1, -1)) = nth i (sides p) (-1, -1)) by (rewrite <- E; symmetry; apply (map_nth fst l (-1, -1, -1))).
  assert (EH : nth i (hds l) (-1) = snd (nth i l (-1, -1, -1))) by apply (map_nth snd l (-1, -1, -1)).
  rewrite EH. destruct (nth i l (-1, -1, -1)) as [[a b] h]. cbn [fst snd] in *. rewrite sides_nth in EF by auto. injection EF as E1 E2.
  destruct (he_in _ _ _ _ (s_he _ _ _ _ _ _ _ S) _ _ _ K) as (_ & K1 & K2 & _). split; congruence.
Qed.

Lemma faces_inter : Inter nV nF (heFill m) I m.
Proof.
  pose proof (s_he _ _ _ _ _ _ _ S) as H. pose proof (ar_fill _ _ _ (s_arr _ _ _ _ _ _ _ S)). pose proof (ar_le _ _ _ (s_arr _ _ _ _ _ _ _ S)).
  assert (FO := s_done _ _ _ _ _ _ _ S).
  assert (RG : forall h, I h -> 0 <= h < heFill m).
  { intros h K. apply in_map_iff in K as ([[a b] g] & E & K). cbn in E. subst g. apply (he_in _ _ _ _ H _ _ _ K). }
  split.
  - intros h. destruct (in_dec Z.eq_dec h (map snd d)); [left|right]; auto.
  - exact RG.
  - intros h Hh Ev. destruct (he_even _ _ _ _ H h Hh Ev) as [C|C]; [lia|]. apply in_map_iff. exists (ve m h, ve m (tw h), h). auto.
  - split; lia.
  - intros h Hh NI. apply (he_out _ _ _ _ H); auto.
  - intros h K. apply I_face in K as (f & l & K1 & K2). rewrite (face_of _ _ _ K1 K2), HF, <- FS_len. split; [lia|].
    assert (nth_error FS f <> None) by congruence. apply nth_error_Some in H2. lia.
  - intros h K. apply I_face in K as (f & l & K1 & K2). apply I_face. exists f, l. split; auto. destruct (FO _ _ K1) as [F1 F2 F3 F4 F5].
    apply cyc_in; auto. apply hds_ne; auto.
  - intros h K. apply I_face in K as (f & l & K1 & K2). destruct (face_poly _ _ K1) as (p & P1 & P2). destruct (FO _ _ K1) as [F1 F2 F3 F4 F5].
    apply (In_nth _ _ (-1)) in K2 as (i & Hi & <-). assert (L : length (hds l) = length p) by (unfold hds; rewrite map_length, <- (map_length fst l), P2; apply sides_length).
    rewrite (cyc_nth (nx m) (hds l) i) by (auto; apply hds_ne; auto).
    rewrite L. destruct (face_side _ _ _ i K1 P2 ltac:(lia)) as (_ & _ & ->). destruct (face_side _ _ _ (Nat.modulo (Datatypes.S i) (length p)) K1 P2) as (_ & -> & _); auto.
    apply Nat.mod_upper_bound. lia.
  - intros h K. apply I_face in K as (f & l & K1 & K2). destruct (FO _ _ K1) as [F1 F2 F3 F4 F5].
    rewrite !F3; auto. apply cyc_in; auto. apply hds_ne; auto.
  - intros a b Ka Kb E. pose proof Ka as Ia. pose proof Kb as Ib. apply I_face in Ka as (f & l & K1 & K2). apply I_face in Kb as (f' & l' & K1' & K2').
    assert (E2 : l = l').
    { destruct (FO _ _ K1) as [F1 F2 F3 F4 F5]. destruct (FO _ _ K1') as [F1' F2' F3' F4' F5'].
      apply (same_face f l f' l' (nx m a) (nx m b)); auto; try (apply cyc_in; auto; apply hds_ne; auto). congruence. }
    subst l'. destruct (FO _ _ K1) as [F1 F2 F3 F4 F5]. apply (cyc_inj (nx m) (hds l)); auto. apply hds_ne; auto. eapply face_NoDup; eauto.
  - intros a b Ka Kb E. apply I_face in Ka as (f & l & K1 & K2). apply I_face in Kb as (f' & l' & K1' & K2').
    pose proof (same_face _ _ _ _ _ _ K1 K1' K2 K2' E). subst l'. destruct (FO _ _ K1) as [F1 F2 F3 F4 F5].
    apply (cyc_reach (nx m) (hds l)); auto. apply hds_ne; auto.
  - intros f Hf. destruct (nth_error FS (Z.to_nat f)) as [l|] eqn:E; [|apply nth_error_None in E; rewrite FS_len in E; lia].
    destruct (FO _ _ E) as [F1 F2 F3 F4 F5]. rewrite Z2Nat.id in * by lia.
    assert (IN : In (fh m f) (hds l)) by (rewrite F2; destruct l; [congruence|left; auto]). split; [apply I_face; eauto|auto].
  - intros h Hh. assert (C : I h \/ I (tw h)).
    { destruct (Z.eq_dec (h mod 2) 0) as [Ev|Od]; [left|right].
      - destruct (he_even _ _ _ _ H h Hh Ev) as [C|C]; [lia|]. apply in_map_iff. exists (ve m h, ve m (tw h), h). auto.
      - assert (Ht : 0 <= tw h < heFill m) by (unfold tw; lia). destruct (he_even _ _ _ _ H (tw h) Ht) as [C|C]; [unfold tw; lia|lia|].
        apply in_map_iff. exists (ve m (tw h), ve m (tw (tw h)), tw h). auto. }
    destruct C as [C|C]; apply in_map_iff in C as ([[a b] g] & E & K); cbn in E; destruct (he_in _ _ _ _ H _ _ _ K) as (_ & K1 & K2 & _ & K4 & K5 & _).
    + subst g. lia.
    + subst g. rewrite tw_tw in K2. lia.
Qed.
End AfterFaces.
