From Verif Require Import Base PolygonModel PolygonSpec PolygonProofs OrientModel OrientSpec.
From Coq Require Import Permutation Sorted.

(** ** polygon sides *)
Lemma length_rot1 {A} (p : list A) : length (rot1 p) = length p.
Proof. destruct p; auto. simpl. rewrite app_length. simpl. lia. Qed.
Lemma length_sidesOf p : length (sidesOf p) = length p.
Proof. unfold sidesOf. rewrite combine_length, length_rot1. lia. Qed.
Lemma nth_rot1 (p : list nat) j : j < length p -> nth j (rot1 p) 0 = nth ((j + 1) mod length p) p 0.
Proof.
  intros H. destruct p as [|x t]; [simpl in H; lia|]. unfold rot1. simpl length in *.
  destruct (Nat.eq_dec j (length t)) as [->|ne].
  - rewrite app_nth2, Nat.sub_diag by lia. rewrite Nat.add_1_r, Nat.mod_same by lia. auto.
  - rewrite app_nth1 by lia. rewrite Nat.mod_small by lia. rewrite Nat.add_1_r. auto.
Qed.
Lemma nth_sidesOf p j : j < length p -> nth j (sidesOf p) (0, 0) = (nth j p 0, nth ((j + 1) mod length p) p 0).
Proof. intros. unfold sidesOf. rewrite combine_nth by (rewrite length_rot1; auto). f_equal. apply nth_rot1; auto. Qed.

Fixpoint pairs (x : nat) (l : list nat) : list (nat * nat) := match l with [] => [] | y :: t => (x, y) :: pairs y t end.
Definition swap (s : nat * nat) := (snd s, fst s).
Lemma pairs_snoc l : forall x y z, pairs x (l ++ [y; z]) = pairs x (l ++ [y]) ++ [(y, z)].
Proof. induction l as [|w l IH]; intros; simpl; auto. f_equal. apply IH. Qed.
Lemma sides_pairs x t : sidesOf (x :: t) = pairs x (t ++ [x]).
Proof.
  unfold sidesOf, rot1. generalize x at 1 3. intros y. revert y. induction t as [|z t IH]; intros y; simpl; auto. f_equal. apply IH.
Qed.
Lemma pairs_rev l : forall x y, Permutation (pairs y (rev l ++ [x])) (map swap (pairs x (l ++ [y]))).
Proof.
  induction l as [|z l IH]; intros x y; simpl. auto.
  rewrite <- app_assoc. simpl. rewrite pairs_snoc. rewrite Permutation_app_comm. simpl. constructor. apply IH.
Qed.
Lemma sides_rev p : Permutation (sidesOf (rev p)) (map swap (sidesOf p)).
Proof.
  destruct p as [|x t]; auto. rewrite sides_pairs. rewrite <- (pairs_rev t x x). simpl rev.
  destruct (rev t) as [|y t']; auto. simpl app. rewrite sides_pairs. rewrite <- app_assoc. simpl. rewrite pairs_snoc.
  rewrite Permutation_app_comm. simpl. auto.
Qed.

(** ** entries *)
Definition mkEnt (iF j : nat) (s : nat * nat) : entry := mkE (Nat.min (fst s) (snd s)) (Nat.max (fst s) (snd s)) iF j (fst s <? snd s).
Definition FE (iF : nat) (f : list nat) : list entry := map (fun j => mkEnt iF j (nth j (sidesOf f) (0, 0))) (seq 0 (length f)).
Fixpoint AE (iF : nat) (ps : list (list nat)) : list entry := match ps with [] => [] | f :: t => FE iF f ++ AE (S iF) t end.
Lemma faceEntries_ok iF f : faceEntries iF f = Ok (FE iF f).
Proof.
  unfold faceEntries, FE. apply mapM_ok. intros j J. apply in_seq in J.
  assert ((j + 1) mod length f < length f) by (apply Nat.mod_upper_bound; lia).
  rewrite !(rd_nth f _ 0) by lia. simpl. rewrite nth_sidesOf by lia. auto.
Qed.
Lemma allEntries_ok ps : forall n, allEntries n ps = Ok (AE n ps).
Proof. induction ps; intros; simpl; auto. rewrite faceEntries_ok. simpl. rewrite IHps. auto. Qed.

Lemma AE_In ps : forall n e, In e (AE n ps) <-> exists i f j, nth_error ps i = Some f /\ j < length f /\ e = mkEnt (n + i) j (nth j (sidesOf f) (0, 0)).
Proof.
  induction ps as [|f ps IH]; intros n e; simpl.
  - split; [tauto|]. intros (i & f & j & H & _). destruct i; discriminate.
  - rewrite in_app_iff, IH. unfold FE. rewrite in_map_iff. split.
    + intros [(j & <- & J)|(i & g & j & A & B & C)].
      * apply in_seq in J. exists 0, f, j. rewrite Nat.add_0_r. simpl. repeat split; auto. lia.
      * exists (S i), g, j. replace (n + S i) with (S n + i) by lia. auto.
    + intros (i & g & j & A & B & C). destruct i; simpl in A.
      * left. injection A as <-. rewrite Nat.add_0_r in C. exists j. split; auto. apply in_seq. lia.
      * right. exists i, g, j. replace (S n + i) with (n + S i) by lia. auto.
Qed.

Definition pos (e : entry) : nat * nat := (eF e, eLocal e).
Lemma AE_NoDup ps : forall n, NoDup (map pos (AE n ps)).
Proof.
  induction ps as [|f ps IH]; intros n; simpl. constructor.
  rewrite map_app. unfold FE. rewrite map_map. unfold pos at 1. simpl.
  assert (H : forall (k : nat) (l : list nat), NoDup l -> NoDup (map (fun x => (k, x)) l) /\ True).
  { intros k l N. split; auto. induction N; simpl; constructor; auto. intros Q. apply in_map_iff in Q. destruct Q as (y & [= <-] & Q). auto. }
  assert (A : forall (l1 l2 : list (nat * nat)), NoDup l1 -> NoDup l2 -> (forall x, In x l1 -> ~ In x l2) -> NoDup (l1 ++ l2)).
  { induction l1; simpl; intros l2 N1 N2 D; auto. inversion N1; subst. constructor; auto. rewrite in_app_iff. intros [Q|Q]; auto. apply (D a); auto. }
  apply A; auto. apply H, seq_NoDup.
  intros [x y] I1 I2. apply in_map_iff in I1. destruct I1 as (j & [= <- <-] & _).
  apply in_map_iff in I2. destruct I2 as (e & E & I2). apply AE_In in I2. destruct I2 as (i & g & k & _ & _ & ->). unfold pos in E. simpl in E. injection E as E _. lia.
Qed.

Lemma AE_length ps : forall n, length (AE n ps) = fold_right (fun f k => length f + k) 0 ps.
Proof. induction ps; intros; simpl; auto. rewrite app_length, IHps. unfold FE. now rewrite map_length, seq_length. Qed.

(** ** counting directed sides by entries *)
Definition keyed (a b : nat) (e : entry) : bool := (indA e =? a) && (indB e =? b).

Lemma map_nth_seq {A B} (h : A -> B) (L : list A) d : forall k pre, k = length pre ->
  map (fun j => h (nth j (pre ++ L) d)) (seq k (length L)) = map h L.
Proof.
  induction L as [|x L IH]; intros k pre ->; simpl; auto. f_equal.
  - now rewrite nth_middle.
  - specialize (IH (S (length pre)) (pre ++ [x])). rewrite <- app_assoc in IH. apply IH. rewrite app_length. simpl. lia.
Qed.

Lemma filter_map_len {A B} (g : B -> bool) (f : A -> B) l : length (filter g (map f l)) = length (filter (fun x => g (f x)) l).
Proof. induction l; simpl; auto. destruct (g (f a)); simpl; auto. Qed.
Lemma filter_ext_len {A} (g h : A -> bool) l : (forall x, g x = h x) -> length (filter g l) = length (filter h l).
Proof. intros H; induction l; simpl; auto. rewrite H. destruct (h a); simpl; auto. Qed.
Lemma filter_perm {A} (g : A -> bool) l l' : Permutation l l' -> Permutation (filter g l) (filter g l').
Proof. induction 1; simpl; auto. destruct (g x); auto. destruct (g x), (g y); auto. constructor. eapply Permutation_trans; eauto. Qed.

Lemma FE_count n p (Q : entry -> bool) (R : nat * nat -> bool) : (forall j s, Q (mkEnt n j s) = R s) ->
  length (filter Q (FE n p)) = length (filter R (sidesOf p)).
Proof.
  intros H. unfold FE. rewrite filter_map_len.
  rewrite (filter_ext_len _ (fun x : nat => R (nth x (sidesOf p) (0, 0)))) by auto.
  rewrite <- (filter_map_len R (fun x : nat => nth x (sidesOf p) (0, 0))). rewrite <- (length_sidesOf p).
  pose proof (map_nth_seq (fun s => s) (sidesOf p) (0, 0) 0 [] eq_refl) as M. simpl in M. rewrite M, map_id. auto.
Qed.

Lemma occ_perm s l l' : Permutation l l' -> occ s l = occ s l'.
Proof. intros H. unfold occ. now rewrite (Permutation_length (filter_perm (side_eqb s) _ _ H)). Qed.
Lemma occ_swap a b l : occ (a, b) (map swap l) = occ (b, a) l.
Proof. unfold occ. rewrite filter_map_len. f_equal. apply filter_ext_len. intros [x y]. unfold side_eqb, swap. simpl. apply andb_comm. Qed.
Lemma occ_app s l1 l2 : occ s (l1 ++ l2) = (occ s l1 + occ s l2)%Z.
Proof. unfold occ. rewrite filter_app, app_length. lia. Qed.

Lemma keyed_canon a b n j x : a < b -> keyed a b (mkEnt n j x) && canon (mkEnt n j x) = side_eqb (a, b) x.
Proof. intros. destruct x as [x y]. unfold keyed, side_eqb. simpl. lia. Qed.
Lemma keyed_ncanon a b n j x : a < b -> keyed a b (mkEnt n j x) && negb (canon (mkEnt n j x)) = side_eqb (b, a) x.
Proof. intros. destruct x as [x y]. unfold keyed, side_eqb. simpl. lia. Qed.

Lemma face_count (s : nat -> bool) n p a b : a < b ->
  occ (a, b) (sidesOf (if s n then rev p else p)) = Z.of_nat (length (filter (fun e => keyed a b e && xorb (canon e) (s (eF e))) (FE n p)))
  /\ occ (b, a) (sidesOf (if s n then rev p else p)) = Z.of_nat (length (filter (fun e => keyed a b e && negb (xorb (canon e) (s (eF e)))) (FE n p))).
Proof.
  intros L. destruct (s n) eqn:E.
  - rewrite !(occ_perm _ _ _ (sides_rev p)), !occ_swap. unfold occ. split; f_equal; symmetry; apply FE_count; intros j x.
    + change (eF (mkEnt n j x)) with n. rewrite E, xorb_true_r. apply keyed_ncanon; auto.
    + change (eF (mkEnt n j x)) with n. rewrite E, xorb_true_r, negb_involutive. apply keyed_canon; auto.
  - unfold occ. split; f_equal; symmetry; apply FE_count; intros j x.
    + change (eF (mkEnt n j x)) with n. rewrite E, xorb_false_r. apply keyed_canon; auto.
    + change (eF (mkEnt n j x)) with n. rewrite E, xorb_false_r. apply keyed_ncanon; auto.
Qed.

Lemma all_count (s : nat -> bool) a b : a < b -> forall ps n,
  occAll a b (flipFrom n s ps) = Z.of_nat (length (filter (fun e => keyed a b e && xorb (canon e) (s (eF e))) (AE n ps)))
  /\ occAll b a (flipFrom n s ps) = Z.of_nat (length (filter (fun e => keyed a b e && negb (xorb (canon e) (s (eF e)))) (AE n ps))).
Proof.
  intros L. unfold occAll. induction ps as [|p ps IH]; intros n; simpl. auto.
  rewrite !occ_app, !filter_app, !app_length. destruct (IH (S n)) as [A B]. destruct (face_count s n p a b L) as [C D].
  rewrite A, B, C, D. lia.
Qed.

Lemma filter_filter {A} (f g : A -> bool) l : filter (fun x => f x && g x) l = filter g (filter f l).
Proof. induction l; simpl; auto. destruct (f a); simpl; auto. rewrite IHl; auto. Qed.

(** ** pairing *)
Definition posb (x e : entry) : bool := (eF x =? eF e) && (eLocal x =? eLocal e).
Lemma posb_spec x e : posb x e = true <-> pos x = pos e.
Proof. unfold posb, pos. rewrite andb_true_iff, !Nat.eqb_eq. split. intros [-> ->]; auto. intros [= -> ->]; auto. Qed.
Definition others (e : entry) (l : list entry) : list entry := filter (fun x => sameKey x e && negb (posb x e)) l.
Definition look (nb : list (list neigh)) (p : nat * nat) : option neigh :=
  match nth_error nb (fst p) with Some row => nth_error row (snd p) | None => None end.


Lemma sameKey_spec x e : sameKey x e = true <-> indA x = indA e /\ indB x = indB e.
Proof. unfold sameKey. rewrite andb_true_iff, !Nat.eqb_eq. tauto. Qed.

Lemma run_spec e l : StronglySorted keyle l -> Forall (keyle e) l ->
  let (r, rest) := run e l in l = r ++ rest /\ (forall x, In x r -> sameKey x e = true) /\ (forall x, In x rest -> sameKey x e = false).
Proof.
  induction l as [|x l IH]; intros S F; simpl. { repeat split; easy. }
  apply StronglySorted_inv in S. destruct S as [H1 H2]. pose proof (Forall_inv_tail F) as H4.
  pose proof (Forall_inv F) as H3. destruct (sameKey x e) eqn:K.
  - specialize (IH H1 H4). destruct (run e l) as [r rest]. destruct IH as (A & B & C). subst l. simpl. split; auto. split; auto.
    intros y [<-|Y]; auto.
  - simpl. split; auto. split; [tauto|]. intros y [<-|Y]; auto. rewrite Forall_forall in H2. apply H2 in Y.
    destruct (sameKey y e) eqn:Ky; auto. apply sameKey_spec in Ky. unfold keyle in *.
    assert (~ (indA x = indA e /\ indB x = indB e)) by (rewrite <- sameKey_spec; congruence). lia.
Qed.

Lemma setNeigh_ok nb e x : look nb (pos e) <> None -> exists nb', setNeigh nb e x = Ok nb' /\ map (@length neigh) nb' = map (@length neigh) nb
  /\ look nb' (pos e) = Some x /\ forall p, p <> pos e -> look nb' p = look nb p.
Proof.
  unfold look, pos, setNeigh. simpl. intros H. unfold rd. destruct (nth_error nb (eF e)) as [row|] eqn:E; [|congruence]. simpl.
  assert (eLocal e < length row) by (apply nth_error_Some; auto). rewrite wr_Ok by auto. simpl.
  pose proof (nth_error_lt _ _ _ E). rewrite wr_Ok by auto. eexists. split; [reflexivity|]. split; [|split].
  - clear -E. revert E. generalize (eF e). induction nb as [|r nb IH]; intros [|n] E; simpl in *; try discriminate; auto.
    + injection E as ->. f_equal. apply length_upd.
    + f_equal. auto.
  - rewrite nth_error_upd_eq by auto. rewrite nth_error_upd_eq by auto. auto.
  - intros [i j] ne. simpl. destruct (Nat.eq_dec (eF e) i) as [<-|n1].
    + rewrite nth_error_upd_eq by auto. rewrite E. rewrite nth_error_upd_neq; [auto|congruence].
    + rewrite nth_error_upd_neq by auto. auto.
Qed.

Lemma look_shape nb nb' : map (@length neigh) nb' = map (@length neigh) nb -> forall p, look nb p <> None -> look nb' p <> None.
Proof.
  revert nb'. induction nb as [|r nb IH]; intros [|r' nb'] E [i j]; simpl in E; try discriminate; auto.
  injection E as E1 E2. destruct i; unfold look; simpl.
  - rewrite !nth_error_Some. lia.
  - apply (IH nb' E2 (i, j)).
Qed.

Definition nres (e : entry) (l : list entry) (d : option neigh) : option neigh :=
  match others e l with [o] => Some (Some (eF o, xorb (canon e) (canon o))) | _ => d end.

Lemma others_nokey e l : (forall x, In x l -> sameKey x e = false) -> others e l = [].
Proof. unfold others. induction l; simpl; intros H; auto. rewrite H by auto. simpl. auto. Qed.
Lemma others_allkey e l : (forall x, In x l -> sameKey x e = true) -> (forall x, In x l -> pos x <> pos e) -> others e l = l.
Proof.
  unfold others. induction l; simpl; intros H D; auto. rewrite H by auto.
  destruct (posb a e) eqn:E. apply posb_spec in E. elim (D a); auto. simpl. f_equal. auto.
Qed.
Lemma others_app e l1 l2 : others e (l1 ++ l2) = others e l1 ++ others e l2.
Proof. apply filter_app. Qed.

Lemma pairUp_ok : forall fuel l nb, length l <= fuel -> StronglySorted keyle l -> NoDup (map pos l) ->
  (forall e, In e l -> look nb (pos e) <> None) ->
  exists nb', pairUp fuel l nb = Ok nb' /\ map (@length neigh) nb' = map (@length neigh) nb
    /\ (forall e, In e l -> look nb' (pos e) = nres e l (look nb (pos e)))
    /\ (forall p, ~ In p (map pos l) -> look nb' p = look nb p).
Proof.
  induction fuel; intros l nb Lf S N H.
  - destruct l; [|simpl in Lf; lia]. exists nb. simpl. repeat split; auto; tauto.
  - destruct l as [|e t]. { exists nb. simpl. repeat split; auto; tauto. }
    cbn [pairUp]. inversion S; subst. pose proof (run_spec e t H2 H3) as R. destruct (run e t) as [r rest]. destruct R as (A & B & C).
    simpl in N. inversion N; subst. rename H4 into Ne. rename H5 into Nt.
    rewrite map_app in Nt, Ne. rewrite in_app_iff in Ne.
    assert (Sr : StronglySorted keyle rest). { clear -H2. induction r; simpl in *; auto. inversion H2; auto. }
    assert (Nr : NoDup (map pos rest)). { clear -Nt. induction r; simpl in *; auto. inversion Nt; auto. }
    assert (Dj : forall x y, In x r -> In y rest -> pos x <> pos y).
    { intros x y X Y E. apply (in_map pos) in X, Y. rewrite E in X. clear -X Y Nt. induction (map pos r); simpl in *; [tauto|].
      inversion Nt; subst. destruct X as [->|]; auto. apply H1. apply in_app_iff; auto. }
    assert (Lr : length rest <= fuel) by (simpl in Lf; rewrite app_length in Lf; lia).
    assert (Oe : others e (e :: r ++ rest) = r).
    { change (others e (([e] ++ r) ++ rest) = r). rewrite !others_app. rewrite (others_nokey e rest) by auto. rewrite (others_allkey e r); auto.
      - unfold others at 1. cbn [filter]. rewrite (proj2 (posb_spec e e)) by auto. rewrite andb_false_r. simpl. now rewrite app_nil_r.
      - intros x X E. apply Ne. left. rewrite <- E. apply in_map; auto. }
    assert (SK : forall x, In x r -> sameKey e x = true).
    { intros x X. apply B in X. apply sameKey_spec in X. apply sameKey_spec. lia. }
    assert (Or : forall x, In x r -> others x (e :: r ++ rest) = e :: others x r).
    { intros x X. change (others x (([e] ++ r) ++ rest) = e :: others x r). rewrite !others_app. rewrite (others_nokey x rest).
      - rewrite (others_allkey x [e]). now rewrite app_nil_r. intros y [<-|[]]; auto. intros y [<-|[]] E. apply Ne. left. rewrite E. apply in_map; auto.
      - intros y Y. pose proof (C y Y) as Cy. destruct (sameKey y x) eqn:Q; auto. apply sameKey_spec in Q. pose proof (B x X) as Bx.
        apply sameKey_spec in Bx. assert (sameKey y e = true) by (apply sameKey_spec; lia). congruence. }
    assert (Ox : forall x, In x rest -> others x (e :: r ++ rest) = others x rest).
    { intros x X. change (others x (([e] ++ r) ++ rest) = others x rest). rewrite !others_app.
      assert (Q : forall y, sameKey y e = true -> sameKey y x = false).
      { intros y Y. pose proof (C x X). destruct (sameKey y x) eqn:Z; auto. apply sameKey_spec in Z, Y. assert (sameKey x e = true) by (apply sameKey_spec; lia). congruence. }
      rewrite (others_nokey x [e]), (others_nokey x r); auto. intros y [<-|[]]. apply Q. apply sameKey_spec; auto. }
    assert (Cont : forall nb0, map (@length neigh) nb0 = map (@length neigh) nb ->
       (forall p, In p (map pos rest) -> look nb0 p = look nb p) ->
       exists nb', pairUp fuel rest nb0 = Ok nb' /\ map (@length neigh) nb' = map (@length neigh) nb
         /\ (forall x, In x rest -> look nb' (pos x) = nres x (e :: r ++ rest) (look nb (pos x)))
         /\ (forall p, ~ In p (map pos rest) -> look nb' p = look nb0 p)).
    { intros nb0 Sh Lk. destruct (IHfuel rest nb0) as (nb' & E & Sh' & I1 & I2); auto.
      - intros x X. rewrite Lk by (apply in_map; auto). apply H. simpl. right. apply in_app_iff; auto.
      - exists nb'. split; auto. split. congruence. split; auto.
        intros x X. rewrite I1 by auto. unfold nres. rewrite Ox by auto. rewrite Lk by (apply in_map; auto). auto. }
    destruct r as [|o [|o2 r]].
    + destruct (Cont nb) as (nb' & E & Sh & I1 & I2); auto. exists nb'. split; auto. split; auto. split.
      * intros x [<-|X]; [|apply I1; auto]. rewrite I2 by tauto. unfold nres. rewrite Oe. auto.
      * intros p Np. apply I2. simpl in Np. tauto.
    + destruct (setNeigh_ok nb e (Some (eF o, xorb (canon e) (canon o)))) as (nb1 & E1 & Sh1 & A1 & B1). apply H; simpl; auto.
      destruct (setNeigh_ok nb1 o (Some (eF e, xorb (canon e) (canon o)))) as (nb2 & E2 & Sh2 & A2 & B2).
      { apply (look_shape nb); auto. apply H. simpl. auto. }
      rewrite E1. cbn [bind]. rewrite E2. cbn [bind].
      destruct (Cont nb2) as (nb' & E & Sh & I1 & I2). congruence.
      { intros p Ip. rewrite B2, B1; auto.
        - intros ->. tauto.
        - intros ->. apply in_map_iff in Ip. destruct Ip as (y & Ey & Y). apply (Dj o y); simpl; auto. }
      assert (ne : pos e <> pos o) by (intros Q; apply Ne; left; simpl; auto).
      assert (no : ~ In (pos o) (map pos rest)). { intros Q. apply in_map_iff in Q. destruct Q as (y & Ey & Y). apply (Dj o y); simpl; auto. }
      exists nb'. split; auto. split; auto. split.
      * intros x [<-|X].
        { rewrite I2 by tauto. rewrite B2 by auto. rewrite A1. unfold nres. rewrite Oe. auto. }
        apply in_app_iff in X. destruct X as [[<-|[]]|X]; [|apply I1; auto].
        rewrite I2 by auto. rewrite A2. unfold nres. rewrite Or by (simpl; auto).
        unfold others. cbn [filter]. rewrite (proj2 (posb_spec o o)) by auto. rewrite andb_false_r. cbn [negb andb]. rewrite xorb_comm. auto.
      * intros p Np. simpl in Np. rewrite I2 by tauto. rewrite B2 by (intros ->; tauto). rewrite B1 by (intros ->; tauto). auto.
    + destruct (Cont nb) as (nb' & E & Sh & I1 & I2); auto. exists nb'. split; auto. split; auto. split.
      * intros x [<-|X].
        { rewrite I2 by tauto. unfold nres. rewrite Oe. auto. }
        apply in_app_iff in X. destruct X as [X|X]; [|apply I1; auto].
        rewrite I2. 2:{ intros Q. apply in_map_iff in Q. destruct Q as (y & Ey & Y). apply (Dj x y); auto. }
        unfold nres. rewrite Or by auto. destruct (others x (o :: o2 :: r)) eqn:Eo; auto. exfalso.
        assert (Z : exists y, In y (o :: o2 :: r) /\ pos y <> pos x).
        { simpl in Nt. inversion Nt; subst. destruct (posb o x) eqn:P1.
          - exists o2. split. simpl; auto. apply posb_spec in P1. intros Q. match goal with HN : ~ In (pos o) _ |- _ => apply HN end. simpl. left. congruence.
          - exists o. split. simpl; auto. rewrite <- posb_spec. congruence. }
        destruct Z as (y & Y & Q). assert (HY : In y (others x (o :: o2 :: r))).
        { apply filter_In. split; auto. apply B in Y. apply B in X. apply sameKey_spec in Y, X. rewrite (proj2 (sameKey_spec y x)) by lia.
          destruct (posb y x) eqn:Py; auto. apply posb_spec in Py. contradiction. }
        rewrite Eo in HY. destruct HY.
      * intros p Np. simpl in Np. rewrite map_app in Np. rewrite in_app_iff in Np. apply I2. simpl in Np. tauto.
Qed.

(** ** the breadth first pass *)
Definition nbs (nb : list (list neigh)) (f g : nat) (same : bool) : Prop := exists row, nth_error nb f = Some row /\ In (Some (g, same)) row.

Lemma pushNeighbors_ok done flip ns : (forall g same, In (Some (g, same)) ns -> g < length done) -> forall q,
  exists ext, pushNeighbors done flip ns q = Ok (q ++ ext) /\ length ext <= length ns
    /\ (forall g b, In (g, b) ext -> nth g done false = false /\ exists same, In (Some (g, same)) ns /\ b = Bool.eqb same flip)
    /\ (forall g same, In (Some (g, same)) ns -> nth g done false = true \/ In g (map fst ext)).
Proof.
  unfold pushNeighbors. induction ns as [|n ns IH]; intros H q; simpl.
  - exists []. rewrite app_nil_r. repeat split; auto; try easy; tauto.
  - assert (H' : forall g same, In (Some (g, same)) ns -> g < length done) by (intros; eapply H; simpl; eauto). destruct n as [[g0 same0]|].
    + rewrite (rd_nth done g0 false) by (eapply H; simpl; eauto). simpl. destruct (nth g0 done false) eqn:D.
      * destruct (IH H' q) as (ext & E & L & A & B). exists ext. simpl. rewrite E. split; auto. split. lia. split.
        { intros g b I. destruct (A _ _ I) as (X & same & Y & Z). eauto. }
        { intros g same [[= <- <-]|I]; eauto. }
      * destruct (IH H' (q ++ [(g0, Bool.eqb same0 flip)])) as (ext & E & L & A & B). exists ((g0, Bool.eqb same0 flip) :: ext). simpl.
        rewrite E. rewrite <- app_assoc. simpl. split; auto. split. lia. split.
        { intros g b [[= <- <-]|I]. split; auto. exists same0. auto. destruct (A _ _ I) as (X & same & Y & Z). eauto. }
        { intros g same [[= <- <-]|I]; auto. destruct (B _ _ I); auto. }
    + destruct (IH H' q) as (ext & E & L & A & B). exists ext. simpl. rewrite E. split; auto. split. lia. split.
        { intros g b I. destruct (A _ _ I) as (X & same & Y & Z). eauto. }
        { intros g same [Q|I]; eauto. discriminate. }
Qed.

Fixpoint wsum (done : list bool) (nb : list (list neigh)) : nat :=
  match done, nb with
  | d :: ds, r :: rs => (if d then 0 else length r) + wsum ds rs
  | _, _ => 0
  end.
Lemma wsum_upd done : forall nb f row, nth_error nb f = Some row -> nth_error done f = Some false -> wsum (upd done f true) nb + length row = wsum done nb.
Proof.
  induction done as [|d ds IH]; intros nb f row E D; [destruct f; discriminate|].
  destruct nb as [|r rs]; [destruct f; discriminate|]. destruct f; simpl in *.
  - injection D as ->. injection E as ->. lia.
  - specialize (IH rs f row E D). lia.
Qed.

Lemma length_flipFrom {A} s (l : list (list A)) : forall n, length (flipFrom n s l) = length l.
Proof. induction l; simpl; auto. Qed.
Lemma flipFrom_ext {A} s s' (l : list (list A)) : forall n, (forall i, n <= i < n + length l -> s i = s' i) -> flipFrom n s l = flipFrom n s' l.
Proof. induction l; simpl; intros n H; auto. rewrite H by lia. f_equal. apply IHl. intros; apply H; lia. Qed.
Lemma nth_flipFrom {A} s (l : list (list A)) : forall n i, nth_error (flipFrom n s l) i = match nth_error l i with Some p => Some (if s (n + i) then rev p else p) | None => None end.
Proof. induction l; intros n [|i]; simpl; auto. now rewrite Nat.add_0_r. rewrite IHl. now replace (S n + i) with (n + S i) by lia. Qed.
Lemma nth_error_ext {A} (l : list A) : forall l', (forall i, nth_error l i = nth_error l' i) -> l = l'.
Proof.
  induction l as [|x l IH]; intros [|y l'] H; auto; try (specialize (H 0); discriminate).
  pose proof (H 0) as H0. injection H0 as ->. f_equal. apply IH. intros i. exact (H (S i)).
Qed.
Lemma flip_upd {A} (s : nat -> bool) (l : list (list A)) f p : nth_error l f = Some p -> s f = false ->
  upd (flipBy s l) f (rev p) = flipBy (fun i => if i =? f then true else s i) l.
Proof.
  intros E S. apply nth_error_ext. intros i. destruct (Nat.eq_dec f i) as [<-|ne].
  - rewrite nth_error_upd_eq. unfold flipBy. rewrite nth_flipFrom, E. simpl. now rewrite Nat.eqb_refl.
    unfold flipBy. rewrite length_flipFrom. eapply nth_error_lt; eauto.
  - rewrite nth_error_upd_neq by auto. unfold flipBy. rewrite !nth_flipFrom. simpl. replace (i =? f) with false by lia. auto.
Qed.

Section BFS.
Context {U : Type} (hasUV : bool) (nb : list (list neigh)) (P0 : list (list nat)) (U0 : list (list U)).
Notation nF := (length P0).
Hypothesis nb_len : length nb = nF.
Hypothesis nb_rng : forall f g same, nbs nb f g same -> g < nF.
Hypothesis nb_sym : forall f g same, nbs nb f g same -> nbs nb g f same.
Hypothesis uv_len : hasUV = true -> length U0 = nF.

Definition BInv (st : ost U) (t : nat -> bool) : Prop :=
  length (oDone st) = nF /\ oPolys st = flipBy t P0 /\ oUvs st = (if hasUV then flipBy t U0 else U0)
  /\ (forall f, t f = true -> nth f (oDone st) false = true).

Definition good (s : nat -> bool) : Prop := forall f g same, nbs nb f g same -> xorb (s f) (s g) = negb same.
Definition JInv (s : nat -> bool) (c : bool) (Old : nat -> Prop) (done : list bool) (t : nat -> bool) (q : list (nat * bool)) : Prop :=
  (forall f, Old f -> nth f done false = true)
  /\ (forall f, nth f done false = true -> ~ Old f -> xorb (t f) (s f) = c)
  /\ (forall f g same, nth f done false = true -> ~ Old f -> nbs nb f g same -> nth g done false = true \/ In g (map fst q))
  /\ (forall g b, In (g, b) q -> ~ Old g /\ b = xorb (s g) c).

Lemma patch_ok : forall fuel q st t, BInv st t -> (forall g b, In (g, b) q -> g < nF) -> length q + wsum (oDone st) nb <= fuel ->
  exists st' t', patch fuel hasUV nb q st = Ok st' /\ BInv st' t'
    /\ (forall f, nth f (oDone st) false = true -> nth f (oDone st') false = true /\ t' f = t f)
    /\ (forall g b, In (g, b) q -> nth g (oDone st') false = true)
    /\ (forall s c (Old : nat -> Prop), good s -> (forall f g same, Old f -> nbs nb f g same -> Old g) ->
          JInv s c Old (oDone st) t q -> JInv s c Old (oDone st') t' []).
Proof.
  induction fuel; intros q st t B Hq Hf.
  - destruct q; [|simpl in Hf; lia]. exists st, t. simpl. split; [auto|]. split; [auto|]. split; [auto|]. split; [tauto|auto].
  - destruct q as [|[f nf] q].
    { exists st, t. simpl. split; [auto|]. split; [auto|]. split; [auto|]. split; [tauto|auto]. }
    cbn [patch]. assert (Lf : f < nF) by (eapply Hq; simpl; eauto). pose proof B as (B1 & B2 & B3 & B4).
    rewrite (rd_nth (oDone st) f false) by lia. cbn [bind]. destruct (nth f (oDone st) false) eqn:D.
    + destruct (IHfuel q st t) as (st' & t' & E & B' & M & Q & J); auto. intros; eapply Hq; simpl; eauto. simpl in Hf; lia.
      exists st', t'. split; auto. split; auto. split; auto. split.
      * intros g b [[= <- <-]|I]; eauto. apply M; auto.
      * intros s c Old G C (J1 & J2 & J3 & J4). apply J; auto. split; auto. split; auto. split.
        { intros f0 g same Df Of N. destruct (J3 _ _ _ Df Of N) as [X|[X|X]]; auto. simpl in X. subst g. auto. }
        { intros; apply J4; simpl; auto. }
    + rewrite wr_Ok by lia. cbn [bind].
      set (done' := upd (oDone st) f true). set (t1 := fun i => if i =? f then nf else t i).
      assert (tf : t f = false). { destruct (t f) eqn:T; auto. apply B4 in T. congruence. }
      destruct (nth_error P0 f) as [p|] eqn:Ep. 2:{ apply nth_error_None in Ep. lia. }
      assert (E1 : (if nf then let* p := rd (oPolys st) f in wr (oPolys st) f (rev p) else Ok (oPolys st)) = Ok (flipBy t1 P0)).
      { rewrite B2. destruct nf.
        - unfold rd, flipBy. rewrite nth_flipFrom, Ep. simpl. rewrite tf. cbn [bind]. rewrite wr_Ok by (rewrite length_flipFrom; lia).
          f_equal. apply (flip_upd t P0 f p); auto.
        - f_equal. apply flipFrom_ext. intros i _. unfold t1. destruct (Nat.eqb_spec i f); subst; auto. }
      rewrite E1. cbn [bind].
      assert (E2 : (if nf then if hasUV then let* u := rd (oUvs st) f in wr (oUvs st) f (rev u) else Ok (oUvs st) else Ok (oUvs st)) = Ok (if hasUV then flipBy t1 U0 else U0)).
      { rewrite B3. destruct nf.
        - destruct hasUV eqn:HU; auto. destruct (nth_error U0 f) as [u|] eqn:Eu. 2:{ apply nth_error_None in Eu. rewrite uv_len in Eu; auto. lia. }
          unfold rd, flipBy. rewrite nth_flipFrom, Eu. simpl. rewrite tf. cbn [bind]. rewrite wr_Ok by (rewrite length_flipFrom, uv_len; auto).
          f_equal. apply (flip_upd t U0 f u); auto.
        - destruct hasUV; auto. f_equal. apply flipFrom_ext. intros i _. unfold t1. destruct (Nat.eqb_spec i f); subst; auto. }
      rewrite E2. cbn [bind].
      destruct (nth_error nb f) as [row|] eqn:Er. 2:{ apply nth_error_None in Er. lia. }
      unfold rd at 1. rewrite Er. cbn [bind].
      assert (Ld : length done' = nF) by (unfold done'; rewrite length_upd; auto).
      destruct (pushNeighbors_ok done' nf row) with (q := q) as (ext & E3 & Le & X1 & X2).
      { intros g same I. rewrite Ld. apply (nb_rng f g same). exists row. auto. }
      rewrite E3. cbn [bind].
      assert (Dn : forall g, nth g done' false = true <-> g = f \/ nth g (oDone st) false = true).
      { intros g. unfold done'. destruct (Nat.eq_dec f g) as [<-|ne]. rewrite nth_upd_eq by lia. tauto. rewrite nth_upd_neq by auto. intuition. }
      destruct (IHfuel (q ++ ext) (mkO (flipBy t1 P0) (if hasUV then flipBy t1 U0 else U0) done') t1) as (st' & t' & E & B' & M & Q & J).
      { split; auto. simpl. split; auto. split; auto. intros g T. apply Dn. unfold t1 in T. destruct (Nat.eqb_spec g f); auto. }
      { intros g b I. apply in_app_iff in I. destruct I as [I|I]. eapply Hq; simpl; eauto.
        apply X1 in I. destruct I as (_ & same & I & _). apply (nb_rng f g same). exists row; auto. }
      { simpl. simpl in Hf. rewrite app_length. assert (Dne : nth_error (oDone st) f = Some false).
        { rewrite <- D. apply nth_error_nth'. clear -Lf B1. lia. } pose proof (wsum_upd _ _ _ _ Er Dne) as HW. fold done' in HW. clear -HW Hf Le. unfold neigh in *. lia. }
      simpl in M, J. exists st', t'. split; auto. split; auto. split; [|split].
      * intros g G. destruct (M g) as [M1 M2]. apply Dn; auto. split; auto. rewrite M2. unfold t1. destruct (Nat.eqb_spec g f); auto. subst. congruence.
      * intros g b [[= <- <-]|I]. apply M. apply Dn; auto. apply (Q g b). apply in_app_iff; auto.
      * intros s c Old G C (J1 & J2 & J3 & J4). apply J; auto.
        destruct (J4 f nf) as [Nf En]; [simpl; auto|].
        assert (tj : forall g, nth g done' false = true -> ~ Old g -> xorb (t1 g) (s g) = c).
        { intros g Dg Og. unfold t1. destruct (Nat.eqb_spec g f) as [->|ng].
          - rewrite En. destruct (s f), c; auto.
          - apply J2; auto. apply Dn in Dg. tauto. }
        split; [|split; [|split]].
        { intros g Og. apply Dn. auto. }
        { auto. }
        { intros h g same Dh Oh N. destruct (Nat.eq_dec h f) as [->|nh].
          - destruct N as (row' & Er' & I). rewrite Er in Er'. injection Er' as <-. destruct (X2 _ _ I); auto.
            right. rewrite map_app, in_app_iff. auto.
          - apply Dn in Dh. destruct Dh as [->|Dh]; [congruence|]. destruct (J3 _ _ _ Dh Oh N) as [X|[X|X]].
            + left. apply Dn; auto.
            + simpl in X. left. apply Dn; auto.
            + right. rewrite map_app, in_app_iff. auto. }
        { intros g b I. apply in_app_iff in I. destruct I as [I|I]. apply J4; simpl; auto.
          destruct (X1 _ _ I) as (_ & same & Is & ->). assert (N : nbs nb f g same) by (exists row; auto). split.
          - intros Og. apply Nf. apply (C g f same); auto.
          - pose proof (G _ _ _ N) as Gn. rewrite En. destruct (s f), (s g), same, c; simpl in *; congruence. }
Qed.

Lemma bfs_ok (fuel : nat) : fold_right (fun r k => length r + k) 0 nb < fuel ->
  exists st t, foldM (fun s start => let* d := rd (oDone s) start in if (d : bool) then Ok s else patch fuel hasUV nb [(start, false)] s)
      (seq 0 nF) (mkO P0 U0 (repeat false nF)) = Ok st
    /\ oPolys st = flipBy t P0 /\ oUvs st = (if hasUV then flipBy t U0 else U0)
    /\ (forall s f g same, good s -> nbs nb f g same -> xorb (t f) (s f) = xorb (t g) (s g)).
Proof.
  intros Hf.
  assert (W : forall done nb, wsum done nb <= fold_right (fun r k => length r + k) 0 nb).
  { induction done; intros [|r rs]; simpl; try lia. specialize (IHdone rs). destruct a; lia. }
  assert (id : forall (A : Type) (l : list (list A)) k, flipFrom k (fun _ => false) l = l) by (induction l; simpl; intros; f_equal; auto).
  assert (G : forall n, n <= nF -> exists st t,
      foldM (fun s start => let* d := rd (oDone s) start in if (d : bool) then Ok s else patch fuel hasUV nb [(start, false)] s) (seq 0 n) (mkO P0 U0 (repeat false nF)) = Ok st
      /\ BInv st t /\ (forall f, f < n -> nth f (oDone st) false = true)
      /\ (forall s f g same, good s -> nth f (oDone st) false = true -> nbs nb f g same -> nth g (oDone st) false = true /\ xorb (t f) (s f) = xorb (t g) (s g))
      /\ (forall f g same, nth f (oDone st) false = true -> nbs nb f g same -> nth g (oDone st) false = true -> True)).
  { induction n; intros Hn.
    - exists (mkO P0 U0 (repeat false nF)), (fun _ => false). split; auto. split; [|split; [|split]].
      + split; simpl. apply repeat_length. unfold flipBy. rewrite !id. split; auto. split. destruct hasUV; auto. discriminate.
      + lia.
      + intros s f g same _ D. simpl in D. exfalso. rewrite nth_repeat in D. discriminate.
      + auto.
    - destruct IHn as (st & t & E & B & Dn & K & _); [lia|]. rewrite seq_S, foldM_app, E. cbn [bind foldM]. simpl Nat.add.
      pose proof B as (B1 & B2 & B3 & B4). rewrite (rd_nth (oDone st) n false) by lia. cbn [bind].
      destruct (nth n (oDone st) false) eqn:D.
      + exists st, t. split; auto. split; auto. split; auto. intros f Lf. destruct (Nat.eq_dec f n); subst; auto. apply Dn; lia.
      + destruct (patch_ok fuel [(n, false)] st t) as (st' & t' & E' & B' & M & Q & J); auto.
        { intros g b [[= <- <-]|[]]. lia. }
        { simpl. specialize (W (oDone st) nb). lia. }
        rewrite E'. cbn [bind]. exists st', t'. split; auto. split; auto. split; [|split; auto].
        { intros f Lf. destruct (Nat.eq_dec f n); subst. eapply Q; simpl; eauto. apply M. apply Dn. lia. }
        intros s f g same Gs Df N.
        destruct (J s (s n) (fun h => nth h (oDone st) false = true)) as (J1 & J2 & J3 & J4); auto.
        { intros x y sm Ox Nx. apply (K s x y sm); auto. }
        { split; auto. split; [congruence|]. split; [congruence|]. intros x b [[= <- <-]|[]]. split. congruence. now rewrite xorb_nilpotent. }
        destruct (nth f (oDone st) false) eqn:Of.
        * destruct (K s f g same) as [Og X]; auto. destruct (M f Of) as [_ ->]. destruct (M g Og) as [Dg ->]. auto.
        * assert (nOf : nth f (oDone st) false <> true) by congruence.
          assert (Dg : nth g (oDone st') false = true). { destruct (J3 f g same) as [X|[]]; auto. }
          split; auto. rewrite (J2 f), (J2 g); auto. intros Og. destruct (K s g f same) as [X _]; auto. }
  destruct (G nF (le_n _)) as (st & t & E & B & Dn & K & _). exists st, t. split; auto. split. apply B. split. apply B.
  intros s f g same Gs N. apply (K s f g same); auto. apply Dn. destruct N as (row & Er & _). apply nth_error_lt in Er. lia.
Qed.
End BFS.

(** ** the whole function *)
Lemma others_perm e l : In e l -> NoDup (map pos l) -> Permutation (filter (fun x => sameKey x e) l) (e :: others e l).
Proof.
  assert (K : sameKey e e = true) by (apply sameKey_spec; auto).
  assert (Pe : posb e e = true) by (apply posb_spec; auto).
  induction l as [|x l IH]; intros I N; [easy|]. simpl in N. inversion N; subst. unfold others in *. simpl. destruct I as [->|I].
  - rewrite K, Pe. simpl. constructor. clear -H1. replace (filter (fun x => sameKey x e && negb (posb x e)) l) with (filter (fun x => sameKey x e) l); auto.
    induction l; simpl in *; auto. rewrite IHl by tauto. destruct (posb a e) eqn:E. apply posb_spec in E. tauto. rewrite andb_true_r. auto.
  - destruct (posb x e) eqn:E. { apply posb_spec in E. elim H1. rewrite E. apply in_map; auto. }
    rewrite andb_true_r. destruct (sameKey x e); auto. rewrite IH by auto. constructor.
Qed.

Lemma look_init ps p : look (map (fun f : list nat => repeat (@None (nat * bool)) (length f)) ps) p =
  match nth_error ps (fst p) with Some f => if snd p <? length f then Some None else None | None => None end.
Proof.
  destruct p as [i j]. unfold look. simpl. rewrite nth_error_map. destruct (nth_error ps i) as [f|]; simpl; auto.
  destruct (Nat.ltb_spec j (length f)).
  - unfold neigh. rewrite (nth_error_nth' (repeat (@None (nat * bool)) (length f)) None) by (rewrite repeat_length; auto). now rewrite nth_repeat.
  - apply nth_error_None. rewrite repeat_length. auto.
Qed.

Section Main.
Context {P U : Type} (sortE : list entry -> list entry).
Hypothesis sortE_perm : forall l, Permutation l (sortE l).
Hypothesis sortE_sorted : forall l, StronglySorted keyle (sortE l).

Lemma consistentlyOrient_ok (m : pmesh P U) : uvsAligned m ->
  exists m' t, consistentlyOrient sortE m = Ok m' /\ verts m' = verts m
    /\ polys m' = flipBy t (polys m) /\ uvs m' = flipBy t (uvs m)
    /\ (properSides (polys m) -> orientable (polys m) -> coherent (polys m')).
Proof.
  intros Al. unfold consistentlyOrient. rewrite allEntries_ok. cbn [bind].
  set (es := AE 0 (polys m)). set (nb0 := map (fun f => repeat None (length f)) (polys m)).
  pose proof (sortE_perm es) as Pm.
  assert (N : NoDup (map pos (sortE es))) by (eapply Permutation_NoDup; [apply Permutation_map, Pm|apply AE_NoDup]).
  assert (EIn : forall e, In e (sortE es) <-> In e es) by (intros; split; apply Permutation_in; auto using Permutation_sym).
  assert (L0 : forall e, In e es -> look nb0 (pos e) = Some None).
  { intros e I. apply AE_In in I. destruct I as (i & f & j & A & B & ->). unfold nb0. rewrite look_init. simpl. rewrite A.
    replace (j <? length f) with true by lia. auto. }
  destruct (pairUp_ok (length (sortE es)) (sortE es) nb0) as (nb & E & Sh & Lk & Lo); auto.
  { intros e I. rewrite L0. congruence. apply EIn; auto. }
  rewrite E. cbn [bind].
  assert (Ol : forall e o, others e (sortE es) = [o] <-> others e es = [o]).
  { intros e o. pose proof (filter_perm (fun x => sameKey x e && negb (posb x e)) _ _ Pm) as Q. fold (others e es) in Q. fold (others e (sortE es)) in Q.
    split; intros X; rewrite X in Q. apply Permutation_sym, Permutation_length_1_inv in Q; auto. apply Permutation_length_1_inv in Q; auto. }
  (* a recorded neighbour comes from a pair *)
  assert (Sound : forall f g same, nbs nb f g same -> exists e o, In e es /\ others e es = [o] /\ eF e = f /\ eF o = g /\ same = xorb (canon e) (canon o)).
  { intros f g same (row & Er & I). apply In_nth_error in I. destruct I as (j & Ej).
    assert (Q : look nb (f, j) = Some (Some (g, same))) by (unfold look; simpl; now rewrite Er).
    assert (Q0 : look nb0 (f, j) <> None) by (apply (look_shape nb nb0); [auto|congruence]).
    assert (Q1 : look nb0 (f, j) = Some None).
    { unfold nb0 in *. rewrite look_init in *. simpl in *. destruct (nth_error (polys m) f) as [p|]; [|congruence]. destruct (j <? length p); congruence. }
    assert (Ie : In (f, j) (map pos (sortE es))).
    { destruct (in_dec (fun x y : nat * nat => ltac:(decide equality; apply Nat.eq_dec)) (f, j) (map pos (sortE es))) as [X|X]; auto. rewrite (Lo _ X) in Q. congruence. }
    apply in_map_iff in Ie. destruct Ie as (e & Pe & Ie). rewrite <- Pe in Q, Q1. rewrite Lk in Q by auto. rewrite Q1 in Q. unfold nres in Q.
    destruct (others e (sortE es)) as [|o [|]] eqn:Eo; try discriminate. injection Q as Q2 Q3. exists e, o. rewrite <- Ol. unfold pos in Pe. injection Pe as Pe _.
    split. apply EIn; auto. auto. }
  assert (Compl : forall e o, In e es -> others e es = [o] -> nbs nb (eF e) (eF o) (xorb (canon e) (canon o))).
  { intros e o I O. pose proof (Lk e (proj2 (EIn e) I)) as Q. unfold nres in Q. rewrite (proj2 (Ol e o) O) in Q. unfold look in Q. simpl in Q.
    destruct (nth_error nb (eF e)) as [row|] eqn:Er; [|discriminate]. exists row. split; auto. eapply nth_error_In; eauto. }
  assert (Nes : NoDup (map pos es)) by apply AE_NoDup.
  assert (Osym : forall e o, In e es -> others e es = [o] -> In o es /\ others o es = [e] /\ sameKey o e = true).
  { intros e o I O. assert (Io : In o (others e es)) by (rewrite O; simpl; auto). apply filter_In in Io. destruct Io as [Io Ko].
    apply andb_true_iff in Ko. destruct Ko as [Ko Po]. split; auto. split; auto.
    pose proof (others_perm e es I Nes) as P1. rewrite O in P1. pose proof (others_perm o es Io Nes) as P2.
    assert (F : filter (fun x => sameKey x o) es = filter (fun x => sameKey x e) es).
    { apply filter_ext. intros x. apply sameKey_spec in Ko. unfold sameKey. destruct Ko as [-> ->]. auto. }
    rewrite F, P1 in P2. assert (P3 : Permutation [o; e] (o :: others o es)) by (rewrite <- P2; constructor).
    apply Permutation_cons_inv in P3. apply Permutation_length_1_inv in P3. auto. }
  assert (nbl : length nb = length (polys m)). { apply (f_equal (@length nat)) in Sh. rewrite !map_length in Sh. unfold nb0 in Sh. now rewrite map_length in Sh. }
  assert (uvl : hasParam m = true -> length (uvs m) = length (polys m)).
  { unfold hasParam. destruct Al as [Al|Al]; auto. rewrite Al. discriminate. }
  assert (Rng : forall e, In e es -> eF e < length (polys m)).
  { intros e I. apply AE_In in I. destruct I as (i & f & j & A & B & ->). simpl. eapply nth_error_lt; eauto. }
  destruct (bfs_ok (hasParam m) nb (polys m) (uvs m)) with (fuel := S (length es)) as (st & t & Eb & B1 & B2 & B3); auto.
  { intros f g same X. destruct (Sound _ _ _ X) as (e & o & I & O & <- & <- & _). apply Rng. apply (Osym e o); auto. }
  { intros f g same X. destruct (Sound _ _ _ X) as (e & o & I & O & <- & <- & ->). destruct (Osym e o) as (A & B & _); auto. rewrite xorb_comm. apply Compl; auto. }
  { unfold es. rewrite AE_length. assert (Q : forall (l : list (list neigh)) (ps : list (list nat)), map (@length neigh) l = map (@length nat) ps ->
       fold_right (fun r k => length r + k) 0 l = fold_right (fun f k => length f + k) 0 ps).
    { induction l; intros [|p ps] X; simpl in *; try discriminate; auto. injection X as -> X. rewrite (IHl ps); auto. }
    rewrite (Q nb (polys m)). lia. rewrite Sh. unfold nb0. rewrite map_map. apply map_ext. intros; apply repeat_length. }
  rewrite Eb. cbn [bind]. eexists. exists t. split; [reflexivity|]. cbn [polys verts uvs]. split; auto. split; auto. split.
  { rewrite B2. unfold hasParam. destruct (uvs m); auto. }
  intros PS (s & Hs).
  (* counting over a pair *)
  assert (Cnt : forall (q : nat -> bool) e o, In e es -> others e es = [o] -> indA e < indB e ->
     let x := xorb (canon e) (q (eF e)) in let y := xorb (canon o) (q (eF o)) in
     occAll (indA e) (indB e) (flipBy q (polys m)) = (Z.b2z x + Z.b2z y)%Z /\ occAll (indB e) (indA e) (flipBy q (polys m)) = (Z.b2z (negb x) + Z.b2z (negb y))%Z).
  { intros q e o I O Lt x y. destruct (all_count q _ _ Lt (polys m) 0) as [A B]. unfold flipBy. rewrite A, B. fold es.
    rewrite !filter_filter. pose proof (others_perm e es I Nes) as P1. rewrite O in P1.
    change (filter (keyed (indA e) (indB e)) es) with (filter (fun x => sameKey x e) es).
    rewrite !(Permutation_length (filter_perm _ _ _ P1)). simpl. fold x. fold y. destruct x, y; auto. }
  assert (Kne : forall e, In e es -> indA e < indB e).
  { intros e I. apply AE_In in I. destruct I as (i & f & j & A & B & ->). assert (In (nth j (sidesOf f) (0, 0)) (sidesOf f)) by (apply nth_In; rewrite length_sidesOf; auto).
    destruct (nth j (sidesOf f) (0, 0)) as [x y]. apply PS in H; [|eapply nth_error_In; eauto]. simpl. lia. }
  assert (Par : forall q e o, In e es -> others e es = [o] -> coherent (flipBy q (polys m)) -> xorb (canon e) (q (eF e)) <> xorb (canon o) (q (eF o))).
  { intros q e o I O C. pose proof (Kne e I) as Lt. destruct (Cnt q e o I O Lt) as [A B]. specialize (C (indA e) (indB e)).
    rewrite A, B in C. intros Q. rewrite Q in C. destruct (xorb (canon o) (q (eF o))); simpl in C; lia. }
  assert (Gs : good nb s).
  { intros f g same X. destruct (Sound _ _ _ X) as (e & o & I & O & <- & <- & ->). pose proof (Par s e o I O Hs).
    destruct (canon e), (canon o), (s (eF e)), (s (eF o)); simpl in *; congruence. }
  assert (G : forall a b, a < b -> (occAll a b (oPolys st) + occAll b a (oPolys st) = 2)%Z -> occAll a b (oPolys st) = 1%Z /\ occAll b a (oPolys st) = 1%Z).
  { intros a b Lt C. rewrite B1 in *. 
    assert (F2 : exists e o, In e es /\ others e es = [o] /\ indA e = a /\ indB e = b).
    { destruct (all_count t _ _ Lt (polys m) 0) as [A B]. unfold flipBy in C. rewrite A, B in C. fold es in C. rewrite !filter_filter in C.
      assert (Ln : forall (h : entry -> bool) l, length (filter h l) + length (filter (fun e => negb (h e)) l) = length l).
      { intros h l. induction l as [|x l IH]; simpl; auto. destruct (h x); simpl; lia. }
      specialize (Ln (fun e => xorb (canon e) (t (eF e))) (filter (keyed a b) es)).
      destruct (filter (keyed a b) es) as [|e [|o [|]]] eqn:Ek; try (simpl in Ln, C; lia).
      assert (Ie : In e es /\ keyed a b e = true) by (apply filter_In; rewrite Ek; simpl; auto).
      destruct Ie as [Ie Ke]. unfold keyed in Ke. apply andb_true_iff in Ke. rewrite !Nat.eqb_eq in Ke. destruct Ke as [<- <-].
      exists e, o. split; auto. split; auto. pose proof (others_perm e es Ie Nes) as P1.
      change (filter (fun x => sameKey x e) es) with (filter (keyed (indA e) (indB e)) es) in P1. rewrite Ek in P1.
      apply Permutation_cons_inv in P1. apply Permutation_length_1_inv in P1. auto. }
    destruct F2 as (e & o & I & O & <- & <-).
    destruct (Cnt t e o I O Lt) as [A B]. rewrite A, B. pose proof (Par s e o I O Hs) as Q.
    pose proof (B3 s _ _ _ Gs (Compl e o I O)) as X.
    destruct (canon e), (canon o), (s (eF e)), (s (eF o)), (t (eF e)), (t (eF o)); simpl in *; try congruence; lia. }
  intros a b ne C. destruct (lt_dec a b) as [l|l]; [exact (proj1 (G a b l C))|]. assert (l2 : b < a) by lia. refine (proj2 (G b a l2 _)). lia.
Qed.
End Main.
