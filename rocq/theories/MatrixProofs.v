(** Proofs about MatrixModel *)
From Verif Require Import Base MatrixModel MatrixSpec.
Open Scope nat_scope.
Section Scalar.
Context {T : Type}.
Implicit Types (m : smat T) (trips : list (nat * nat * T)).
Notation pos := (fun t : nat * nat * T => fst t).

(** ** stored entries *)
Lemma find_entry (c : list (nat * T)) i v : NoDup (map fst c) -> (option_map snd (find (fun p => fst p =? i) c) = Some v <-> In (i, v) c).
Proof.
  induction c as [|[r w] c IH]; cbn [map find]; intros N; [cbn; split; [discriminate|tauto]|]. inversion N; subst. cbn [fst] in *.
  destruct (Nat.eqb_spec r i) as [->|E].
  - cbn. split; [intros H; injection H as ->; auto|]. intros [H|H]; [injection H as ->; reflexivity|]. exfalso. apply H1. apply in_map_iff. exists (i, v). auto.
  - rewrite IH by auto. cbn. split; auto. intros [H|H]; auto. congruence.
Qed.
Lemma entry_in m i j v : Wf m -> (entry m i j = Some v <-> exists c, nth_error (columns m) j = Some c /\ In (i, v) c).
Proof.
  intros W. unfold entry. destruct (nth_error (columns m) j) as [c|] eqn:E.
  - rewrite (nth_error_nth _ _ _ E), find_entry by (eapply wf_nodup; eauto). split; [eauto|]. intros (c' & H & K). injection H as <-. auto.
  - rewrite nth_overflow by (apply nth_error_None; auto). cbn. split; [discriminate|]. intros (c & H & _). discriminate.
Qed.
Lemma entry_range m i j v : Wf m -> entry m i j = Some v -> i < rows m /\ j < cols m.
Proof.
  intros W H. apply entry_in in H as (c & E & I); auto. split; [apply (wf_rows _ W j c E (i, v) I)|]. rewrite <- (wf_cols _ W). apply nth_error_Some. congruence.
Qed.
Lemma in_combine_seq {A} (l : list A) s k c : In (k, c) (combine (seq s (length l)) l) <-> s <= k /\ nth_error l (k - s) = Some c.
Proof.
  revert s. induction l as [|a l IH]; intros s; cbn [length seq combine].
  - cbn. split; [tauto|]. intros [_ H]. destruct (k - s); discriminate.
  - cbn [In]. rewrite IH. split.
    + intros [H|[H1 H2]]; [injection H as <- <-; rewrite Nat.sub_diag; auto|]. split; [lia|]. replace (k - s) with (S (k - S s)) by lia. auto.
    + intros [H1 H2]. destruct (Nat.eq_dec k s) as [->|N]; [rewrite Nat.sub_diag in H2; injection H2 as ->; auto|]. right. split; [lia|]. replace (k - s) with (S (k - S s)) in H2 by lia. auto.
Qed.
Lemma in_entries m i j v : Wf m -> (In (i, j, v) (entries m) <-> entry m i j = Some v).
Proof.
  intros W. rewrite entry_in by auto. unfold entries. rewrite in_concat. split.
  - intros (l & H & K). apply in_map_iff in H as ([k c] & <- & H). apply in_combine_seq in H as [_ H]. rewrite Nat.sub_0_r in H.
    apply in_map_iff in K as ([r w] & K & I). cbn in K. injection K as <- <- <-. exists c. auto.
  - intros (c & E & I). exists (map (fun rv => (fst rv, j, snd rv)) c). split.
    + apply in_map_iff. exists (j, c). split; auto. apply in_combine_seq. rewrite Nat.sub_0_r. split; auto; lia.
    + apply in_map_iff. exists (i, v). auto.
Qed.
Lemma NoDup_app_intro {A} (l1 l2 : list A) : NoDup l1 -> NoDup l2 -> (forall a, In a l1 -> In a l2 -> False) -> NoDup (l1 ++ l2).
Proof. induction 1; cbn; intros H2 H3; auto. constructor; [rewrite in_app_iff; intros [K|K]; [auto|exact (H3 x (or_introl eq_refl) K)]|]. apply IHNoDup; auto. intros a A1 A2. exact (H3 a (or_intror A1) A2). Qed.
Lemma NoDup_concat {A B} (f : A -> list B) (l : list A) : NoDup l -> (forall a, In a l -> NoDup (f a)) -> (forall a b x, In a l -> In b l -> In x (f a) -> In x (f b) -> a = b) -> NoDup (concat (map f l)).
Proof.
  induction 1 as [|a l N ND IH]; cbn; intros H1 H2; [constructor|]. apply NoDup_app_intro.
  - apply H1; auto.
  - apply IH; auto. intros; eapply H2; eauto.
  - intros x X1 X2. apply in_concat in X2 as (y & Y1 & Y2). apply in_map_iff in Y1 as (b & <- & Ib). assert (a = b) by (eapply H2; eauto). subst. auto.
Qed.
Lemma NoDup_entries m : Wf m -> NoDup (map pos (entries m)).
Proof.
  intros W. unfold entries. rewrite concat_map, map_map. apply NoDup_concat.
  - apply NoDup_map_inv with (f := fst). assert (map fst (combine (seq 0 (length (columns m))) (columns m)) = seq 0 (length (columns m))) as ->; [|apply seq_NoDup].
    generalize 0. induction (columns m); intros s; cbn; auto. f_equal; auto.
  - intros [k c] H. apply in_combine_seq in H as [_ H]. rewrite Nat.sub_0_r in H. rewrite map_map. cbn [fst snd].
    pose proof (wf_nodup _ W k c H) as N. clear - N. induction c as [|[r w] c IH]; cbn in *; constructor; inversion N; subst; auto.
    rewrite in_map_iff. intros ((r' & w') & E & I). cbn in E. injection E as ->. apply H1. apply in_map_iff. exists (r, w'). auto.
  - intros [k c] [k' c'] x A B X1 X2. apply in_combine_seq in A as [_ A], B as [_ B]. rewrite Nat.sub_0_r in A, B.
    rewrite map_map in X1, X2. apply in_map_iff in X1 as (p & <- & _), X2 as (p' & X & _). cbn in X. injection X as _ ->. congruence.
Qed.

(** ** setFromTriplets *)
Lemma valuesAt_nil trips i j : valuesAt trips i j = [] <-> forall v, ~ In (i, j, v) trips.
Proof.
  unfold valuesAt. split.
  - intros H v I. apply map_eq_nil in H. assert (In (i, j, v) (filter (fun t => (fst (fst t) =? i) && (snd (fst t) =? j)) trips)) as K by (apply filter_In; cbn; rewrite !Nat.eqb_refl; auto).
    rewrite H in K. destruct K.
  - intros H. destruct (filter _ trips) as [|[[a b] v] l] eqn:E; auto. exfalso.
    assert (In (a, b, v) (filter (fun t => (fst (fst t) =? i) && (snd (fst t) =? j)) trips)) as K by (rewrite E; left; auto).
    apply filter_In in K as [K1 K2]. cbn in K2. rewrite andb_true_iff, !Nat.eqb_eq in K2. destruct K2; subst. eapply H; eauto.
Qed.
Lemma valuesAt_one trips i j v : NoDup (map pos trips) -> In (i, j, v) trips -> valuesAt trips i j = [v].
Proof.
  unfold valuesAt. induction trips as [|[[a b] w] l IH]; cbn; intros N I; [tauto|]. inversion N; subst.
  destruct I as [I|I].
  - injection I as -> -> ->. rewrite !Nat.eqb_refl. cbn. f_equal.
    assert (filter (fun t => (fst (fst t) =? i) && (snd (fst t) =? j)) l = []) as ->; auto.
    destruct (filter _ l) as [|[[a b] w] l'] eqn:E; auto. exfalso.
    assert (In (a, b, w) (filter (fun t => (fst (fst t) =? i) && (snd (fst t) =? j)) l)) as K by (rewrite E; left; auto).
    apply filter_In in K as [K1 K2]. cbn in K2. rewrite andb_true_iff, !Nat.eqb_eq in K2. destruct K2; subst. apply H1. apply in_map_iff. eexists. split; [|eauto]. auto.
  - destruct ((a =? i) && (b =? j)) eqn:E; [|auto]. exfalso. rewrite andb_true_iff, !Nat.eqb_eq in E. destruct E; subst. apply H1. apply in_map_iff. eexists. split; [|eauto]. auto.
Qed.
Lemma nth_error_map_seq {A} (f : nat -> A) n j : nth_error (map f (seq 0 n)) j = if j <? n then Some (f j) else None.
Proof.
  destruct (Nat.ltb_spec j n).
  - rewrite nth_error_map, (nth_error_nth' _ 0) by (rewrite seq_length; auto). rewrite seq_nth by auto. reflexivity.
  - apply nth_error_None. rewrite map_length, seq_length. auto.
Qed.
Lemma fromTriplets_ok add r c trips : (forall t, In t trips -> fst (fst t) < r /\ snd (fst t) < c) -> NoDup (map pos trips) ->
  exists m, fromTriplets add r c trips = Ok m /\ Wf m /\ rows m = r /\ cols m = c /\ forall i j v, entry m i j = Some v <-> In (i, j, v) trips.
Proof.
  intros R N. unfold fromTriplets. rewrite (proj2 (forallb_forall _ _)).
  2:{ intros t I. destruct (R t I). rewrite andb_true_iff, !Nat.ltb_lt. auto. }
  eexists. split; [reflexivity|]. set (m := mkS _ _ _).
  set (column := fun j => concat (map (fun i => match valuesAt trips i j with [] => [] | v :: vs => [(i, fold_left add vs v)] end) (seq 0 r))).
  assert (forall j c', nth_error (columns m) j = Some c' -> j < c /\ c' = column j) as NE.
  { intros j c' H. cbn [columns m] in H. rewrite nth_error_map_seq in H. destruct (Nat.ltb_spec j c); [|discriminate]. injection H as <-. auto. }
  assert (forall j i v, In (i, v) (column j) <-> i < r /\ In (i, j, v) trips) as IN.
  { intros j i v. unfold column. rewrite in_concat. split.
    - intros (l & H & K). apply in_map_iff in H as (i' & <- & H). apply in_seq in H. destruct (valuesAt trips i' j) as [|w ws] eqn:E; [destruct K|].
      destruct K as [K|[]]. injection K as -> K.
      assert (exists u, In (i, j, u) trips) as (u & U).
      { unfold valuesAt in E. destruct (filter _ trips) as [|[[a b] u] l] eqn:F; [discriminate|]. exists u.
        assert (In (a, b, u) (filter (fun t => (fst (fst t) =? i) && (snd (fst t) =? j)) trips)) as K2 by (rewrite F; left; auto).
        apply filter_In in K2 as [K1 K2]. cbn in K2. rewrite andb_true_iff, !Nat.eqb_eq in K2. destruct K2; subst. auto. }
      rewrite (valuesAt_one _ _ _ _ N U) in E. injection E as <- <-. cbn in K. subst u. split; auto. lia.
    - intros (L & I). exists [(i, v)]. split; [|left; auto]. apply in_map_iff. exists i. split; [|apply in_seq; lia]. rewrite (valuesAt_one _ _ _ _ N I). reflexivity. }
  assert (forall j, NoDup (map fst (column j))) as ND.
  { intros j. unfold column. rewrite concat_map, map_map. apply NoDup_concat; [apply seq_NoDup| |].
    - intros i _. destruct (valuesAt trips i j); cbn; constructor; [intros []|constructor].
    - intros a b x _ _ X1 X2. destruct (valuesAt trips a j); [destruct X1|]. destruct (valuesAt trips b j); [destruct X2|]. cbn in X1, X2. destruct X1 as [<-|[]], X2 as [<-|[]]. auto. }
  assert (Wf m) as W.
  { split.
    - cbn. rewrite map_length, seq_length. auto.
    - intros j c' H p I. apply NE in H as [_ ->]. destruct p as [i v]. apply IN in I. cbn. tauto.
    - intros j c' H. apply NE in H as [_ ->]. apply ND. }
  split; auto. split; auto. split; auto. intros i j v. rewrite entry_in by auto. split.
  - intros (c' & H & I). apply NE in H as [_ ->]. apply IN in I. tauto.
  - intros I. destruct (R _ I) as [A B]. cbn in A, B. exists (column j). split; [|apply IN; auto]. cbn [columns m]. rewrite nth_error_map_seq. destruct (Nat.ltb_spec j c); [reflexivity|lia].
Qed.
Lemma option_ext {A} (a b : option A) : (forall v, a = Some v <-> b = Some v) -> a = b.
Proof. intros H. destruct a as [v|]; [symmetry; apply H; auto|]. destruct b as [v|]; auto. apply H; auto. Qed.

(** ** stacking *)
Definition shiftR (n : nat) (e : nat * nat * T) : nat * nat * T := (fst (fst e) + n, snd (fst e), snd e).
Definition shiftC (n : nat) (e : nat * nat * T) : nat * nat * T := (fst (fst e), snd (fst e) + n, snd e).
Lemma toStorage_ok n : fits n -> toStorage n = Ok n.
Proof. unfold fits, toStorage. intros H. apply Z.leb_le in H. rewrite H. reflexivity. Qed.
Lemma mapM_ok {A B} (f : A -> res B) (g : A -> B) l : (forall x, In x l -> f x = Ok (g x)) -> mapM f l = Ok (map g l).
Proof. induction l; cbn; intros H; auto. rewrite H by auto. cbn. rewrite IHl by auto. reflexivity. Qed.
Definition blockV (acc : list (nat * nat * T) * nat) m := (fst acc ++ map (shiftR (snd acc)) (entries m), snd acc + rows m).
Definition blockH (acc : list (nat * nat * T) * nat) m := (fst acc ++ map (shiftC (snd acc)) (entries m), snd acc + cols m).
Lemma foldV add0 mats acc : (forall m, In m mats -> Wf m /\ cols m = add0 /\ fits (cols m)) -> fits (snd acc + sum (map rows mats)) ->
  foldM (fun acc m => let '(trips, n) := acc in let* _ := guard (cols m =? add0) in
        let* ts := mapM (fun e => let '(i, j, v) := e in let* i := toStorage (i + n) in let* j := toStorage j in Ok (i, j, v)) (entries m) in
        Ok (trips ++ ts, n + rows m)) mats acc = Ok (fold_left blockV mats acc).
Proof.
  revert acc. induction mats as [|m mats IH]; intros [trips n] H F; [reflexivity|]. cbn [foldM fold_left]. destruct (H m (or_introl eq_refl)) as (W & C & D). rewrite C, Nat.eqb_refl. cbn [guard bind].
  change (fits (n + (rows m + sum (map rows mats)))) in F.
  rewrite (mapM_ok _ (shiftR n)).
  - cbn [bind]. rewrite IH; [reflexivity|intros m1 I1; apply H; right; exact I1|]. cbn [snd]. unfold fits in *. lia.
  - intros [[i j] v] I. apply in_entries in I; auto. apply entry_range in I as [A B]; auto. rewrite !toStorage_ok by (unfold fits in *; lia). reflexivity.
Qed.
Lemma foldH add0 mats acc : (forall m, In m mats -> Wf m /\ rows m = add0 /\ fits (rows m)) -> fits (snd acc + sum (map cols mats)) ->
  foldM (fun acc m => let '(trips, n) := acc in let* _ := guard (rows m =? add0) in
        let* ts := mapM (fun e => let '(i, j, v) := e in let* i := toStorage i in let* j := toStorage (j + n) in Ok (i, j, v)) (entries m) in
        Ok (trips ++ ts, n + cols m)) mats acc = Ok (fold_left blockH mats acc).
Proof.
  revert acc. induction mats as [|m mats IH]; intros [trips n] H F; [reflexivity|]. cbn [foldM fold_left]. destruct (H m (or_introl eq_refl)) as (W & C & D). rewrite C, Nat.eqb_refl. cbn [guard bind].
  change (fits (n + (cols m + sum (map cols mats)))) in F.
  rewrite (mapM_ok _ (shiftC n)).
  - cbn [bind]. rewrite IH; [reflexivity|intros m1 I1; apply H; right; exact I1|]. cbn [snd]. unfold fits in *. lia.
  - intros [[i j] v] I. apply in_entries in I; auto. apply entry_range in I as [A B]; auto. rewrite !toStorage_ok by (unfold fits in *; lia). reflexivity.
Qed.
Lemma sum_app a b : sum (a ++ b) = sum a + sum b.
Proof. unfold sum. induction a; cbn; lia. Qed.
(** the triplets: in range, distinct, and where each comes from *)
Lemma tripsV mats : (forall m, In m mats -> Wf m) ->
  let r := fold_left blockV mats ([], 0) in
  snd r = sum (map rows mats) /\ NoDup (map pos (fst r)) /\
  (forall x j v, In (x, j, v) (fst r) -> x < snd r) /\
  (forall x j v, In (x, j, v) (fst r) <-> exists l1 m l2 i, mats = l1 ++ m :: l2 /\ x = sum (map rows l1) + i /\ entry m i j = Some v).
Proof.
  induction mats as [|m mats IH] using rev_ind; intros W.
  - cbn. split; auto. split; [constructor|]. split; [tauto|]. intros x j v. split; [tauto|]. intros (l1 & m & l2 & i & E & _). destruct l1; discriminate.
  - destruct IH as (A & B & C & D); [intros; apply W; apply in_app_iff; auto|]. rewrite fold_left_app. cbn [fold_left]. set (r := fold_left blockV mats ([], 0)) in *.
    assert (Wf m) as Wm by (apply W; apply in_app_iff; right; left; auto).
    unfold blockV. cbn [fst snd]. rewrite map_app, sum_app. cbn. split; [lia|]. split.
    { rewrite map_app. apply NoDup_app_intro; auto.
      - rewrite map_map. pose proof (NoDup_entries m Wm) as N. clear - N. induction (entries m) as [|[[i j] v] l IH]; cbn in *; constructor; inversion N; subst; auto.
        rewrite in_map_iff. intros ([[i' j'] v'] & E & I). cbn in E. injection E as E ->. assert (i' = i) as -> by lia. apply H1. apply in_map_iff. exists (i, j, v'). auto.
      - intros [x j] X1 X2. apply in_map_iff in X1 as ([[x1 j1] v1] & E1 & X1). cbn in E1. injection E1 as -> ->. rewrite map_map in X2. apply in_map_iff in X2 as ([[x2 j2] v2] & E2 & X2).
        cbn in E2. injection E2 as <- <-. apply C in X1. lia. }
    split.
    { intros x j v I. apply in_app_iff in I as [I|I]; [apply C in I; lia|]. apply in_map_iff in I as ([[i j'] v'] & E & I). cbn in E. injection E as <- <- <-. apply in_entries in I; auto. apply entry_range in I; auto. lia. }
    intros x j v. rewrite in_app_iff. split.
    + intros [I|I].
      * apply D in I as (l1 & m' & l2 & i & -> & E & K). exists l1, m', (l2 ++ [m]), i. rewrite <- app_assoc. auto.
      * apply in_map_iff in I as ([[i j'] v'] & E & I). cbn in E. injection E as <- <- <-. apply in_entries in I; auto. exists mats, m, [], i. split; auto. split; [lia|auto].
    + intros (l1 & m' & l2 & i & E & X & K). destruct l2 as [|m2 l2] using rev_ind.
      * apply app_inj_tail in E as [<- <-]. right. apply in_map_iff. exists (i, j, v). split; [unfold shiftR; cbn; f_equal; f_equal; lia|]. apply in_entries; auto.
      * rewrite app_comm_cons, app_assoc in E. apply app_inj_tail in E as [E _]. left. apply D. exists l1, m', l2, i. auto.
Qed.
Lemma tripsH mats : (forall m, In m mats -> Wf m) ->
  let r := fold_left blockH mats ([], 0) in
  snd r = sum (map cols mats) /\ NoDup (map pos (fst r)) /\
  (forall i y v, In (i, y, v) (fst r) -> y < snd r) /\
  (forall i y v, In (i, y, v) (fst r) <-> exists l1 m l2 j, mats = l1 ++ m :: l2 /\ y = sum (map cols l1) + j /\ entry m i j = Some v).
Proof.
  induction mats as [|m mats IH] using rev_ind; intros W.
  - cbn. split; auto. split; [constructor|]. split; [tauto|]. intros x j v. split; [tauto|]. intros (l1 & m & l2 & i & E & _). destruct l1; discriminate.
  - destruct IH as (A & B & C & D); [intros; apply W; apply in_app_iff; auto|]. rewrite fold_left_app. cbn [fold_left]. set (r := fold_left blockH mats ([], 0)) in *.
    assert (Wf m) as Wm by (apply W; apply in_app_iff; right; left; auto).
    unfold blockH. cbn [fst snd]. rewrite map_app, sum_app. cbn. split; [lia|]. split.
    { rewrite map_app. apply NoDup_app_intro; auto.
      - rewrite map_map. pose proof (NoDup_entries m Wm) as N. clear - N. induction (entries m) as [|[[i j] v] l IH]; cbn in *; constructor; inversion N; subst; auto.
        rewrite in_map_iff. intros ([[i' j'] v'] & E & I). cbn in E. injection E as -> E. assert (j' = j) as -> by lia. apply H1. apply in_map_iff. exists (i, j, v'). auto.
      - intros [x j] X1 X2. apply in_map_iff in X1 as ([[x1 j1] v1] & E1 & X1). cbn in E1. injection E1 as -> ->. rewrite map_map in X2. apply in_map_iff in X2 as ([[x2 j2] v2] & E2 & X2).
        cbn in E2. injection E2 as <- <-. apply C in X1. lia. }
    split.
    { intros x j v I. apply in_app_iff in I as [I|I]; [apply C in I; lia|]. apply in_map_iff in I as ([[i j'] v'] & E & I). cbn in E. injection E as <- <- <-. apply in_entries in I; auto. apply entry_range in I; auto. lia. }
    intros x j v. rewrite in_app_iff. split.
    + intros [I|I].
      * apply D in I as (l1 & m' & l2 & i & -> & E & K). exists l1, m', (l2 ++ [m]), i. rewrite <- app_assoc. auto.
      * apply in_map_iff in I as ([[i j'] v'] & E & I). cbn in E. injection E as <- <- <-. apply in_entries in I; auto. exists mats, m, [], j'. split; auto. split; [lia|auto].
    + intros (l1 & m' & l2 & i & E & X & K). destruct l2 as [|m2 l2] using rev_ind.
      * apply app_inj_tail in E as [<- <-]. right. apply in_map_iff. exists (x, i, v). split; [unfold shiftC; cbn; f_equal; f_equal; lia|]. apply in_entries; auto.
      * rewrite app_comm_cons, app_assoc in E. apply app_inj_tail in E as [E _]. left. apply D. exists l1, m', l2, i. auto.
Qed.
(** where a position falls is determined *)
Lemma offset_unique (f : smat T -> nat) (mats : list (smat T)) l1 m l2 i l1' m' l2' i' : mats = l1 ++ m :: l2 -> mats = l1' ++ m' :: l2' -> i < f m -> i' < f m' ->
  sum (map f l1) + i = sum (map f l1') + i' -> m = m' /\ i = i' /\ l1 = l1'.
Proof.
  intros E E'. rewrite E in E'. clear E. revert l1' E'. induction l1 as [|a l1 IH]; intros [|a' l1'] E' L L' S; cbn in E', S.
  - injection E' as <- _. auto.
  - injection E' as <- _. fold (sum (map f l1')) in S. lia.
  - injection E' as <- _. fold (sum (map f l1)) in S. lia.
  - injection E' as <- E'. fold (sum (map f l1)) in S. fold (sum (map f l1')) in S. destruct (IH l1' E' L L') as (A & B & C); [lia|]. subst. auto.
Qed.
Lemma foldM_throw {A S} (f : S -> A -> res S) l1 a l2 s s1 : foldM f l1 s = Ok s1 -> f s1 a = Throw -> foldM f (l1 ++ a :: l2) s = Throw.
Proof. revert s. induction l1; cbn; intros s H K; [injection H as ->; rewrite K; auto|]. destruct (f s a0); try discriminate. cbn in *. eauto. Qed.
Lemma first_bad {A} (p : A -> bool) l : (exists a, In a l /\ p a = false) -> exists l1 a l2, l = l1 ++ a :: l2 /\ p a = false /\ forall b, In b l1 -> p b = true.
Proof.
  induction l as [|x l IH]; intros (a & I & P); [destruct I|]. destruct (p x) eqn:E.
  - destruct IH as (l1 & b & l2 & -> & B1 & B2); [destruct I as [<-|I]; [congruence|eauto]|]. exists (x :: l1), b, l2. split; auto. split; auto. intros c [<-|C]; auto.
  - exists [], x, l. split; [reflexivity|]. split; [exact E|]. intros b [].
Qed.
Theorem stackV_main add mats : (forall m, In m mats -> Wf m /\ fits (rows m) /\ fits (cols m)) -> fits (sum (map rows mats)) ->
  (stackV add mats = Throw /\ (mats = [] \/ exists m m', In m mats /\ In m' mats /\ cols m <> cols m')) \/
  exists r, stackV add mats = Ok r /\ mats <> [] /\ (forall m, In m mats -> cols m = cols r) /\ Wf r /\ rows r = sum (map rows mats) /\
    forall l1 m l2 i j, mats = l1 ++ m :: l2 -> i < rows m -> entry r (sum (map rows l1) + i) j = entry m i j.
Proof.
  intros W F. destruct mats as [|m0 mats']; [left; auto|]. set (mats := m0 :: mats') in *.
  destruct (existsb (fun m => negb (cols m =? cols m0)) mats) eqn:B.
  - left. apply existsb_exists in B as (mb & I & B). rewrite negb_true_iff, Nat.eqb_neq in B. split; [|right; exists mb, m0; split; [auto|split; [left; reflexivity|auto]]].
    destruct (first_bad (fun m => cols m =? cols m0) mats) as (l1 & a & l2 & E & P1 & P2); [exists mb; split; [auto|apply Nat.eqb_neq; auto]|].
    unfold mats. unfold stackV. fold mats.
    rewrite E. rewrite (foldM_throw _ l1 a l2 _ (fold_left blockV l1 ([], 0))); auto.
    + apply foldV.
      * intros m I'. split; [apply W; rewrite E; apply in_app_iff; auto|]. split; [apply Nat.eqb_eq; auto|]. apply W. rewrite E. apply in_app_iff; auto.
      * cbn [snd]. rewrite E, map_app, sum_app in F. unfold fits in *. lia.
    + destruct (fold_left blockV l1 ([], 0)). rewrite P1. reflexivity.
  - right. assert (forall m, In m mats -> cols m = cols m0) as CC.
    { intros m I. destruct (Nat.eq_dec (cols m) (cols m0)) as [|N]; auto. exfalso. rewrite (proj2 (existsb_exists _ _)) in B; [discriminate|]. exists m. split; auto. rewrite negb_true_iff. apply Nat.eqb_neq; auto. }
    unfold mats. unfold stackV. fold mats. rewrite (foldV (cols m0) mats ([], 0)); [| |exact F].
    2:{ intros m I. split; [apply W; auto|]. split; [apply CC; auto|apply W; auto]. }
    cbn [bind]. destruct (tripsV mats) as (A1 & A2 & A3 & A4); [intros; apply W; auto|]. destruct (fold_left blockV mats ([], 0)) as [trips n] eqn:FL. cbn [fst snd] in *.
    destruct (fromTriplets_ok add n (cols m0) trips) as (r & R1 & R2 & R3 & R4 & R5); auto.
    { intros [[x j] v] I. cbn [fst snd]. split; [eapply A3; eauto|]. apply A4 in I as (l1 & m & l2 & i & E & X & K). rewrite <- (CC m) by (rewrite E; apply in_app_iff; right; left; auto).
      apply entry_range in K; [tauto|]. apply W. rewrite E; apply in_app_iff; right; left; auto. }
    exists r. split; auto. split; [discriminate|]. split; [intros; rewrite R4; auto|]. split; auto. split; [congruence|].
    intros l1 m l2 i j E L. apply option_ext. intros v. rewrite R5, A4. split.
    + intros (l1' & m' & l2' & i' & E' & X & K).
      assert (Wf m') as Wm' by (apply W; rewrite E'; apply in_app_iff; right; left; auto).
      destruct (entry_range _ _ _ _ Wm' K) as [K' _]. destruct (offset_unique rows mats l1 m l2 i l1' m' l2' i' E E' L K' X) as (-> & -> & _). auto.
    + intros K. exists l1, m, l2, i. auto.
Qed.
Theorem stackH_main add mats : (forall m, In m mats -> Wf m /\ fits (rows m) /\ fits (cols m)) -> fits (sum (map cols mats)) ->
  (stackH add mats = Throw /\ (mats = [] \/ exists m m', In m mats /\ In m' mats /\ rows m <> rows m')) \/
  exists r, stackH add mats = Ok r /\ mats <> [] /\ (forall m, In m mats -> rows m = rows r) /\ Wf r /\ cols r = sum (map cols mats) /\
    forall l1 m l2 i j, mats = l1 ++ m :: l2 -> j < cols m -> entry r i (sum (map cols l1) + j) = entry m i j.
Proof.
  intros W F. destruct mats as [|m0 mats']; [left; auto|]. set (mats := m0 :: mats') in *.
  destruct (existsb (fun m => negb (rows m =? rows m0)) mats) eqn:B.
  - left. apply existsb_exists in B as (mb & I & B). rewrite negb_true_iff, Nat.eqb_neq in B. split; [|right; exists mb, m0; split; [auto|split; [left; reflexivity|auto]]].
    destruct (first_bad (fun m => rows m =? rows m0) mats) as (l1 & a & l2 & E & P1 & P2); [exists mb; split; [auto|apply Nat.eqb_neq; auto]|].
    unfold mats. unfold stackH. fold mats.
    rewrite E. rewrite (foldM_throw _ l1 a l2 _ (fold_left blockH l1 ([], 0))); auto.
    + apply foldH.
      * intros m I'. split; [apply W; rewrite E; apply in_app_iff; auto|]. split; [apply Nat.eqb_eq; auto|]. apply W. rewrite E. apply in_app_iff; auto.
      * cbn [snd]. rewrite E, map_app, sum_app in F. unfold fits in *. lia.
    + destruct (fold_left blockH l1 ([], 0)). rewrite P1. reflexivity.
  - right. assert (forall m, In m mats -> rows m = rows m0) as CC.
    { intros m I. destruct (Nat.eq_dec (rows m) (rows m0)) as [|N]; auto. exfalso. rewrite (proj2 (existsb_exists _ _)) in B; [discriminate|]. exists m. split; auto. rewrite negb_true_iff. apply Nat.eqb_neq; auto. }
    unfold mats. unfold stackH. fold mats. rewrite (foldH (rows m0) mats ([], 0)); [| |exact F].
    2:{ intros m I. split; [apply W; auto|]. split; [apply CC; auto|apply W; auto]. }
    cbn [bind]. destruct (tripsH mats) as (A1 & A2 & A3 & A4); [intros; apply W; auto|]. destruct (fold_left blockH mats ([], 0)) as [trips n] eqn:FL. cbn [fst snd] in *.
    destruct (fromTriplets_ok add (rows m0) n trips) as (r & R1 & R2 & R3 & R4 & R5); auto.
    { intros [[x j] v] I. cbn [fst snd]. split; [|eapply A3; eauto]. apply A4 in I as (l1 & m & l2 & i & E & X & K). rewrite <- (CC m) by (rewrite E; apply in_app_iff; right; left; auto).
      apply entry_range in K; [tauto|]. apply W. rewrite E; apply in_app_iff; right; left; auto. }
    exists r. split; auto. split; [discriminate|]. split; [intros; rewrite R3; auto|]. split; auto. split; [congruence|].
    intros l1 m l2 i j E L. apply option_ext. intros v. rewrite R5, A4. split.
    + intros (l1' & m' & l2' & i' & E' & X & K).
      assert (Wf m') as Wm' by (apply W; rewrite E'; apply in_app_iff; right; left; auto).
      destruct (entry_range _ _ _ _ Wm' K) as [_ K']. destruct (offset_unique cols mats l1 m l2 j l1' m' l2' i' E E' L K' X) as (-> & -> & _). auto.
    + intros K. exists l1, m, l2, j. auto.
Qed.
End Scalar.
