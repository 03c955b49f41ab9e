(** Proofs about the block decomposition, vectors and checks of MatrixModel *)
From Verif Require Import Base MatrixModel MatrixSpec MatrixProofs.
Open Scope nat_scope.

(** ** selecting indices *)
Definition sel (q : nat -> bool) (n : nat) : list nat := filter q (seq 0 n).
Definition rk (q : nat -> bool) (i : nat) : nat := length (sel q i).
Lemma sel_S q n : sel q (S n) = sel q n ++ (if q n then [n] else []).
Proof. unfold sel. rewrite seq_S, filter_app. cbn. reflexivity. Qed.
Lemma rk_S q n : rk q (S n) = rk q n + (if q n then 1 else 0).
Proof. unfold rk. rewrite sel_S, app_length. destruct (q n); auto. Qed.
Lemma in_sel q n i : In i (sel q n) <-> i < n /\ q i = true.
Proof. unfold sel. rewrite filter_In, in_seq. split; intros []; split; auto; lia. Qed.
Lemma sel_split q n i : i < n -> q i = true -> exists l, sel q n = sel q i ++ i :: l.
Proof.
  intros L Q. exists (filter q (seq (S i) (n - S i))). unfold sel. replace n with (i + S (n - S i)) at 1 by lia. rewrite seq_app, filter_app. cbn. rewrite Q. reflexivity.
Qed.
Lemma nth_rk q n i d : i < n -> q i = true -> nth (rk q i) (sel q n) d = i.
Proof. intros L Q. destruct (sel_split q n i L Q) as (l & ->). unfold rk. rewrite app_nth2, Nat.sub_diag by lia. reflexivity. Qed.
Lemma rk_lt q n i : i < n -> q i = true -> rk q i < rk q n.
Proof. intros L Q. destruct (sel_split q n i L Q) as (l & E). unfold rk at 2. rewrite E, app_length. cbn. fold (rk q i). lia. Qed.
Lemma rk_nth q n x d : x < rk q n -> rk q (nth x (sel q n) d) = x.
Proof.
  intros L. induction n as [|n IH]; [unfold rk, sel in L; cbn in L; lia|]. rewrite rk_S in L. rewrite sel_S. destruct (Nat.lt_ge_cases x (rk q n)) as [K|K].
  - rewrite app_nth1 by exact K. auto.
  - destruct (q n) eqn:Q; [|lia]. rewrite app_nth2 by exact K. fold (rk q n). replace (x - rk q n) with 0 by lia. change (rk q n = x). lia.
Qed.
Lemma sel_indices q n : indices (fun i => q i = true) n (sel q n).
Proof.
  split; [apply in_sel|]. intros x y [L K]. fold (rk q n) in K. assert (x < rk q n) as K' by lia.
  pose proof (rk_nth q n x 0 K') as A. pose proof (rk_nth q n y 0 K) as B. remember (nth x (sel q n) 0) as i. remember (nth y (sel q n) 0) as j.
  assert (q j = true) as Qj by (eapply in_sel; subst j; apply nth_In; exact K). assert (q i = true) as Qi by (eapply in_sel; subst i; apply nth_In; exact K').
  destruct (Nat.lt_ge_cases i j) as [|G]; auto. exfalso. destruct (Nat.eq_dec i j) as [E|N]; [rewrite E in A; lia|]. pose proof (rk_lt q i j ltac:(lia) Qj). lia.
Qed.

Lemma foldM_snoc1 {A S} (f : S -> A -> res S) l a s : foldM f (l ++ [a]) s = let* s' := foldM f l s in f s' a.
Proof. revert s. induction l; intros s; cbn; [destruct (f s a); reflexivity|]. destruct (f s a0); cbn; auto. Qed.
Section Scalar.
Context {T : Type}.
Implicit Types (m : smat T).
Notation pos := (fun t : nat * nat * T => fst t).

Definition pick (q1 q2 : nat -> bool) (l : list (nat * nat * T)) : list (nat * nat * T) :=
  map (fun e => (rk q1 (fst (fst e)), rk q2 (snd (fst e)), snd e)) (filter (fun e => q1 (fst (fst e)) && q2 (snd (fst e))) l).
Lemma in_pick m q1 q2 x y v : Wf m -> (In (x, y, v) (pick q1 q2 (entries m)) <-> exists r c, entry m r c = Some v /\ q1 r = true /\ q2 c = true /\ x = rk q1 r /\ y = rk q2 c).
Proof.
  intros W. unfold pick. rewrite in_map_iff. split.
  - intros ([[r c] w] & E & I). cbn in E. injection E as <- <- <-. apply filter_In in I as [I J]. cbn in J. apply andb_prop in J as [J1 J2]. apply in_entries in I; auto. exists r, c. auto.
  - intros (r & c & E & A & B & -> & ->). exists (r, c, v). split; auto. apply filter_In. cbn. rewrite A, B. split; auto. apply in_entries; auto.
Qed.
Lemma rk_inj q i j : q i = true -> q j = true -> rk q i = rk q j -> i = j.
Proof. intros A B E. destruct (Nat.lt_trichotomy i j) as [L|[L|L]]; auto; [pose proof (rk_lt q j i L A)|pose proof (rk_lt q i j L B)]; lia. Qed.
Lemma NoDup_pick m q1 q2 : Wf m -> NoDup (map pos (pick q1 q2 (entries m))).
Proof.
  intros W. pose proof (NoDup_entries m W) as N. unfold pick. rewrite map_map. cbn [fst]. induction (entries m) as [|[[r c] v] l IH]; cbn [map filter fst snd] in *; [constructor|]. inversion N; subst.
  destruct (q1 r && q2 c) eqn:Q; auto. cbn [map fst snd]. constructor; auto. rewrite in_map_iff. intros ([[r' c'] v'] & E & I). cbn [fst snd] in E. injection E as E1 E2.
  apply filter_In in I as [I J]. cbn [fst snd] in J. apply andb_prop in J as [J1 J2], Q as [Q1 Q2]. apply rk_inj in E1, E2; auto. subst. apply H1. apply in_map_iff. exists (r, c, v'). auto.
Qed.
Lemma block_ok add m n q1 q2 : Wf m -> rows m = n -> cols m = n -> exists b, fromTriplets add (rk q1 n) (rk q2 n) (pick q1 q2 (entries m)) = Ok b /\ isBlock m b (sel q1 n) (sel q2 n).
Proof.
  intros W R C. destruct (fromTriplets_ok add (rk q1 n) (rk q2 n) (pick q1 q2 (entries m))) as (b & B1 & B2 & B3 & B4 & B5).
  - intros [[x y] v] I. apply in_pick in I as (r & c & E & A & B & -> & ->); auto. apply entry_range in E as [E1 E2]; auto. cbn. split; apply rk_lt; auto; lia.
  - apply NoDup_pick; auto.
  - exists b. split; auto. split; auto. split; auto. split; auto. intros x y X Y. apply option_ext. intros v. rewrite B5, in_pick by auto. split.
    + intros (r & c & E & A & B & -> & ->). destruct (entry_range _ _ _ _ W E). rewrite !nth_rk by (auto; lia). auto.
    + intros E. exists (nth x (sel q1 n) 0), (nth y (sel q2 n) 0). split; auto. split; [apply (in_sel q1 n); apply nth_In; auto|]. split; [apply (in_sel q2 n); apply nth_In; auto|]. rewrite !rk_nth; auto.
Qed.

(** ** the loops *)
Variable Aset : list bool.
Let p i := nth i Aset false.
Let nq i := negb (p i).
Lemma rdA i : i < length Aset -> rd Aset i = Ok (p i).
Proof. apply rd_nth. Qed.
Lemma foldM_S {S} (f : S -> nat -> res S) k s : foldM f (seq 0 (k + 1)) s = let* s' := foldM f (seq 0 k) s in f s' k.
Proof. rewrite seq_app. cbn [seq Nat.add]. generalize (seq 0 k) as l. intros l. revert s. induction l; intros s; cbn; [destruct (f s k); reflexivity|]. destruct (f s a); cbn; auto. Qed.
Lemma count_ok k : k <= length Aset -> countSizes Aset k = Ok (rk p k, rk nq k).
Proof.
  induction k as [|k IH]; intros L; [reflexivity|]. unfold countSizes in *. rewrite <- Nat.add_1_r, foldM_S, IH by lia. cbn [bind]. rewrite rdA by lia. cbn [bind]. rewrite Nat.add_1_r, !rk_S.
  change (nq k) with (negb (p k)). destruct (p k); cbn [negb]; rewrite !Nat.add_0_r, !Nat.add_1_r; reflexivity.
Qed.
Definition rank i := if p i then rk p i else rk nq i.
Lemma upd_app {A} (l1 : list A) x l2 v : upd (l1 ++ x :: l2) (length l1) v = l1 ++ v :: l2.
Proof. induction l1; cbn; auto. f_equal; auto. Qed.
Lemma wr_next (l : list nat) junk c x : wr (l ++ repeat junk (S c)) (length l) x = Ok ((l ++ [x]) ++ repeat junk c).
Proof. rewrite wr_Ok by (rewrite app_length, repeat_length; lia). cbn [repeat]. rewrite upd_app, <- app_assoc. reflexivity. Qed.
Lemma rk_mono q a b : a <= b -> rk q a <= rk q b.
Proof. induction 1; auto. rewrite rk_S. destruct (q m); lia. Qed.
Lemma index_ok junk n : n <= length Aset -> forall k, k <= n ->
  foldM (indexStep Aset) (seq 0 k) (repeat junk n, repeat junk (rk p n), repeat junk (rk nq n), 0, 0) =
  Ok (map rank (seq 0 k) ++ repeat junk (n - k), sel p k ++ repeat junk (rk p n - rk p k), sel nq k ++ repeat junk (rk nq n - rk nq k), rk p k, rk nq k).
Proof.
  intros Ln. induction k as [|k IH]; intros L.
  - cbn. rewrite !Nat.sub_0_r. reflexivity.
  - rewrite <- Nat.add_1_r, foldM_S, IH by lia. cbn [bind]. unfold indexStep. rewrite rdA by lia. cbn [bind]. rewrite Nat.add_1_r, !rk_S, !sel_S.
    pose proof (rk_mono p (S k) n L) as Mp. pose proof (rk_mono nq (S k) n L) as Mn. rewrite rk_S in Mp, Mn.
    assert (forall x, wr (map rank (seq 0 k) ++ repeat junk (n - k)) k x = Ok ((map rank (seq 0 k) ++ [x]) ++ repeat junk (n - S k))) as WN.
    { intros x. replace (n - k) with (S (n - S k)) by lia. rewrite <- wr_next. rewrite map_length, seq_length. reflexivity. }
    replace (nq k) with (negb (p k)) in * by reflexivity. rewrite seq_S, map_app. cbn [map Nat.add]. assert (rank k = if p k then rk p k else rk nq k) as RK by reflexivity. destruct (p k) eqn:P; cbn [negb] in *; rewrite RK.
    + replace (rk p n - rk p k) with (S (rk p n - (rk p k + 1))) by lia. pose proof (wr_next (sel p k) junk (rk p n - (rk p k + 1)) k) as WA. fold (rk p k) in WA. rewrite WA. cbn [bind]. rewrite WN. cbn [bind]. rewrite !app_nil_r, !Nat.add_0_r, !Nat.add_1_r. reflexivity.
    + replace (rk nq n - rk nq k) with (S (rk nq n - (rk nq k + 1))) by lia. pose proof (wr_next (sel nq k) junk (rk nq n - (rk nq k + 1)) k) as WA. fold (rk nq k) in WA. rewrite WA. cbn [bind]. rewrite WN. cbn [bind]. rewrite !app_nil_r, !Nat.add_0_r, !Nat.add_1_r. reflexivity.
Qed.

Definition gate (b : bool) (l : list (nat * nat * T)) := if b then l else [].
Lemma pick_snoc q1 q2 l r c v : pick q1 q2 (l ++ [(r, c, v)]) = pick q1 q2 l ++ (if q1 r && q2 c then [(rk q1 r, rk q2 c, v)] else []).
Proof. unfold pick. rewrite filter_app, map_app. cbn [filter fst snd]. destruct (q1 r && q2 c); reflexivity. Qed.
Lemma split_ok bside n : n <= length Aset -> fits n -> forall l, (forall r c v, In (r, c, v) l -> r < n /\ c < n) ->
  foldM (splitStep Aset (map rank (seq 0 n)) bside) l ([], [], [], []) = Ok (pick p p l, pick p nq l, gate bside (pick nq p l), gate bside (pick nq nq l)).
Proof.
  intros Ln F. induction l as [|[[r c] v] l IH] using rev_ind; intros R; [destruct bside; reflexivity|].
  rewrite foldM_snoc1. rewrite IH by (intros; eapply R; apply in_app_iff; left; eauto). cbn [bind]. destruct (R r c v) as [Lr Lc]; [apply in_app_iff; right; left; auto|].
  unfold splitStep. rewrite !rdA by lia. cbn [bind].
  assert (forall i, i < n -> (let* x := rd (map rank (seq 0 n)) i in toStorage x) = Ok (rank i)) as RD.
  { intros i L. rewrite (rd_nth _ _ 0) by (rewrite map_length, seq_length; auto). cbn [bind].
    rewrite (nth_indep _ 0 (rank 0)) by (rewrite map_length, seq_length; auto). rewrite map_nth, seq_nth by auto. cbn [Nat.add]. apply toStorage_ok.
    assert (rank i <= i); [|unfold fits in *; lia]. assert (forall q, rk q i <= i) as K by (intros q; clear; induction i; [auto|rewrite rk_S; destruct (q i); lia]). unfold rank. destruct (p i); auto. }
  rewrite !RD by auto. cbn [bind]. rewrite !pick_snoc. change (nq r) with (negb (p r)). change (nq c) with (negb (p c)).
  assert (rank r = if p r then rk p r else rk nq r) as -> by reflexivity. assert (rank c = if p c then rk p c else rk nq c) as -> by reflexivity.
  destruct (p r), (p c), bside; cbn [negb andb gate]; rewrite ?app_nil_r; reflexivity.
Qed.
Theorem decompose_main add junk m bside : Wf m -> rows m = cols m -> length Aset = rows m -> fits (rows m) ->
  exists d, blockDecomposeSquare add junk m Aset bside = Ok d /\ isA d = Aset /\
    origIndsA d = sel p (rows m) /\ origIndsB d = sel nq (rows m) /\ newInds d = map rank (seq 0 (rows m)) /\
    isBlock m (AA d) (origIndsA d) (origIndsA d) /\ isBlock m (AB d) (origIndsA d) (origIndsB d) /\
    (if bside then isBlock m (BA d) (origIndsB d) (origIndsA d) /\ isBlock m (BB d) (origIndsB d) (origIndsB d)
     else BA d = mkS 0 0 [] /\ BB d = mkS 0 0 []).
Proof.
  intros W SQ LA F. unfold blockDecomposeSquare. rewrite SQ, Nat.eqb_refl, <- SQ. cbn [guard bind]. rewrite count_ok by lia. cbn [bind]. rewrite index_ok by lia. cbn [bind].
  rewrite !Nat.sub_diag. cbn [repeat]. rewrite !app_nil_r. rewrite split_ok; [|lia|auto|].
  2:{ intros r c v I. apply in_entries in I; auto. apply entry_range in I; auto. lia. }
  cbn [bind].
  destruct (block_ok add m (rows m) p p W eq_refl (eq_sym SQ)) as (b1 & -> & B1). destruct (block_ok add m (rows m) p nq W eq_refl (eq_sym SQ)) as (b2 & -> & B2).
  destruct (block_ok add m (rows m) nq p W eq_refl (eq_sym SQ)) as (b3 & E3 & B3). destruct (block_ok add m (rows m) nq nq W eq_refl (eq_sym SQ)) as (b4 & E4 & B4).
  cbn [bind]. destruct bside; cbn [gate]; [rewrite E3, E4|]; cbn [bind]; eexists; (split; [reflexivity|]); cbn [isA origIndsA origIndsB newInds AA AB BA BB]; auto 10.
Qed.
Lemma sel_perm n i : i < n -> In i (sel p n) \/ In i (sel nq n).
Proof. intros L. destruct (p i) eqn:E; [left|right]; apply in_sel; split; auto. unfold nq. rewrite E. auto. Qed.

(** ** vectors *)
Lemma gather_ok (x : list T) d I : (forall i, In i I -> i < length x) -> mapM (rd x) I = Ok (map (fun i => nth i x d) I).
Proof. intros H. apply mapM_ok. intros i K. apply rd_nth. auto. Qed.
Lemma scatter_ok (out : list T) (inds : list nat) (vec : list T) d : NoDup inds -> length vec = length inds -> (forall i, In i inds -> i < length out) ->
  exists o, scatter out inds vec = Ok o /\ length o = length out /\ (forall x, x < length inds -> nth (nth x inds 0) o d = nth x vec d) /\ (forall k, ~ In k inds -> nth k o d = nth k out d).
Proof.
  intros N L R. unfold scatter. assert (forall k, k <= length vec -> exists o, foldM (fun out i => let* k := rd inds i in let* v := rd vec i in wr out k v) (seq 0 k) out = Ok o /\
     length o = length out /\ (forall x, x < k -> nth (nth x inds 0) o d = nth x vec d) /\ (forall j, (forall x, x < k -> nth x inds 0 <> j) -> nth j o d = nth j out d)) as G.
  { induction k as [|k IH]; intros K; [exists out; cbn; split; auto; split; auto; split; auto; intros; lia|]. destruct IH as (o & A & B & C & D); [lia|].
    assert (nth k inds 0 < length o) as LK by (rewrite B; apply R; apply nth_In; lia).
    rewrite <- Nat.add_1_r, foldM_S, A. cbn [bind]. rewrite (rd_nth inds k 0), (rd_nth vec k d) by lia. cbn [bind]. rewrite wr_Ok by auto. eexists. split; [reflexivity|]. rewrite length_upd. split; auto. split.
    - intros x X. destruct (Nat.eq_dec x k) as [->|NE]; [apply nth_upd_eq; auto|]. rewrite nth_upd_neq; [apply C; lia|].
      intros E. apply NE. symmetry. apply (proj1 (NoDup_nth inds 0) N); auto; lia.
    - intros j J. rewrite nth_upd_neq by (apply J; lia). apply D. intros x X. apply J. lia. }
  destruct (G (length vec)) as (o & A & B & C & D); auto. exists o. split; auto. split; auto. split; [rewrite <- L; auto|]. intros k K. apply D. intros x X E. apply K. rewrite <- E. apply nth_In. lia.
Qed.
Lemma NoDup_sel q n : NoDup (sel q n). Proof. apply NoDup_filter. apply seq_NoDup. Qed.
Theorem reassemble_main (d : decomp T) n junk (a b : list T) z : origIndsA d = sel p n -> origIndsB d = sel nq n -> length (newInds d) = n ->
  length a = length (origIndsA d) -> length b = length (origIndsB d) ->
  exists o, reassembleVector junk d a b = Ok o /\ length o = n /\ (forall x, x < length a -> nth (nth x (origIndsA d) 0) o z = nth x a z) /\ (forall x, x < length b -> nth (nth x (origIndsB d) 0) o z = nth x b z).
Proof.
  intros EA EB EN LA LB. unfold reassembleVector. rewrite EA, EB, EN in *.
  destruct (scatter_ok (repeat junk n) (sel p n) a z) as (o & A1 & A2 & A3 & A4); [apply NoDup_sel|auto|intros i I; apply in_sel in I; rewrite repeat_length; tauto|].
  rewrite repeat_length in A2. rewrite A1. cbn [bind].
  destruct (scatter_ok o (sel nq n) b z) as (o' & B1 & B2 & B3 & B4); [apply NoDup_sel|auto|intros i I; apply in_sel in I; rewrite A2; tauto|].
  exists o'. split; auto. split; [congruence|]. split; [|rewrite LB; auto]. intros x X. rewrite B4; [apply A3; lia|].
  intros I. apply in_sel in I as [_ I]. assert (In (nth x (sel p n) 0) (sel p n)) as J by (apply nth_In; lia). apply in_sel in J as [_ J]. unfold nq in I. rewrite J in I. discriminate.
Qed.
End Scalar.
