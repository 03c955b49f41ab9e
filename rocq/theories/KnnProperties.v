(** C94: nearest neighbour queries. *)
From Coq Require Import Reals Lra Sorted Permutation.
From Verif Require Import Base GeoModel KnnModel KnnSpec.
Open Scope nat_scope.

Lemma eraseFirst_spec s l : match eraseFirst s l with Some l' => exists a b, l = a ++ s :: b /\ l' = a ++ b | None => ~ In s l end.
Proof.
  induction l as [|i t IH]; cbn; [auto|]. destruct (Nat.eqb_spec i s) as [->|N].
  - exists [], t. auto.
  - destruct (eraseFirst s t) as [t'|].
    + destruct IH as (a & b & -> & ->). exists (i :: a), b. auto.
    + intros [K|K]; auto.
Qed.
Lemma sorted_app {A} (P : A -> A -> Prop) a b : StronglySorted P (a ++ b) -> StronglySorted P a /\ StronglySorted P b.
Proof.
  induction a as [|x a IH]; cbn; intros H; [split; [constructor|auto]|]. inversion H as [|? ? H1 H2]; subst. destruct (IH H1) as [I1 I2]. apply Forall_app in H2 as [H2 _]. split; [constructor|]; auto.
Qed.
Lemma sorted_remove {A} (P : A -> A -> Prop) x a b : StronglySorted P (a ++ x :: b) -> StronglySorted P (a ++ b).
Proof.
  induction a as [|y a IH]; cbn; intros H; inversion H as [|? ? H1 H2]; subst; [auto|]. constructor; [auto|]. apply Forall_app in H2 as [H2 H3]. inversion H3; subst. apply Forall_app; auto.
Qed.
Lemma dist_nonneg pts q i : (0 <= distTo pts q i)%R. Proof. apply sqrt_pos. Qed.
Lemma dist_self pts s p : nth_error pts s = Some p -> distTo pts p s = 0%R.
Proof.
  intros E. unfold distTo. rewrite (nth_error_nth _ _ _ E). unfold norm3d, sub3. cbn [qx qy qz]. replace (_ + _)%R with 0%R by ring. apply sqrt_0.
Qed.

(** kNearest throws when there are fewer than k points, and lists the k nearest otherwise *)
Theorem C94_k_nearest tree pts q k : ExactSearch tree pts ->
  (length pts < k -> kNearest tree pts q k = Throw) /\
  (0 < k <= length pts -> exists l, kNearest tree pts q k = Ok l /\ length l = k /\ Nearest pts q (fun _ => True) l).
Proof.
  intros ES. unfold kNearest. split; intros K.
  - rewrite (proj2 (Nat.ltb_lt _ _)) by lia. reflexivity.
  - rewrite (proj2 (Nat.ltb_ge _ _)) by lia. rewrite (proj2 (Nat.eqb_neq _ _)) by lia. exists (tree q k). destruct (ES q k K). auto.
Qed.
Print Assumptions C94_k_nearest.

(** kNearestNeighbors throws when there are fewer than k other points, and otherwise lists the k nearest of the others, also when other points coincide with the source *)
Theorem C94_neighbours tree pts s k p : ExactSearch tree pts -> nth_error pts s = Some p ->
  (length pts <= k -> kNearestNeighbors tree pts s k = Throw) /\
  (k < length pts -> exists l, kNearestNeighbors tree pts s k = Ok l /\ length l = k /\ Nearest pts p (fun i => i <> s) l).
Proof.
  intros ES E. unfold kNearestNeighbors. split; intros K.
  { rewrite (proj2 (Nat.ltb_lt _ _)) by lia. reflexivity. }
  rewrite (proj2 (Nat.ltb_ge _ _)) by lia. unfold rd. rewrite E. cbn [bind]. assert (Ls : s < length pts) by (apply nth_error_Some; congruence).
  destruct (ES p (k + 1) ltac:(lia)) as [LN [N1 N2 N3 N4]]. set (l := tree p (k + 1)) in *. pose proof (eraseFirst_spec s l) as F. destruct (eraseFirst s l) as [l'|].
  - destruct F as (a & b & El & ->). exists (a ++ b). rewrite El in *. clear El l. split; [reflexivity|]. split; [rewrite app_length in *; cbn [length] in LN; lia|].
    destruct (NoDup_remove _ _ _ N1) as [M1 M2]. constructor.
    + exact M1.
    + intros i I. split; [|intros ->; auto]. apply N2. apply in_app_iff in I. apply in_app_iff. cbn. tauto.
    + eapply sorted_remove; eauto.
    + intros i j I Lj Nj J. apply N4; auto.
      * apply in_app_iff in I. apply in_app_iff. cbn. tauto.
      * intros J'. apply J. apply in_app_iff in J'. apply in_app_iff. cbn in J'. destruct J' as [J'|[J'|J']]; [tauto|congruence|tauto].
  - assert (NE : l <> []) by (intros Q; rewrite Q in LN; cbn in LN; lia). pose proof (app_removelast_last 0 NE) as El. exists (removelast l). split; [reflexivity|].
    assert (IN : forall i, In i (removelast l) -> In i l) by (intros i I; rewrite El; apply in_app_iff; auto).
    split; [rewrite El, app_length in LN; cbn [length] in LN; lia|]. constructor.
    + rewrite El in N1. apply NoDup_remove_1 in N1. rewrite app_nil_r in N1. exact N1.
    + intros i I. split; [apply N2; auto|intros ->; auto].
    + rewrite El in N3. apply sorted_app in N3. apply N3.
    + intros i j I _ _ _. assert (Q := N4 i s (IN i I) Ls Logic.I F). rewrite (dist_self _ _ _ E) in Q. pose proof (dist_nonneg pts p j). lra.
Qed.
Print Assumptions C94_neighbours.

(** Neighborhoods: every point gets its k nearest others; throws if there are points, but not more than k *)
Lemma neighbors_from tree pts k : ExactSearch tree pts -> k < length pts -> forall n a, a + n <= length pts ->
  exists ls, neighborsFrom tree pts k (seq a n) = Ok ls /\ length ls = n /\ forall i p, i < n -> nth_error pts (a + i) = Some p -> exists l, nth_error ls i = Some l /\ length l = k /\ Nearest pts p (fun j => j <> a + i) l.
Proof.
  intros ES K. induction n as [|n IH]; intros a B; cbn [seq neighborsFrom]; [exists []; split; [auto|split; [auto|intros; lia]]|].
  destruct (nth_error pts a) as [q|] eqn:E; [|apply nth_error_None in E; lia]. destruct (proj2 (C94_neighbours tree pts a k q ES E) K) as (l & El & LN & NE). rewrite El. cbn [bind].
  destruct (IH (S a)) as (ls & Es & LS & H); [lia|]. rewrite Es. cbn [bind]. exists (l :: ls). split; [reflexivity|]. split; [cbn; lia|]. intros i p Li Ep. destruct i as [|i].
  - rewrite Nat.add_0_r in *. exists l. replace p with q by congruence. auto.
  - cbn [nth_error]. replace (a + S i) with (S a + i) in * by lia. apply H; [lia|auto].
Qed.
Theorem C94_neighborhoods tree pts k : ExactSearch tree pts ->
  (0 < length pts <= k -> neighborhoods tree pts k = Throw) /\
  (k < length pts -> exists ls, neighborhoods tree pts k = Ok ls /\ length ls = length pts /\
    forall i p, nth_error pts i = Some p -> exists l, nth_error ls i = Some l /\ length l = k /\ Nearest pts p (fun j => j <> i) l).
Proof.
  intros ES. unfold neighborhoods. split; intros K.
  - destruct pts as [|p t]; [cbn in K; lia|]. cbn [length seq neighborsFrom]. destruct (C94_neighbours tree (p :: t) 0 k p ES eq_refl) as [A _]. rewrite A by lia. reflexivity.
  - destruct (neighbors_from tree pts k ES K (length pts) 0) as (ls & E & LN & H); [lia|]. exists ls. split; [exact E|]. split; [exact LN|]. intros i p Ei. apply H; auto. apply nth_error_Some. congruence.
Qed.
Print Assumptions C94_neighborhoods.

(** radiusSearch lists the points nearer than the radius, once each; the sign of the radius is lost by squaring *)
Theorem C94_radius ball pts q rad : ExactBall ball pts ->
  NoDup (radiusSearch ball q rad) /\ forall i, In i (radiusSearch ball q rad) <-> i < length pts /\ (distTo pts q i < Rabs rad)%R.
Proof.
  intros EB. unfold radiusSearch. destruct (EB q (rad * rad)%R) as [N I]. split; [exact N|]. intros i. rewrite I. unfold distTo, norm3d. fold (norm2_3 (sub3 (nth i pts (mk3 0 0 0)) q)). set (d := norm2_3 _).
  assert (D : (0 <= d)%R) by (unfold d, norm2_3; nra). rewrite <- (sqrt_Rsqr_abs rad). unfold Rsqr. assert (R0 : (0 <= rad * rad)%R) by nra.
  split; intros [A B]; split; auto; [apply sqrt_lt_1; auto|apply sqrt_lt_0_alt; auto].
Qed.
Print Assumptions C94_radius.

(** every list of points has such searches: the contracts can be met *)
Fixpoint insertBy (d : nat -> R) (x : nat) (l : list nat) : list nat :=
  match l with [] => [x] | y :: t => if Rle_dec (d x) (d y) then x :: l else y :: insertBy d x t end.
Definition sortBy (d : nat -> R) (l : list nat) : list nat := fold_right (insertBy d) [] l.
Lemma insert_perm d x l : Permutation (insertBy d x l) (x :: l).
Proof. induction l as [|y t IH]; cbn; auto. destruct (Rle_dec (d x) (d y)); auto. rewrite IH. apply perm_swap. Qed.
Lemma sort_perm d l : Permutation (sortBy d l) l.
Proof. induction l as [|x t IH]; cbn; auto. rewrite insert_perm, IH. auto. Qed.
Lemma insert_sorted d x l : StronglySorted (fun i j => d i <= d j)%R l -> StronglySorted (fun i j => d i <= d j)%R (insertBy d x l).
Proof.
  induction l as [|y t IH]; intros H; cbn; [repeat constructor|]. inversion H as [|? ? H1 H2]; subst. rewrite Forall_forall in H2. destruct (Rle_dec (d x) (d y)) as [K|K].
  - constructor; auto. apply Forall_forall. intros z [<-|I]; auto. specialize (H2 z I). lra.
  - constructor; auto. apply Forall_forall. intros z I. apply (Permutation_in _ (insert_perm d x t)) in I as [<-|I]; auto. lra.
Qed.
Lemma sort_sorted d l : StronglySorted (fun i j => d i <= d j)%R (sortBy d l).
Proof. induction l as [|x t IH]; cbn; [constructor|apply insert_sorted; auto]. Qed.
Lemma sorted_split {A} (P : A -> A -> Prop) a b x y : StronglySorted P (a ++ b) -> In x a -> In y b -> P x y.
Proof.
  induction a as [|z a IH]; cbn; intros H I J; [tauto|]. inversion H as [|? ? H1 H2]; subst. destruct I as [<-|I]; auto. rewrite Forall_forall in H2. apply H2, in_app_iff. auto.
Qed.
Theorem C94_contracts_met pts : (exists tree, ExactSearch tree pts) /\ exists ball, ExactBall ball pts.
Proof.
  split.
  - exists (fun q k => firstn k (sortBy (distTo pts q) (seq 0 (length pts)))). intros q k K. set (d := distTo pts q). set (l := sortBy d (seq 0 (length pts))). assert (P : Permutation l (seq 0 (length pts))) by apply sort_perm.
    assert (S : StronglySorted (fun i j => d i <= d j)%R l) by apply sort_sorted. assert (ND : NoDup l) by (apply (Permutation_NoDup (Permutation_sym P)), seq_NoDup). assert (LN : length l = length pts) by (rewrite (Permutation_length P); apply seq_length).
    assert (IL : forall i, In i l <-> i < length pts) by (intros i; split; [intros I; apply (Permutation_in _ P), in_seq in I; lia|intros I; apply (Permutation_in _ (Permutation_sym P)), in_seq; lia]).
    pose proof (firstn_skipn k l) as FS. split; [apply firstn_length_le; lia|]. constructor.
    + rewrite <- FS in ND. clear - ND. induction (firstn k l) as [|x a IH]; [constructor|]. cbn in ND. inversion ND as [|? ? N1 N2]; subst. constructor; auto. intros I. apply N1, in_app_iff. auto.
    + intros i I. split; auto. apply IL. rewrite <- FS. apply in_app_iff. auto.
    + rewrite <- FS in S. apply sorted_app in S. apply S.
    + intros i j I Lj _ J. rewrite <- FS in S. apply (sorted_split _ _ _ i j S I). apply IL in Lj. rewrite <- FS in Lj. apply in_app_iff in Lj. tauto.
  - exists (fun q r => map (fun i => (i, norm2_3 (sub3 (nth i pts (mk3 0 0 0)) q))) (filter (fun i => if Rlt_dec (norm2_3 (sub3 (nth i pts (mk3 0 0 0)) q)) r then true else false) (seq 0 (length pts)))).
    intros q r. rewrite map_map. cbn [fst]. rewrite map_id. split; [apply NoDup_filter, seq_NoDup|]. intros i. rewrite filter_In, in_seq. destruct (Rlt_dec _ _); intuition (try lia; try congruence).
Qed.
Print Assumptions C94_contracts_met.

(** four points, three of them at the same place: the two neighbours of the first are the other two there, whichever of the three a search leaves out *)
Example C94_witness : exists tree pts l, ExactSearch tree pts /\ length pts = 4 /\ kNearestNeighbors tree pts 0 2 = Ok l /\ length l = 2 /\ ~ In 0 l /\ ~ In 3 l.
Proof.
  set (o := mk3 0 0 0). set (pts := [o; o; o; mk3 1 0 0]). destruct (C94_contracts_met pts) as [[tree ES] _]. exists tree, pts.
  destruct (proj2 (C94_neighbours tree pts 0 2 o ES eq_refl)) as (l & E & LN & [N1 N2 N3 N4]); [cbn; lia|]. exists l. do 4 (split; auto).
  split; [intros I; apply N2 in I; lia|]. intros I.
  assert (D3 : distTo pts o 3 = 1%R). { unfold distTo, pts, o, norm3d, sub3. cbn [nth qx qy qz]. replace (_ + _)%R with 1%R by ring. apply sqrt_1. }
  assert (D0 : forall j, j < 3 -> distTo pts o j = 0%R). { intros j K. apply dist_self. destruct j as [|[|[|j]]]; try reflexivity. lia. }
  assert (Q : forall j, j < 3 -> j <> 0 -> In j l). { intros j K J. destruct (in_dec Nat.eq_dec j l) as [|NI]; auto. exfalso. assert (W := N4 3 j I ltac:(cbn; lia) J NI). rewrite D3, D0 in W by auto. lra. }
  assert (IC : incl [1; 2; 3] l) by (intros x [<-|[<-|[<-|[]]]]; auto; apply Q; lia). apply NoDup_incl_length in IC; [cbn in IC; lia|]. repeat constructor; cbn; lia.
Qed.
