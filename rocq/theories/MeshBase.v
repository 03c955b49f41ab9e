(** Basic facts about arrays, twins, counting and orbits. *)
From Coq Require Import FinFun ListDec.
From Verif Require Import Base MeshModel MeshSpec.
Open Scope Z_scope.

(** ** arrays *)
Definition updZ (l : list Z) (i v : Z) : list Z := upd l (Z.to_nat i) v.
Lemma zlen_updZ l i v : zlen (updZ l i v) = zlen l.
Proof. unfold zlen, updZ. rewrite length_upd. reflexivity. Qed.
Lemma getZ_updZ l i v j : 0 <= i < zlen l -> getZ (updZ l i v) j = if j =? i then v else getZ l j.
Proof.
  intros H. unfold getZ, updZ, zlen in *. destruct (Z.ltb_spec j 0), (Z.eqb_spec j i); try lia.
  - subst. rewrite nth_upd_eq; [auto|lia].
  - apply nth_upd_neq. lia.
Qed.
Lemma getZ_oob l i : i < 0 \/ zlen l <= i -> getZ l i = -1.
Proof.
  intros H. unfold getZ, zlen in *. destruct (Z.ltb_spec i 0); [reflexivity|]. apply nth_overflow. lia.
Qed.
Lemma getZ_inb l i : getZ l i <> -1 -> 0 <= i < zlen l.
Proof. intros H. destruct (Z_lt_dec i 0); [rewrite getZ_oob in H; lia|]. destruct (Z_le_dec (zlen l) i); [rewrite getZ_oob in H; lia|lia]. Qed.
Lemma rdZ_ok l i : 0 <= i < zlen l -> rdZ l i = Ok (getZ l i).
Proof. intros H. unfold rdZ, inb. destruct (Z.leb_spec 0 i), (Z.ltb_spec i (zlen l)); simpl; auto; lia. Qed.
Lemma wrZ_ok l i v : 0 <= i < zlen l -> wrZ l i v = Ok (updZ l i v).
Proof. intros H. unfold wrZ, inb. destruct (Z.leb_spec 0 i), (Z.ltb_spec i (zlen l)); simpl; auto; lia. Qed.
Lemma zlen_nonneg l : 0 <= zlen l.
Proof. unfold zlen. lia. Qed.
Lemma zlen_resizeZ l n : 0 <= n -> zlen (resizeZ l n) = n.
Proof. intros H. unfold zlen, resizeZ. rewrite app_length, firstn_length, repeat_length. lia. Qed.
Lemma getZ_resizeZ l n i : 0 <= i < zlen l -> i < n -> getZ (resizeZ l n) i = getZ l i.
Proof.
  intros H1 H2. unfold getZ, resizeZ, zlen in *. destruct (Z.ltb_spec i 0); auto.
  rewrite app_nth1 by (rewrite firstn_length; lia).
  clear H. 
  assert (K : (Z.to_nat i < Z.to_nat n)%nat) by lia. revert K. generalize (Z.to_nat i). generalize (Z.to_nat n).
  clear. intros n i. revert l i. induction n as [|n IH]; intros l i K; [lia|]. destruct l; destruct i; simpl; auto. apply IH; lia.
Qed.
Lemma getZ_resizeZ_new l n i : zlen l <= i < n -> getZ (resizeZ l n) i = 0.
Proof.
  intros H1. unfold getZ, resizeZ, zlen in *. destruct (Z.ltb_spec i 0); [lia|].
  rewrite app_nth2 by (rewrite firstn_length; lia). rewrite firstn_length.
  apply nth_error_nth. apply nth_error_repeat. lia.
Qed.

(** ** ranges and counting *)
Lemma zseq_In n i : In i (zseq n) <-> 0 <= i < n.
Proof.
  unfold zseq. rewrite in_map_iff. split.
  - intros (k & <- & H). apply in_seq in H. lia.
  - intros H. exists (Z.to_nat i). split; [lia|]. apply in_seq. lia.
Qed.
Lemma zseq_S n : 0 <= n -> zseq (n + 1) = zseq n ++ [n].
Proof.
  intros H. unfold zseq. replace (Z.to_nat (n + 1)) with (Z.to_nat n + 1)%nat by lia.
  rewrite seq_app, map_app. simpl. f_equal. f_equal. lia.
Qed.
Lemma zseq_0 : zseq 0 = [].
Proof. reflexivity. Qed.
Lemma zseq_neg n : n <= 0 -> zseq n = [].
Proof. intros H. unfold zseq. replace (Z.to_nat n) with 0%nat by lia. reflexivity. Qed.
Lemma zseq_length n : 0 <= n -> Z.of_nat (length (zseq n)) = n.
Proof. intros. unfold zseq. rewrite map_length, seq_length. lia. Qed.
Lemma zseq_NoDup n : NoDup (zseq n).
Proof. unfold zseq. apply FinFun.Injective_map_NoDup; [intros a b; lia|apply seq_NoDup]. Qed.

Definition b2z (b : bool) : Z := if b then 1 else 0.
Lemma countb_S p n : 0 <= n -> countb p (n + 1) = countb p n + b2z (p n).
Proof.
  intros H. unfold countb. rewrite zseq_S by auto. rewrite filter_app, app_length. simpl. destruct (p n); simpl; lia.
Qed.
Lemma countb_0 p n : n <= 0 -> countb p n = 0.
Proof. intros H. unfold countb. rewrite zseq_neg by auto. reflexivity. Qed.
Lemma countb_ext p q n : (forall i, 0 <= i < n -> p i = q i) -> countb p n = countb q n.
Proof. intros H. unfold countb. erewrite filter_ext_in; [reflexivity|]. intros i Hi. apply zseq_In in Hi. auto. Qed.
Lemma countb_nonneg p n : 0 <= countb p n.
Proof. unfold countb. lia. Qed.

Lemma Z_ind_nonneg (P : Z -> Prop) : P 0 -> (forall n, 0 <= n -> P n -> P (n + 1)) -> forall n, 0 <= n -> P n.
Proof. intros H0 HS n Hn. replace n with (Z.of_nat (Z.to_nat n)) by lia. induction (Z.to_nat n) as [|k IH]; [exact H0|].
  replace (Z.of_nat (S k)) with (Z.of_nat k + 1) by lia. apply HS; [lia|exact IH]. Qed.

Lemma countb_upd p q n i : 0 <= i < n -> (forall j, 0 <= j < n -> j <> i -> p j = q j) ->
  countb q n = countb p n - b2z (p i) + b2z (q i).
Proof.
  intros Hi H. assert (Hn : 0 <= n) by lia. revert Hi H.
  pattern n. apply Z_ind_nonneg; [intros; lia| |exact Hn]. clear n Hn. intros n Hn IH Hi H.
  rewrite !countb_S by auto. destruct (Z.eq_dec i n) as [->|Hne].
  - rewrite (countb_ext q p n); [lia|]. intros j Hj. symmetry. apply H; lia.
  - rewrite IH; [|lia|intros; apply H; lia]. rewrite (H n) by lia. lia.
Qed.
Lemma countb_pos p n i : 0 <= i < n -> p i = true -> 0 < countb p n.
Proof.
  intros Hi Hp. unfold countb. destruct (filter p (zseq n)) as [|x l] eqn:E; [|simpl; lia].
  exfalso. assert (In i (filter p (zseq n))) by (apply filter_In; rewrite zseq_In; auto). rewrite E in H. destruct H.
Qed.
Lemma countb_le p n : 0 <= n -> countb p n <= n.
Proof.
  intros H. pattern n. apply Z_ind_nonneg; [rewrite countb_0; lia| |exact H]. clear n H. intros n Hn IH.
  rewrite countb_S by auto. destruct (p n); simpl; lia.
Qed.
Lemma countb_full p n : 0 <= n -> (countb p n = n <-> forall i, 0 <= i < n -> p i = true).
Proof.
  intros H. pattern n. apply Z_ind_nonneg; [rewrite countb_0 by lia; split; intros; [lia|auto]| |exact H]. clear n H. intros n Hn IH.
  rewrite countb_S by auto. pose proof (countb_le p n Hn). split.
  - intros E i Hi. destruct (p n) eqn:Ep; simpl in E; [|lia]. destruct (Z.eq_dec i n) as [->|]; auto. apply IH; lia.
  - intros E. rewrite (E n) by lia. simpl. assert (countb p n = n); [|lia]. apply IH. intros; apply E; lia.
Qed.

(** ** twins *)
Lemma tw_tw h : tw (tw h) = h.
Proof. unfold tw. lia. Qed.
Lemma tw_neq h : tw h <> h.
Proof. unfold tw. lia. Qed.
Lemma tw_inj a b : tw a = tw b -> a = b.
Proof. unfold tw. lia. Qed.
Lemma tw_edge h : edge (tw h) = edge h.
Proof. unfold tw, edge. lia. Qed.
Lemma edge_eq a b : edge a = edge b <-> a = b \/ a = tw b.
Proof. unfold tw, edge. lia. Qed.
Lemma tw_eHe e : tw (eHe e) = 2 * e + 1.
Proof. unfold tw, eHe. lia. Qed.
Lemma tw_mod h : (tw h) mod 2 = 1 - h mod 2.
Proof. unfold tw. lia. Qed.
Lemma edge_eHe e : edge (eHe e) = e.
Proof. unfold edge, eHe. lia. Qed.
Lemma tw_range h n : 0 <= h < 2 * n -> 0 <= tw h < 2 * n.
Proof. unfold tw. lia. Qed.
Lemma tw_even h : h mod 2 = 0 -> tw h = h + 1.
Proof. unfold tw. lia. Qed.

(** ** orbits: reachability under an injective map of a finite set is an equivalence *)
Section Orbit.
Context (L : Z -> Prop) (f : Z -> Z).

(** equivalence generated by f on L *)
Inductive conn : Z -> Z -> Prop :=
| conn_refl a : conn a a
| conn_step a : L a -> conn a (f a)
| conn_sym a b : conn a b -> conn b a
| conn_trans a b c : conn a b -> conn b c -> conn a c.

Lemma conn_back a : L a -> conn (f a) a.
Proof. intros; apply conn_sym, conn_step; auto. Qed.

Context (Lf : forall a, L a -> L (f a)).

Lemma iter_L n a : L a -> L (Nat.iter n f a).
Proof. intros H. induction n; simpl; auto. Qed.

Lemma reach_conn a b : L a -> reach f a b -> conn a b.
Proof.
  intros H (n & <-). induction n as [|n IH]; simpl; [apply conn_refl|].
  eapply conn_trans; [exact IH|]. apply conn_step, iter_L; auto.
Qed.

Context (N : Z) (Lb : forall a, L a -> 0 <= a < N) (Linj : forall a b, L a -> L b -> f a = f b -> a = b).

Lemma iter_inj n a b : L a -> L b -> Nat.iter n f a = Nat.iter n f b -> a = b.
Proof. intros Ha Hb. induction n as [|n IH]; simpl; auto. intros H. apply IH. apply Linj; auto; apply iter_L; auto. Qed.

Lemma iter_add n k a : Nat.iter (n + k) f a = Nat.iter n f (Nat.iter k f a).
Proof. induction n; simpl; congruence. Qed.

Lemma pigeon (g : nat -> Z) n : (forall i, (i <= n)%nat -> 0 <= g i < Z.of_nat n) ->
  exists i j, (i < j <= n)%nat /\ g i = g j.
Proof.
  intros H.
  destruct (ListDec.NoDup_dec Z.eq_dec (map g (seq 0 (S n)))) as [ND|ND].
  - exfalso. assert (K : (length (map g (seq 0 (S n))) <= length (zseq (Z.of_nat n)))%nat).
    { apply NoDup_incl_length; auto. intros x Hx. apply in_map_iff in Hx as (i & <- & Hi). apply in_seq in Hi.
      apply zseq_In. apply H. lia. }
    unfold zseq in K. rewrite !map_length, !seq_length in K. lia.
  - assert (D : forall k, ~ NoDup (map g (seq 0 k)) -> exists i j, (i < j < k)%nat /\ g i = g j).
    { clear. induction k as [|k IH]; intros ND; [exfalso; apply ND; constructor|].
      destruct (in_dec Z.eq_dec (g k) (map g (seq 0 k))) as [Hin|Hin].
      - apply in_map_iff in Hin as (i & E & Hi). apply in_seq in Hi. exists i, k. split; [lia|auto].
      - destruct IH as (i & j & Hij & E).
        + intros H. apply ND. replace (S k) with (k + 1)%nat by lia. rewrite seq_app, map_app. simpl.
          apply NoDup_rev in H. rewrite <- (rev_involutive (map g (seq 0 k) ++ [g k])). apply NoDup_rev. rewrite rev_app_distr. simpl.
          constructor; auto. rewrite <- in_rev. auto.
        + exists i, j. split; [lia|auto]. }
    destruct (D _ ND) as (i & j & Hij & E). exists i, j. split; [lia|auto].
Qed.

Lemma periodic a : L a -> exists n, (0 < n <= Z.to_nat N)%nat /\ Nat.iter n f a = a.
Proof.
  intros Ha. destruct (pigeon (fun i => Nat.iter i f a) (Z.to_nat N)) as (i & j & Hij & E).
  { intros i _. pose proof (Lb _ (iter_L i a Ha)). lia. }
  exists (j - i)%nat. split; [lia|]. replace j with (i + (j - i))%nat in E by lia. rewrite iter_add in E.
  symmetry. eapply iter_inj; [exact Ha| |exact E]. apply iter_L; auto.
Qed.

Lemma reach_refl a : reach f a a.
Proof. exists 0%nat. reflexivity. Qed.
Lemma reach_step a : reach f a (f a).
Proof. exists 1%nat. reflexivity. Qed.
Lemma reach_trans a b c : reach f a b -> reach f b c -> reach f a c.
Proof. intros (n & <-) (k & <-). exists (k + n)%nat. apply iter_add. Qed.
Lemma reach_back a : L a -> reach f (f a) a.
Proof.
  intros Ha. destruct (periodic a Ha) as (n & Hn & E). exists (n - 1)%nat.
  change (f a) with (Nat.iter 1 f a). rewrite <- iter_add. replace (n - 1 + 1)%nat with n by lia. exact E.
Qed.
Lemma reach_sym a b : L a -> reach f a b -> reach f b a.
Proof.
  intros Ha (n & <-). induction n as [|n IH]; simpl; [apply reach_refl|].
  eapply reach_trans; [|exact IH]. apply reach_back, iter_L; auto.
Qed.
Lemma reach_L a b : L a -> reach f a b -> L b.
Proof. intros Ha (n & <-). apply iter_L; auto. Qed.

Lemma conn_L a b : conn a b -> a = b \/ (L a /\ L b).
Proof. induction 1; auto; intuition (subst; auto). Qed.
Lemma conn_reach a b : conn a b -> L a -> reach f a b.
Proof.
  intros H. assert (K : (L a -> reach f a b) /\ (L b -> reach f b a)); [|apply K].
  induction H as [a|a Ha|a b H [IH1 IH2]|a b c H1 [IH1 IH1'] H2 [IH2 IH2']].
  - split; intros; apply reach_refl.
  - split; intros; [apply reach_step|apply reach_back; auto].
  - split; auto.
  - split; intros HL.
    + apply reach_trans with b; auto. apply IH2. destruct (conn_L _ _ H1); [subst; auto|tauto].
    + apply reach_trans with b; auto. apply IH1'. destruct (conn_L _ _ H2); [subst; auto|tauto].
Qed.
End Orbit.

(** Carrying an orbit condition from an old map to a new one. [phi] sends old
    elements to new ones so that each old step is connected in the new map;
    every new element is connected to the image of an old one. *)
Lemma conn_image (L L' : Z -> Prop) (f f' phi : Z -> Z) :
  (forall a, L a -> conn L' f' (phi a) (phi (f a))) ->
  forall a b, conn L f a b -> conn L' f' (phi a) (phi b).
Proof.
  intros H a b C. induction C.
  - apply conn_refl.
  - apply H; auto.
  - apply conn_sym; auto.
  - eapply conn_trans; eauto.
Qed.
