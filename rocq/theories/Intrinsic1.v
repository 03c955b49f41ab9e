From Coq Require Import Reals Lra Permutation.
From Verif Require Import Base DataModel DataSpec DataProofs MeshModel MeshSpec MeshBase MeshExec MeshOrbit MeshOpSpec MeshHistorySpec MeshHistory MeshDataModel MatrixModel GeoModel IntrinsicModel IntrinsicSpec.
Open Scope R_scope.

(** ** finite sums *)
Section Sums.
Context {A : Type}.
Implicit Types (f g : A -> R) (l : list A).
Lemma Rsum_nil f : Rsum f [] = 0. Proof. reflexivity. Qed.
Lemma Rsum_cons f a l : Rsum f (a :: l) = f a + Rsum f l. Proof. reflexivity. Qed.
Lemma Rsum_app f l l' : Rsum f (l ++ l') = Rsum f l + Rsum f l'.
Proof. induction l as [|a t IH]; cbn [app]; rewrite ?Rsum_nil, ?Rsum_cons, ?IH; lra. Qed.
Lemma Rsum_ext f g l : (forall a, In a l -> f a = g a) -> Rsum f l = Rsum g l.
Proof. induction l as [|a t IH]; intros H; rewrite ?Rsum_cons; auto. rewrite H by (left; auto). rewrite IH; auto. intros; apply H; right; auto. Qed.
Lemma Rsum_plus f g l : Rsum (fun a => f a + g a) l = Rsum f l + Rsum g l.
Proof. induction l as [|a t IH]; rewrite ?Rsum_nil, ?Rsum_cons, ?IH; lra. Qed.
Lemma Rsum_minus f g l : Rsum (fun a => f a - g a) l = Rsum f l - Rsum g l.
Proof. induction l as [|a t IH]; rewrite ?Rsum_nil, ?Rsum_cons, ?IH; lra. Qed.
Lemma Rsum_scal c f l : Rsum (fun a => c * f a) l = c * Rsum f l.
Proof. induction l as [|a t IH]; rewrite ?Rsum_nil, ?Rsum_cons, ?IH; lra. Qed.
Lemma Rsum_const c l : Rsum (fun _ => c) l = c * INR (length l).
Proof. induction l as [|a t IH]; rewrite ?Rsum_nil, ?Rsum_cons, ?IH; cbn [length]; [cbn; lra|]. rewrite S_INR. lra. Qed.
Lemma Rsum_zero f l : (forall a, In a l -> f a = 0) -> Rsum f l = 0.
Proof. intros H. rewrite (Rsum_ext f (fun _ => 0)) by auto. rewrite Rsum_const. lra. Qed.
Lemma Rsum_perm f l l' : Permutation l l' -> Rsum f l = Rsum f l'.
Proof. induction 1; rewrite ?Rsum_cons in *; lra. Qed.
Lemma Rsum_nonneg f l : (forall a, In a l -> 0 <= f a) -> 0 <= Rsum f l.
Proof. induction l as [|a t IH]; intros H; rewrite ?Rsum_nil, ?Rsum_cons; [lra|]. pose proof (H a (or_introl eq_refl)). specialize (IH (fun x K => H x (or_intror K))). lra. Qed.
Lemma Rsum_pos f l : l <> [] -> (forall a, In a l -> 0 < f a) -> 0 < Rsum f l.
Proof.
  destruct l as [|a t]; [congruence|]. intros _ H. rewrite Rsum_cons. pose proof (H a (or_introl eq_refl)).
  pose proof (Rsum_nonneg f t (fun x K => Rlt_le _ _ (H x (or_intror K)))). lra.
Qed.
Lemma Rsum_set f l l' : NoDup l -> NoDup l' -> (forall a, In a l <-> In a l') -> Rsum f l = Rsum f l'.
Proof. intros N N' I. apply Rsum_perm. apply NoDup_Permutation; auto. Qed.
Lemma Rsum_if (p : A -> bool) f l : Rsum (fun a => if p a then f a else 0) l = Rsum f (filter p l).
Proof. induction l as [|a t IH]; cbn [filter]; rewrite ?Rsum_nil, ?Rsum_cons; auto. destruct (p a); rewrite ?Rsum_cons, IH; lra. Qed.
End Sums.
Lemma Rsum_map {A B} (k : A -> B) f l : Rsum f (map k l) = Rsum (fun a => f (k a)) l.
Proof. induction l as [|a t IH]; cbn [map]; rewrite ?Rsum_cons; auto. rewrite IH. reflexivity. Qed.
Lemma Rsum_swap {A B} (f : A -> B -> R) la lb : Rsum (fun a => Rsum (f a) lb) la = Rsum (fun b => Rsum (fun a => f a b) la) lb.
Proof. induction la as [|a t IH]; rewrite ?Rsum_cons; [symmetry; apply Rsum_zero; auto|]. rewrite IH. rewrite <- Rsum_plus. reflexivity. Qed.
Lemma Rsum_concat {A} (f : A -> R) ll : Rsum f (concat ll) = Rsum (Rsum f) ll.
Proof. induction ll as [|l t IH]; cbn [concat]; auto. rewrite Rsum_app, IH. reflexivity. Qed.
Lemma Rsum_delta {A} (eqb : A -> A -> bool) (E : forall a b, eqb a b = true <-> a = b) (f : A -> R) l x : NoDup l -> In x l -> Rsum (fun a => if eqb x a then f a else 0) l = f x.
Proof.
  induction l as [|a t IH]; intros N I; [destruct I|]. inversion N as [|? ? N1 N2]; subst. rewrite Rsum_cons. destruct (eqb x a) eqn:Q.
  - apply E in Q. subst a. rewrite Rsum_zero; [lra|]. intros b Hb. destruct (eqb x b) eqn:Q; auto. apply E in Q. congruence.
  - destruct I as [->|I]; [rewrite (proj2 (E x x) eq_refl) in Q; discriminate|]. rewrite IH by auto. lra.
Qed.
(** grouping the terms by a key *)
Lemma Rsum_fiber {A B} (eqb : B -> B -> bool) (E : forall a b, eqb a b = true <-> a = b) (key : A -> B) (f : A -> R) l ks : NoDup ks -> (forall a, In a l -> In (key a) ks) ->
  Rsum f l = Rsum (fun k => Rsum f (filter (fun a => eqb (key a) k) l)) ks.
Proof.
  intros N I. rewrite (Rsum_ext _ (fun k => Rsum (fun a => if eqb (key a) k then f a else 0) l)) by (intros; symmetry; apply Rsum_if). rewrite Rsum_swap.
  apply Rsum_ext. intros a Ha. symmetry. apply (Rsum_delta eqb E (fun _ => f a)); auto.
Qed.
(** a sum is unchanged when the terms are taken in the order given by a map that permutes the indices *)
Lemma Rsum_bij {A} (k : A -> A) (f : A -> R) l : NoDup l -> (forall a, In a l -> In (k a) l) -> (forall a b, In a l -> In b l -> k a = k b -> a = b) -> Rsum (fun a => f (k a)) l = Rsum f l.
Proof.
  intros N I J. rewrite <- Rsum_map. apply Rsum_perm. assert (N2 : NoDup (map k l)).
  { clear I. induction N as [|a t N1 N IH]; cbn; [constructor|]. constructor.
    - intros K. apply in_map_iff in K as (b & E & Hb). apply J in E; [subst; auto|right; auto|left; auto].
    - apply IH. intros; apply J; auto; right; auto. }
  apply NoDup_Permutation_bis; auto; [rewrite map_length; auto|]. intros b Hb. apply in_map_iff in Hb as (a & <- & Ha). auto.
Qed.
Lemma natE a b : Nat.eqb a b = true <-> a = b. Proof. apply Nat.eqb_eq. Qed.
Lemma zE a b : Z.eqb a b = true <-> a = b. Proof. apply Z.eqb_eq. Qed.

(** ** containers *)
Section Data.
Context {T : Type}.
Lemma dataAt_in (d0 : T) (d : mdata T) i : (0 <= i < Z.of_nat (length (dat d)))%Z -> dataAt d i = Ok (at_ d0 d i).
Proof. intros H. unfold dataAt, at_, md_get. rewrite (proj2 (Z.ltb_ge _ _)) by lia. apply rd_nth. lia. Qed.
Lemma nth_upd_R (l : list T) i j v d0 : (i < length l)%nat -> nth j (upd l i v) d0 = if Nat.eqb i j then v else nth j l d0.
Proof.
  revert i j. induction l as [|a t IH]; cbn [length]; intros i j H; [lia|]. destruct i, j; cbn; auto. apply IH. lia.
Qed.
Lemma len_upd (l : list T) i v : length (upd l i v) = length l.
Proof. revert i. induction l as [|a t IH]; destruct i; cbn; auto. Qed.
Lemma setAt_in (d0 : T) (d : mdata T) i v : (0 <= i < Z.of_nat (length (dat d)))%Z -> exists d', setAt d i v = Ok d' /\ length (dat d') = length (dat d) /\
  forall j, (0 <= j)%Z -> at_ d0 d' j = if (i =? j)%Z then v else at_ d0 d j.
Proof.
  intros H. unfold setAt. rewrite (proj2 (Z.ltb_ge _ _)) by lia. rewrite md_put_ok by lia. eexists. split; [reflexivity|]. cbn [dat]. split; [apply len_upd|].
  intros j Hj. unfold at_. cbn [dat]. rewrite nth_upd_R by lia. destruct (Z.eqb_spec i j), (Nat.eqb_spec (Z.to_nat i) (Z.to_nat j)); auto; lia.
Qed.
(** a loop that assigns one entry per element *)
Lemma fill_ok (d0 : T) (g : Z -> res T) (val : Z -> T) els : forall d, NoDup els -> (forall e, In e els -> (e < length (dat d))%nat /\ g (Z.of_nat e) = Ok (val (Z.of_nat e))) ->
  exists d', forEach els d (fun d e => let* x := g e in setAt d e x) = Ok d' /\ length (dat d') = length (dat d) /\
    (forall e, In e els -> at_ d0 d' (Z.of_nat e) = val (Z.of_nat e)) /\ (forall i, ~ In i els -> at_ d0 d' (Z.of_nat i) = at_ d0 d (Z.of_nat i)).
Proof.
  induction els as [|e t IH]; intros d N H.
  - exists d. split; [reflexivity|]. split; auto. split; auto. intros e [].
  - inversion N as [|? ? N1 N2]; subst. destruct (H e (or_introl eq_refl)) as [B G].
    destruct (setAt_in d0 d (Z.of_nat e) (val (Z.of_nat e))) as (d1 & S1 & L1 & V1); [lia|].
    destruct (IH d1 N2) as (d2 & S2 & L2 & V2 & V3).
    { intros x Hx. rewrite L1. apply H. right; auto. }
    exists d2. unfold forEach in *. cbn [foldM]. rewrite G. cbn [bind]. rewrite S1. cbn [bind]. split; [exact S2|]. split; [congruence|]. split.
    + intros x [<-|Hx]; [|apply V2; auto]. rewrite V3 by auto. rewrite V1 by lia. rewrite Z.eqb_refl. reflexivity.
    + intros i Hi. rewrite V3 by (intros K; apply Hi; right; auto). rewrite V1 by lia. destruct (Z.eqb_spec (Z.of_nat e) (Z.of_nat i)) as [Q|Q]; auto.
      exfalso. apply Hi. left. lia.
Qed.
End Data.
(** a loop that adds to entries *)
Lemma acc_ok {A} (body : mdata R -> A -> res (mdata R)) (key : A -> Z) (val : A -> R) l n : (forall a, In a l -> (0 <= key a < Z.of_nat n)%Z) ->
  (forall d a, length (dat d) = n -> In a l -> body d a = addAt d (key a) (val a)) -> forall d, length (dat d) = n ->
  exists d', foldM body l d = Ok d' /\ length (dat d') = n /\ forall j, (0 <= j)%Z -> valAt d' j = valAt d j + Rsum val (filter (fun a => (key a =? j)%Z) l).
Proof.
  induction l as [|a t IH]; intros K B d L.
  - exists d. split; [reflexivity|]. split; auto. intros j _. cbn. lra.
  - cbn [foldM]. rewrite B by (auto; left; auto). pose proof (K a (or_introl eq_refl)) as Ka. unfold addAt. rewrite (dataAt_in 0) by (rewrite L; auto). cbn [bind].
    destruct (setAt_in 0 d (key a) (at_ 0 d (key a) + val a)) as (d1 & S1 & L1 & V1); [rewrite L; auto|]. rewrite S1. cbn [bind].
    destruct (IH (fun x Hx => K x (or_intror Hx)) (fun d x Ld Hx => B d x Ld (or_intror Hx)) d1) as (d2 & S2 & L2 & V2); [congruence|].
    exists d2. split; [exact S2|]. split; auto. intros j Hj. rewrite V2 by auto. unfold valAt at 1. rewrite V1 by auto. cbn [filter].
    destruct (Z.eqb_spec (key a) j) as [->|Q]; [rewrite Rsum_cons; unfold valAt; lra|reflexivity].
Qed.
Lemma newData_R {T} m k (x d0 : T) : length (dat (newData m k x)) = Z.to_nat (capacity m k) /\ forall i, (0 <= i < capacity m k)%Z -> at_ d0 (newData m k x) i = x.
Proof.
  unfold newData, md_new. cbn [dat]. rewrite repeat_length. split; auto. intros i Hi. unfold at_. cbn [dat].
  assert (G : forall n j, (j < n)%nat -> nth j (repeat x n) d0 = x) by (induction n; destruct j; cbn; intros; auto; try lia; apply IHn; lia). apply G. lia.
Qed.
Lemma valAt_new m k i : valAt (newData m k 0) i = 0.
Proof. unfold valAt, at_, newData, md_new. cbn [dat]. apply nth_repeat. Qed.
