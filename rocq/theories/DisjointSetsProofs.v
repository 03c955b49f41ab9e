From Verif Require Import Base DisjointSetsModel DisjointSetsSpec.

Inductive Root (p : list nat) : nat -> nat -> Prop :=
| Root_here x : nth x p 0 = x -> Root p x x
| Root_up x r : nth x p 0 <> x -> Root p (nth x p 0) r -> Root p x r.

Record Shape (n : nat) (p rk : list nat) : Prop := mkShape {
  sh_lp : length p = S n;
  sh_lr : length rk = S n;
  sh_range : forall x, x <= n -> nth x p 0 <= n;
  sh_rank : forall x, x <= n -> nth x p 0 <> x -> nth x rk 0 < nth (nth x p 0) rk 0
}.

Lemma Root_fun p x r1 r2 : Root p x r1 -> Root p x r2 -> r1 = r2.
Proof.
  intros H; revert r2; induction H as [x Hx|x r Hx H IH]; intros r2 H2; inversion H2; subst; auto; try congruence.
Qed.

Lemma Root_fix p x r : Root p x r -> nth r p 0 = r.
Proof. induction 1; auto. Qed.

Lemma Root_range n p rk x r : Shape n p rk -> x <= n -> Root p x r -> r <= n.
Proof.
  intros S Hx H; induction H as [x Hf|x r Hf H IH]; auto. apply IH. apply (sh_range _ _ _ S); auto.
Qed.

(** measure: number of elements of larger rank *)
Definition above (rk : list nat) (k : nat) : nat := length (filter (fun r => Nat.ltb k r) rk).

Lemma above_le rk k : above rk k <= length rk.
Proof. unfold above. induction rk as [|r rk IH]; simpl; auto. destruct (k <? r); simpl; lia. Qed.

Lemma above_mono rk k k' : k <= k' -> above rk k' <= above rk k.
Proof.
  intros H. unfold above. induction rk as [|r rk IH]; simpl; auto.
  destruct (Nat.ltb_spec k' r), (Nat.ltb_spec k r); simpl; lia.
Qed.

Lemma above_lt rk k k' : k < k' -> In k' rk -> above rk k' < above rk k.
Proof.
  intros H. induction rk as [|r rk IH]; simpl; [tauto|]. intros [->|Hin].
  - unfold above; simpl. rewrite Nat.ltb_irrefl. destruct (Nat.ltb_spec k k'); [|lia]. simpl.
    assert (M := above_mono rk k k'). unfold above in M. lia.
  - specialize (IH Hin). unfold above in *; simpl.
    destruct (Nat.ltb_spec k' r), (Nat.ltb_spec k r); simpl; lia.
Qed.

Lemma above_parent n p rk x : Shape n p rk -> x <= n -> nth x p 0 <> x ->
  above rk (nth (nth x p 0) rk 0) < above rk (nth x rk 0).
Proof.
  intros S Hx Hn. apply above_lt. apply (sh_rank _ _ _ S); auto.
  apply nth_In. rewrite (sh_lr _ _ _ S). pose proof (sh_range _ _ _ S x Hx). lia.
Qed.

Lemma Root_ex n p rk : Shape n p rk -> forall x, x <= n -> exists r, Root p x r.
Proof.
  intros S. intros x. remember (above rk (nth x rk 0)) as m eqn:Hm.
  revert x Hm. induction m as [m IH] using lt_wf_ind. intros x Hm Hx.
  destruct (Nat.eq_dec (nth x p 0) x) as [E|E].
  - exists x. constructor; auto.
  - pose proof (above_parent _ _ _ _ S Hx E) as Hlt.
    destruct (IH (above rk (nth (nth x p 0) rk 0)) ltac:(lia) (nth x p 0) eq_refl (sh_range _ _ _ S x Hx)) as [r Hr].
    exists r. constructor 2; auto.
Qed.

Lemma Root_rank n p rk x r : Shape n p rk -> x <= n -> Root p x r -> x <> r -> nth x rk 0 < nth r rk 0.
Proof.
  intros S Hx H; induction H as [x Hf|x r Hf H IH]; intros Hne; [congruence|].
  pose proof (sh_rank _ _ _ S x Hx Hf).
  destruct (Nat.eq_dec (nth x p 0) r) as [<-|E]; auto.
  specialize (IH (sh_range _ _ _ S x Hx) E). lia.
Qed.

(** Pointing x at its own root keeps all roots *)
Lemma compress_Root n p rk x r : Shape n p rk -> x <= n -> Root p x r ->
  forall p', p' = upd p x r ->
  Shape n p' rk /\ (forall y s, Root p y s -> y <= n -> Root p' y s).
Proof.
  intros S Hx H p' Ep'.
  assert (Hr : r <= n) by (eapply Root_range; eauto).
  assert (Hnx : nth x p' 0 = r). { rewrite Ep'. rewrite nth_upd_eq; auto. rewrite (sh_lp _ _ _ S). lia. }
  assert (Hny : forall y, y <> x -> nth y p' 0 = nth y p 0).
  { intros y Hy. rewrite Ep'. rewrite nth_upd_neq; auto. }
  assert (Hfr : nth r p' 0 = r).
  { destruct (Nat.eq_dec r x) as [->|E]; auto. rewrite Hny by auto. eapply Root_fix; eauto. }
  split.
  - constructor.
    + rewrite Ep'. rewrite length_upd. apply (sh_lp _ _ _ S).
    + apply (sh_lr _ _ _ S).
    + intros y Hy. destruct (Nat.eq_dec y x) as [->|E]; [rewrite Hnx; auto|rewrite Hny; auto; apply (sh_range _ _ _ S); auto].
    + intros y Hy. destruct (Nat.eq_dec y x) as [->|E].
      * rewrite Hnx. intros Hne. eapply Root_rank; eauto.
      * rewrite Hny by auto. apply (sh_rank _ _ _ S); auto.
  - intros y s Hys Hy. revert Hy. induction Hys as [y Hf|y s Hf Hys IH]; intros Hy.
    + destruct (Nat.eq_dec y x) as [->|E].
      * assert (r = x). { eapply Root_fun; eauto. constructor; auto. } subst r. constructor; auto.
      * constructor. rewrite Hny; auto.
    + destruct (Nat.eq_dec y x) as [->|E].
      * assert (r = s). { eapply Root_fun; eauto. constructor 2; auto. } subst s.
        destruct (Nat.eq_dec r x) as [->|E]; [constructor; auto|].
        constructor 2; rewrite Hnx; auto. constructor; auto.
      * constructor 2; rewrite Hny; auto. apply IH. apply (sh_range _ _ _ S); auto.
Qed.

Lemma find_fuel_ok n rk : forall fuel p x,
  Shape n p rk -> x <= n -> above rk (nth x rk 0) < fuel ->
  exists p' r, find_fuel fuel p x = Ok (p', r) /\ Root p x r /\ Shape n p' rk /\
               (forall y s, Root p y s -> y <= n -> Root p' y s).
Proof.
  induction fuel as [|fuel IH]; intros p x S Hx Hf; [lia|].
  cbn [find_fuel]. rewrite (rd_nth p x 0) by (rewrite (sh_lp _ _ _ S); lia). cbn [bind].
  destruct (Nat.eqb_spec x (nth x p 0)) as [E|E].
  - rewrite <- E. exists p, x. repeat split; auto; try apply S. constructor; auto.
  - assert (E' : nth x p 0 <> x) by auto.
    pose proof (above_parent _ _ _ _ S Hx E') as Hlt.
    destruct (IH p (nth x p 0) S (sh_range _ _ _ S x Hx) ltac:(lia)) as (p1 & r & Hfind & HR & S1 & HRR).
    rewrite Hfind. cbn [bind].
    assert (HRx : Root p x r) by (constructor 2; auto).
    assert (HRx1 : Root p1 x r) by (apply HRR; auto).
    rewrite wr_Ok by (rewrite (sh_lp _ _ _ S1); lia). cbn [bind].
    destruct (compress_Root n p1 rk x r S1 Hx HRx1 _ eq_refl) as [S2 HRR2].
    rewrite (rd_nth _ x 0) by (rewrite length_upd, (sh_lp _ _ _ S1); lia). cbn [bind].
    rewrite nth_upd_eq by (rewrite (sh_lp _ _ _ S1); lia).
    exists (upd p1 x r), r. repeat split; auto; try apply S2.
Qed.

Lemma find_ok n s x : Shape n (parent s) (rank s) -> x <= n ->
  exists s' r, ds_find s x = Ok (s', r) /\ Root (parent s) x r /\ rank s' = rank s /\
               Shape n (parent s') (rank s') /\
               (forall y t, Root (parent s) y t -> y <= n -> Root (parent s') y t).
Proof.
  intros S Hx. unfold ds_find.
  destruct (find_fuel_ok n (rank s) (Datatypes.S (length (parent s))) (parent s) x S Hx) as (p & r & Hf & HR & S' & HRR).
  { pose proof (above_le (rank s) (nth x (rank s) 0)). rewrite (sh_lr _ _ _ S) in H. rewrite (sh_lp _ _ _ S). lia. }
  rewrite Hf. cbn [bind]. eexists _, r. split; [reflexivity|]. simpl. auto.
Qed.

Definition Repr (n : nat) (ms : list (nat * nat)) (s : dsets) : Prop :=
  Shape n (parent s) (rank s) /\
  (forall x y r t, x <= n -> y <= n -> Root (parent s) x r -> Root (parent s) y t ->
     (r = t <-> connected ms x y)) /\
  (forall x y, In (x, y) ms -> x <= n /\ y <= n).

Lemma nth_seq0 n x : x <= n -> nth x (seq 0 (S n)) 0 = x.
Proof. intros. rewrite seq_nth; lia. Qed.

Lemma connected_nil x y : connected [] x y -> x = y.
Proof. induction 1; auto; try contradiction. congruence. Qed.

Lemma Repr_init n : Repr n [] (ds_init n).
Proof.
  split; [|split].
  - constructor; cbn [ds_init parent rank].
    + apply seq_length.
    + apply repeat_length.
    + intros x Hx. rewrite nth_seq0; auto.
    + intros x Hx Hn. rewrite nth_seq0 in Hn; auto. congruence.
  - intros x y r t Hx Hy Hxr Hyt. cbn [ds_init parent] in *.
    assert (forall z q, z <= n -> Root (seq 0 (S n)) z q -> q = z) as HH.
    { intros z q Hz Hq. eapply Root_fun; eauto. constructor. apply nth_seq0; auto. }
    apply HH in Hxr; auto. apply HH in Hyt; auto. subst. split; intros H; [subst; apply rst_refl|].
    apply connected_nil; auto.
  - simpl; tauto.
Qed.

Lemma Repr_find n ms s x : Repr n ms s -> x <= n ->
  exists s' r, ds_find s x = Ok (s', r) /\ Repr n ms s' /\ Root (parent s) x r /\ Root (parent s') x r /\
    (forall y t, Root (parent s) y t -> y <= n -> Root (parent s') y t) /\ rank s' = rank s.
Proof.
  intros (S & E & M) Hx. destruct (find_ok n s x S Hx) as (s' & r & Hf & HR & Hrk & S' & HRR).
  exists s', r. split; [exact Hf|]. split; [|split; [exact HR|split; [apply HRR; auto|split; auto]]].
  split; [exact S'|split; [|exact M]].
  intros u v r0 t Hu Hv H1 H2. destruct (Root_ex _ _ _ S u Hu) as [r1 Hr1]. destruct (Root_ex _ _ _ S v Hv) as [r2 Hr2].
  assert (r0 = r1) by (eapply Root_fun; eauto). assert (t = r2) by (eapply Root_fun; eauto).
  subst. eapply E; eauto.
Qed.

Lemma connected_mono ms ms' x y : incl ms ms' -> connected ms x y -> connected ms' x y.
Proof.
  intros Hi H; induction H.
  - apply rst_step. auto.
  - apply rst_refl.
  - apply rst_sym; auto.
  - eapply rst_trans; eauto.
Qed.

Lemma connected_range n ms x y : (forall a b, In (a, b) ms -> a <= n /\ b <= n) ->
  connected ms x y -> x = y \/ (x <= n /\ y <= n).
Proof.
  intros M H; induction H; auto.
  - destruct IHclos_refl_sym_trans; [left; auto|right; lia].
  - destruct IHclos_refl_sym_trans1, IHclos_refl_sym_trans2; subst; auto. right; lia.
Qed.

(** Connectivity after adding one pair *)
Lemma connected_cons ms a b x y :
  connected ((a, b) :: ms) x y <->
  connected ms x y \/ (connected ms x a /\ connected ms b y) \/ (connected ms x b /\ connected ms a y).
Proof.
  split.
  - intros H; induction H.
    + destruct H as [H|H].
      * inversion H; subst. right; left. split; apply rst_refl.
      * left. apply rst_step; auto.
    + left. apply rst_refl.
    + destruct IHclos_refl_sym_trans as [?|[[? ?]|[? ?]]]; [left|right; right|right; left]; try split; apply rst_sym; auto.
    + destruct IHclos_refl_sym_trans1 as [?|[[? ?]|[? ?]]], IHclos_refl_sym_trans2 as [?|[[? ?]|[? ?]]];
        try (left; eapply rst_trans; eauto; fail);
        try (right; left; split; eauto; eapply rst_trans; eauto; fail);
        try (right; right; split; eauto; eapply rst_trans; eauto; fail).
  - assert (I : incl ms ((a, b) :: ms)) by (intros z Hz; right; auto).
    assert (E : connected ((a, b) :: ms) a b) by (apply rst_step; left; auto).
    intros [H|[[H1 H2]|[H1 H2]]].
    + eapply connected_mono; eauto.
    + eapply rst_trans; [eapply connected_mono; eauto|]. eapply rst_trans; [exact E|]. eapply connected_mono; eauto.
    + eapply rst_trans; [eapply connected_mono; eauto|]. eapply rst_trans; [apply rst_sym; exact E|]. eapply connected_mono; eauto.
Qed.

(** Linking root a below root b *)
Lemma link_Root n p rk a b : Shape n p rk -> a <= n -> b <= n -> nth a p 0 = a -> nth b p 0 = b ->
  forall y t, Root p y t -> y <= n -> Root (upd p a b) y (if Nat.eqb t a then b else t).
Proof.
  intros S Ha Hb Fa Fb y t H.
  assert (Na : nth a (upd p a b) 0 = b) by (apply nth_upd_eq; rewrite (sh_lp _ _ _ S); lia).
  assert (Nb : nth b (upd p a b) 0 = b).
  { destruct (Nat.eq_dec a b) as [->|E]; auto. rewrite nth_upd_neq; auto. }
  induction H as [y Hf|y t Hf H IH]; intros Hy.
  - destruct (Nat.eqb_spec y a) as [->|E].
    + destruct (Nat.eq_dec b a) as [->|E']; [constructor; auto|]. constructor 2; rewrite Na; auto. constructor; auto.
    + constructor. rewrite nth_upd_neq; auto.
  - assert (a <> y) by congruence. constructor 2; rewrite nth_upd_neq by auto; auto.
    apply IH. apply (sh_range _ _ _ S); auto.
Qed.

Lemma link_Shape n p rk rk' a b : Shape n p rk -> a <= n -> b <= n -> nth a p 0 = a -> nth b p 0 = b ->
  length rk' = S n ->
  (forall z, z <> b -> nth z rk' 0 = nth z rk 0) -> nth b rk 0 <= nth b rk' 0 ->
  (a <> b -> nth a rk 0 < nth b rk' 0) ->
  Shape n (upd p a b) rk'.
Proof.
  intros S Ha Hb Fa Fb Hl Hz Hle Hlt.
  assert (Na : nth a (upd p a b) 0 = b) by (apply nth_upd_eq; rewrite (sh_lp _ _ _ S); lia).
  constructor; auto.
  - rewrite length_upd. apply (sh_lp _ _ _ S).
  - intros y Hy. destruct (Nat.eq_dec a y) as [<-|E]; [rewrite Na; auto|rewrite nth_upd_neq; auto; apply (sh_range _ _ _ S); auto].
  - intros y Hy. destruct (Nat.eq_dec a y) as [<-|E].
    + rewrite Na. intros Hne. rewrite (Hz a) by auto. apply Hlt; auto.
    + rewrite nth_upd_neq by auto. intros Hne.
      assert (y <> b) by congruence. rewrite (Hz y) by auto.
      pose proof (sh_rank _ _ _ S y Hy Hne) as Hr.
      destruct (Nat.eq_dec (nth y p 0) b) as [E2|E2]; [rewrite E2 in *; lia|rewrite Hz; auto].
Qed.

Lemma Root_back n p rk p' (f : nat -> nat) :
  Shape n p rk -> (forall y t, Root p y t -> y <= n -> Root p' y (f t)) ->
  forall y t', y <= n -> Root p' y t' -> exists t, Root p y t /\ t' = f t.
Proof.
  intros S H y t' Hy Ht'. destruct (Root_ex _ _ _ S y Hy) as [t Ht].
  exists t. split; auto. eapply Root_fun; eauto.
Qed.

Lemma link_eqv n ms p rk a b x y p' :
  Shape n p rk ->
  (forall x y r t, x <= n -> y <= n -> Root p x r -> Root p y t -> (r = t <-> connected ms x y)) ->
  a <= n -> b <= n -> nth a p 0 = a -> nth b p 0 = b ->
  p' = upd p a b ->
  (forall z, connected ms z x <-> connected ms z a) -> (forall z, connected ms z y <-> connected ms z b) ->
  forall u v r t, u <= n -> v <= n -> Root p' u r -> Root p' v t ->
    (r = t <-> connected ((x, y) :: ms) u v).
Proof.
  intros S E Ha Hb Fa Fb -> Hxa Hyb u v r t Hu Hv Hr Ht.
  pose proof (link_Root n p rk a b S Ha Hb Fa Fb) as L.
  destruct (Root_back n p rk _ (fun t => if Nat.eqb t a then b else t) S L u r Hu Hr) as (r0 & Hr0 & ->).
  destruct (Root_back n p rk _ (fun t => if Nat.eqb t a then b else t) S L v t Hv Ht) as (t0 & Ht0 & ->).
  assert (Ra : Root p a a) by (constructor; auto). assert (Rb : Root p b b) by (constructor; auto).
  pose proof (E u v r0 t0 Hu Hv Hr0 Ht0) as Euv.
  pose proof (E u a r0 a Hu Ha Hr0 Ra) as Eua. pose proof (E u b r0 b Hu Hb Hr0 Rb) as Eub.
  pose proof (E v a t0 a Hv Ha Ht0 Ra) as Eva. pose proof (E v b t0 b Hv Hb Ht0 Rb) as Evb.
  assert (Sy : forall p q, connected ms p q <-> connected ms q p) by (intros; split; apply rst_sym).
  rewrite connected_cons. rewrite (Sy y v), (Sy x v), !Hxa, !Hyb.
  rewrite <- Euv, <- Eua, <- Eub, <- Eva, <- Evb.
  destruct (Nat.eqb_spec r0 a), (Nat.eqb_spec t0 a); subst; intuition congruence.
Qed.

(** merge: the shared part of DisjointSets::merge and MarkedDisjointSets::merge *)
Lemma Repr_merge n ms s x y : Repr n ms s -> x <= n -> y <= n ->
  exists s', ds_merge s x y = Ok s' /\ Repr n ((x, y) :: ms) s'.
Proof.
  intros HI Hx Hy. unfold ds_merge.
  destruct (Repr_find n ms s x HI Hx) as (s1 & a & F1 & I1 & R1 & R1' & RR1 & K1). rewrite F1; cbn [bind].
  destruct (Repr_find n ms s1 y I1 Hy) as (s2 & b & F2 & I2 & R2 & R2' & RR2 & K2). rewrite F2; cbn [bind].
  destruct I2 as (S & E & M).
  assert (R1'' : Root (parent s2) x a) by auto.
  assert (Ha : a <= n) by (exact (Root_range _ _ _ _ _ S Hx R1'')). assert (Hb : b <= n) by (exact (Root_range _ _ _ _ _ S Hy R2')).
  assert (Fa : nth a (parent s2) 0 = a) by (exact (Root_fix _ _ _ R1'')).
  assert (Fb : nth b (parent s2) 0 = b) by (exact (Root_fix _ _ _ R2')).
  rewrite (rd_nth _ a 0) by (rewrite (sh_lr _ _ _ S); lia). cbn [bind].
  rewrite (rd_nth _ b 0) by (rewrite (sh_lr _ _ _ S); lia). cbn [bind].
  assert (Cxa : connected ms x a). { eapply E; eauto. constructor; auto. }
  assert (Cyb : connected ms y b). { eapply E; eauto. constructor; auto. }
  assert (Hxa : forall z, connected ms z x <-> connected ms z a).
  { intros z; split; intros H; eapply rst_trans; eauto. apply rst_sym; auto. }
  assert (Hyb : forall z, connected ms z y <-> connected ms z b).
  { intros z; split; intros H; eapply rst_trans; eauto. apply rst_sym; auto. }
  assert (M' : forall x0 y0, In (x0, y0) ((x, y) :: ms) -> x0 <= n /\ y0 <= n).
  { intros x0 y0 [H|H]; [inversion H; subst; auto|apply M; auto]. }
  destruct (Nat.ltb_spec (nth b (rank s2) 0) (nth a (rank s2) 0)) as [L|L].
  - rewrite wr_Ok by (rewrite (sh_lp _ _ _ S); lia). cbn [bind].
    destruct (Nat.eqb_spec (nth a (rank s2) 0) (nth b (rank s2) 0)); [lia|]. cbn [bind].
    eexists; split; [reflexivity|]. split; [|split]; cbn [parent rank]; auto.
    + apply link_Shape with (rk := rank s2); auto. apply S.
    + intros u v r t Hu Hv Hr Ht.
      pose proof (link_eqv n ms _ _ b a y x _ S E Hb Ha Fb Fa eq_refl Hyb Hxa u v r t Hu Hv Hr Ht) as K.
      rewrite K. rewrite !connected_cons. intuition.
  - rewrite wr_Ok by (rewrite (sh_lp _ _ _ S); lia). cbn [bind].
    destruct (Nat.eqb_spec (nth a (rank s2) 0) (nth b (rank s2) 0)) as [Q|Q].
    + rewrite wr_Ok by (rewrite (sh_lr _ _ _ S); lia). cbn [bind].
      eexists; split; [reflexivity|]. split; [|split]; cbn [parent rank]; auto.
      * apply link_Shape with (rk := rank s2); auto.
        -- rewrite length_upd; apply S.
        -- intros z Hz. apply nth_upd_neq; auto.
        -- rewrite nth_upd_eq by (rewrite (sh_lr _ _ _ S); lia). lia.
        -- rewrite nth_upd_eq by (rewrite (sh_lr _ _ _ S); lia). lia.
      * intros u v r t Hu Hv Hr Ht. exact (link_eqv n ms _ _ a b x y _ S E Ha Hb Fa Fb eq_refl Hxa Hyb u v r t Hu Hv Hr Ht).
    + cbn [bind]. eexists; split; [reflexivity|]. split; [|split]; cbn [parent rank]; auto.
      * apply link_Shape with (rk := rank s2); auto; try apply S. lia.
      * intros u v r t Hu Hv Hr Ht. exact (link_eqv n ms _ _ a b x y _ S E Ha Hb Fa Fb eq_refl Hxa Hyb u v r t Hu Hv Hr Ht).
Qed.

Lemma connected_incl_equiv ms ms' : (forall p, In p ms <-> In p ms') -> forall x y, connected ms x y <-> connected ms' x y.
Proof. intros H x y; split; apply connected_mono; intros p Hp; apply H; auto. Qed.

Lemma Repr_equiv n ms ms' s : (forall p, In p ms <-> In p ms') -> Repr n ms s -> Repr n ms' s.
Proof.
  intros H (S & E & M). split; [exact S|split].
  - intros x y r t Hx Hy Hr Ht. rewrite (E x y r t Hx Hy Hr Ht). apply connected_incl_equiv; auto.
  - intros x y Hi. apply M. apply H; auto.
Qed.

Lemma run_Repr n ops : forall ms s, Repr n ms s -> Forall (ds_args_ok n) ops ->
  exists s' out, ds_run ops s = Ok (s', out) /\ Repr n (ms ++ merges ops) s'.
Proof.
  induction ops as [|o ops IH]; intros ms s HI HF.
  - exists s, []. split; auto. simpl. rewrite app_nil_r; auto.
  - inversion HF as [|? ? Ho HF']; subst. destruct o as [x|x y]; cbn [ds_run merges].
    + destruct (Repr_find n ms s x HI Ho) as (s1 & r & F1 & I1 & _). rewrite F1; cbn [bind].
      destruct (IH ms s1 I1 HF') as (s2 & out & F2 & I2). rewrite F2; cbn [bind]. eauto.
    + destruct Ho as [Hx Hy]. destruct (Repr_merge n ms s x y HI Hx Hy) as (s1 & F1 & I1). rewrite F1; cbn [bind].
      destruct (IH _ s1 I1 HF') as (s2 & out & F2 & I2). exists s2, out. split; auto.
      eapply Repr_equiv; [|exact I2]. intros p. simpl. rewrite !in_app_iff. simpl. tauto.
Qed.

(** Main theorem *)
Lemma union_find_correct n ops : Forall (ds_args_ok n) ops ->
  exists s outs, ds_run ops (ds_init n) = Ok (s, outs) /\
    forall x y, x <= n -> y <= n ->
      exists s1 r1 s2 r2, ds_find s x = Ok (s1, r1) /\ ds_find s1 y = Ok (s2, r2) /\
        (r1 = r2 <-> connected (merges ops) x y) /\ connected (merges ops) x r1 /\ r1 <= n.
Proof.
  intros HF. destruct (run_Repr n ops [] _ (Repr_init n) HF) as (s & outs & Hr & HI). simpl in HI.
  exists s, outs. split; auto. intros x y Hx Hy.
  destruct (Repr_find n _ s x HI Hx) as (s1 & r1 & F1 & I1 & R1 & R1' & RR1 & _).
  destruct (Repr_find n _ s1 y I1 Hy) as (s2 & r2 & F2 & I2 & R2 & R2' & RR2 & _).
  exists s1, r1, s2, r2. split; [exact F1|]. split; [exact F2|].
  destruct I1 as (S & E & _).
  assert (Hr1 : r1 <= n) by exact (Root_range _ _ _ _ _ S Hx R1').
  split; [apply E; auto|]. split; [|exact Hr1].
  apply (E x r1 r1 r1); auto. constructor. exact (Root_fix _ _ _ R1').
Qed.

(** *** Marked sets *)

Definition MRepr (n : nat) (rev_ops : list md_op) (s : mdsets) : Prop :=
  Repr n (md_merges rev_ops) (ds s) /\ length (marked s) = S n /\
  (forall x r, x <= n -> Root (parent (ds s)) x r -> (nth r (marked s) false = true <-> is_marked_after rev_ops x)).

Lemma is_marked_after_conn h : forall a b, connected (md_merges h) a b -> is_marked_after h a -> is_marked_after h b.
Proof.
  induction h as [|o h IH]; intros a b Hc Hm; [simpl in *; auto|].
  destruct o as [x|x y|x|x|x]; cbn [md_merges is_marked_after] in *; eauto.
  - apply connected_cons in Hc.
    assert (Sy : forall p q, connected (md_merges h) p q -> connected (md_merges h) q p) by (intros; apply rst_sym; auto).
    assert (Tr : forall p q r, connected (md_merges h) p q -> connected (md_merges h) q r -> connected (md_merges h) p r)
      by (intros; eapply rst_trans; eauto).
    destruct Hc as [Hc|[[Hc1 Hc2]|[Hc1 Hc2]]]; destruct Hm as [Hm|[[Hm1 Hm2]|[Hm1 Hm2]]]; eauto 8.
  - destruct Hm as [Hm|Hm]; [left; eauto|right]. eapply rst_trans; [apply rst_sym; exact Hc|exact Hm].
  - destruct Hm as [Hm Hn]. split; eauto. intros Hb. apply Hn. eapply rst_trans; eauto.
Qed.

Lemma MRepr_find n h s x : MRepr n h s -> x <= n ->
  exists d r, ds_find (ds s) x = Ok (d, r) /\ MRepr n h {| ds := d; marked := marked s |} /\ Root (parent d) x r /\ r <= n
   /\ nth r (parent d) 0 = r.
Proof.
  intros (HI & HL & HM) Hx. destruct (Repr_find n _ (ds s) x HI Hx) as (d & r & F & I' & R & R' & RR & K).
  exists d, r. split; auto. split; [split; [|split]|]; cbn [ds marked]; auto.
  - intros y t Hy Ht. apply HM; auto. destruct HI as (S & _). destruct (Root_ex _ _ _ S y Hy) as [t0 Ht0].
    assert (t = t0) by (eapply Root_fun; eauto). subst; auto.
  - destruct I' as (S & _). split; auto. split; [eapply Root_range; eauto|]. eapply Root_fix; eauto.
Qed.

Lemma MRepr_set n h s x v : MRepr n h s -> x <= n ->
  exists s', md_set v s x = Ok s' /\ MRepr n ((if v then MMark x else MUnmark x) :: h) s'.
Proof.
  intros HI Hx. unfold md_set. destruct (MRepr_find n h s x HI Hx) as (d & r & F & I' & R & Hr & Fx). rewrite F; cbn [bind].
  destruct I' as (I1 & L1 & M1). cbn [ds marked] in *.
  rewrite wr_Ok by lia. cbn [bind]. eexists; split; [reflexivity|].
  split; [|split]; cbn [ds marked].
  - destruct v; auto.
  - rewrite length_upd; auto.
  - intros y t Hy Ht. specialize (M1 y t Hy Ht).
    destruct I1 as (S & E & _). specialize (E y x t r Hy Hx Ht R).
    destruct (Nat.eq_dec r t) as [->|Hne].
    + rewrite nth_upd_eq by lia. destruct v; cbn [is_marked_after]; intuition congruence.
    + rewrite nth_upd_neq by auto. destruct v; cbn [is_marked_after]; intuition congruence.
Qed.

Lemma md_merge_unfold s x0 y0 :
  md_merge s x0 y0 =
  let* (s1, x) := ds_find (ds s) x0 in
  let* (s2, y) := ds_find s1 y0 in
  let* d := ds_merge (ds s) x0 y0 in
  let* mx := rd (marked s) x in
  let* my := rd (marked s) y in
  let* m := (if mx || my then let* m1 := wr (marked s) x true in wr m1 y true else Ok (marked s)) in
  Ok {| ds := d; marked := m |}.
Proof.
  unfold md_merge, ds_merge. destruct (ds_find (ds s) x0) as [[s1 x]| |]; cbn [bind]; auto.
  destruct (ds_find s1 y0) as [[s2 y]| |]; cbn [bind]; auto.
  destruct (rd (rank s2) x); cbn [bind]; auto. destruct (rd (rank s2) y); cbn [bind]; auto.
  destruct (if a0 <? a then _ else _); cbn [bind]; auto. destruct (if a =? a0 then _ else _); cbn [bind]; auto.
Qed.

Lemma MRepr_merge n h s x y : MRepr n h s -> x <= n -> y <= n ->
  exists s', md_merge s x y = Ok s' /\ MRepr n (MMerge x y :: h) s'.
Proof.
  intros HI Hx Hy. rewrite md_merge_unfold.
  destruct (MRepr_find n h s x HI Hx) as (d1 & a & F1 & I1 & R1 & Ha & Fa). rewrite F1; cbn [bind].
  destruct (Repr_find n _ (ds s) x (proj1 HI) Hx) as (d1' & a' & F1' & _ & R0 & _). rewrite F1 in F1'. inversion F1'; subst d1' a'.
  destruct (MRepr_find n h _ y I1 Hy) as (d2 & b & F2 & I2 & R2 & Hb & Fb). cbn [ds marked] in *. rewrite F2; cbn [bind].
  destruct (Repr_merge n _ (ds s) x y (proj1 HI) Hx Hy) as (d & Fm & Im). rewrite Fm; cbn [bind].
  destruct HI as (HI & L & M).
  rewrite (rd_nth _ a false) by lia. cbn [bind]. rewrite (rd_nth _ b false) by lia. cbn [bind].
  pose proof (proj1 (proj1 I2)) as S2. cbn [ds] in S2.
  assert (R1x : Root (parent d2) x a).
  { destruct (Repr_find n _ d1 y (proj1 I1) Hy) as (d2' & b' & F2' & _ & _ & _ & RR & _).
    rewrite F2 in F2'. inversion F2'; subst d2' b'. apply RR; auto. }
  destruct I2 as ((_ & E2 & _) & _ & M2). cbn [ds marked] in *.
  set (m := if nth a (marked s) false || nth b (marked s) false then upd (upd (marked s) a true) b true else marked s).
  assert (Hm : (if nth a (marked s) false || nth b (marked s) false
                then let* m1 := wr (marked s) a true in wr m1 b true else Ok (marked s)) = Ok m).
  { unfold m. destruct (_ || _); auto. rewrite wr_Ok by lia. cbn [bind]. rewrite wr_Ok; auto. rewrite length_upd; lia. }
  rewrite Hm; cbn [bind]. eexists; split; [reflexivity|].
  split; [|split]; cbn [ds marked]; auto.
  { unfold m. destruct (_ || _); auto. rewrite !length_upd; auto. }
  (* the root of the merged class is a or b *)
  intros z t Hz Ht. cbn [is_marked_after].
  destruct (Root_ex _ _ _ S2 z Hz) as [t0 Ht0].
  pose proof (E2 z x t0 a Hz Hx Ht0 R1x) as Ezx. pose proof (E2 z y t0 b Hz Hy Ht0 R2) as Ezy.
  pose proof (M2 z t0 Hz Ht0) as Mz. pose proof (M2 x a Hx R1x) as Mx. pose proof (M2 y b Hy R2) as My.
  destruct Im as (Sm & Em & _).
  (* t's class: t is connected to z in the new relation; locate t *)
  assert (Key : (t0 = a \/ t0 = b) /\ (t = a \/ t = b) \/ (t0 <> a /\ t0 <> b /\ t = t0)).
  { (* unfold the merge to see how roots move *)
    unfold ds_merge in Fm. rewrite F1 in Fm; cbn [bind] in Fm. rewrite F2 in Fm; cbn [bind] in Fm.
    rewrite (rd_nth _ a 0) in Fm by (rewrite (sh_lr _ _ _ S2); lia). cbn [bind] in Fm.
    rewrite (rd_nth _ b 0) in Fm by (rewrite (sh_lr _ _ _ S2); lia). cbn [bind] in Fm.
    assert (Fa2 : nth a (parent d2) 0 = a) by (exact (Root_fix _ _ _ R1x)).
    assert (Fb2 : nth b (parent d2) 0 = b) by (exact (Root_fix _ _ _ R2)).
    apply bind_Ok_inv in Fm as (p & Hp & Fm). apply bind_Ok_inv in Fm as (rk & _ & Fm). inversion Fm; subst d. cbn [parent] in *.
    destruct (nth b (rank d2) 0 <? nth a (rank d2) 0); apply wr_Ok_inv in Hp as [_ ->].
    - pose proof (link_Root n _ _ b a S2 Hb Ha Fb2 Fa2 z t0 Ht0 Hz) as Ht'.
      assert (t = if Nat.eqb t0 b then a else t0) by (eapply Root_fun; eauto).
      destruct (Nat.eqb_spec t0 b); subst; auto. destruct (Nat.eq_dec t0 a); subst; auto.
    - pose proof (link_Root n _ _ a b S2 Ha Hb Fa2 Fb2 z t0 Ht0 Hz) as Ht'.
      assert (t = if Nat.eqb t0 a then b else t0) by (eapply Root_fun; eauto).
      destruct (Nat.eqb_spec t0 a); subst; auto. destruct (Nat.eq_dec t0 b); subst; auto. }
  destruct Key as [[K0 Kt]|(K1 & K2 & ->)].
  - assert (Nm : nth t m false = nth a (marked s) false || nth b (marked s) false).
    { unfold m. destruct (nth a (marked s) false || nth b (marked s) false) eqn:Eo.
      - destruct (Nat.eq_dec b t) as [->|Hbt]; [apply nth_upd_eq; rewrite length_upd; lia|].
        rewrite nth_upd_neq by auto. destruct Kt; [subst t|congruence]. apply nth_upd_eq; lia.
      - apply orb_false_iff in Eo as [? ?]. destruct Kt; subst; auto. }
    rewrite Nm, orb_true_iff, Mx, My.
    destruct K0; subst t0.
    + assert (connected (md_merges h) z x) by (apply Ezx; auto).
      assert (is_marked_after h x <-> is_marked_after h z)
        by (split; apply is_marked_after_conn; auto; apply rst_sym; auto).
      tauto.
    + assert (connected (md_merges h) z y) by (apply Ezy; auto).
      assert (is_marked_after h y <-> is_marked_after h z)
        by (split; apply is_marked_after_conn; auto; apply rst_sym; auto).
      tauto.
  - assert (Nm : nth t0 m false = nth t0 (marked s) false).
    { unfold m. destruct (_ || _); auto. rewrite !nth_upd_neq; auto. }
    rewrite Nm, Mz. split; [auto|]. intros [K|[[K ?]|[K ?]]]; auto.
    + exfalso. apply K1. apply Ezx; auto.
    + exfalso. apply K2. apply Ezy; auto.
Qed.

Lemma MRepr_init n : MRepr n [] (md_init n).
Proof.
  split; [apply Repr_init|]. split; cbn [md_init marked]; [apply repeat_length|].
  intros x r _ _. cbn [is_marked_after]. split; [|tauto].
  intros H. rewrite nth_repeat in H. discriminate.
Qed.

Lemma MRepr_isMarked n h s x : MRepr n h s -> x <= n ->
  exists s' b, md_isMarked s x = Ok (s', b) /\ MRepr n h s' /\ (b = true <-> is_marked_after h x).
Proof.
  intros HI Hx. unfold md_isMarked. destruct (MRepr_find n h s x HI Hx) as (d & r & F & I' & R & Hr & _). rewrite F; cbn [bind].
  destruct I' as (I1 & L1 & M1). cbn [ds marked] in *. rewrite (rd_nth _ r false) by lia. cbn [bind].
  eexists _, _. split; [reflexivity|]. split; [split; auto|]. apply M1; auto.
Qed.

Lemma MRepr_same n h h' s : (forall x, is_marked_after h' x <-> is_marked_after h x) -> md_merges h' = md_merges h ->
  MRepr n h s -> MRepr n h' s.
Proof.
  intros H1 H2 (A & B & C). split; [rewrite H2; auto|]. split; auto. intros x r Hx Hr. rewrite H1. apply C; auto.
Qed.

Lemma md_step_ok n h s o : MRepr n h s -> md_args_ok n o -> exists s', md_step s o = Ok s' /\ MRepr n (o :: h) s'.
Proof.
  intros HI Ho. destruct o as [x|x y|x|x|x]; cbn [md_step md_args_ok] in *.
  - unfold md_find. destruct (MRepr_find n h s x HI Ho) as (d & r & F & I' & _). rewrite F; cbn [bind].
    eexists; split; [reflexivity|]. eapply MRepr_same; [| |exact I']; simpl; tauto.
  - destruct Ho. apply MRepr_merge; auto.
  - apply (MRepr_set n h s x true); auto.
  - apply (MRepr_set n h s x false); auto.
  - destruct (MRepr_isMarked n h s x HI Ho) as (s' & b & F & I' & _). rewrite F; cbn [bind].
    eexists; split; [reflexivity|]. eapply MRepr_same; [| |exact I']; simpl; tauto.
Qed.

Lemma md_run_ok n ops : forall h s, MRepr n h s -> Forall (md_args_ok n) ops ->
  exists s', md_run ops s = Ok s' /\ MRepr n (rev ops ++ h) s'.
Proof.
  unfold md_run. induction ops as [|o ops IH]; intros h s HI HF; simpl.
  - exists s; auto.
  - inversion HF; subst. destruct (md_step_ok n h s o HI H1) as (s1 & F1 & I1). rewrite F1; cbn [bind].
    destruct (IH _ s1 I1 H2) as (s2 & F2 & I2). exists s2. split; auto. rewrite <- app_assoc. exact I2.
Qed.

Lemma marked_sets_correct n ops : Forall (md_args_ok n) ops ->
  exists s, md_run ops (md_init n) = Ok s /\
    forall x, x <= n -> exists s' b, md_isMarked s x = Ok (s', b) /\ (b = true <-> is_marked_after (rev ops) x).
Proof.
  intros HF. destruct (md_run_ok n ops [] _ (MRepr_init n) HF) as (s & F & HI). rewrite app_nil_r in HI.
  exists s. split; auto. intros x Hx. destruct (MRepr_isMarked n _ s x HI Hx) as (s' & b & F' & _ & K). eauto.
Qed.

Lemma marked_sets_partition n ops : Forall (md_args_ok n) ops ->
  exists s, md_run ops (md_init n) = Ok s /\
    forall x y, x <= n -> y <= n -> exists s1 r1 s2 r2, md_find s x = Ok (s1, r1) /\ md_find s1 y = Ok (s2, r2) /\
       (r1 = r2 <-> connected (md_merges (rev ops)) x y).
Proof.
  intros HF. destruct (md_run_ok n ops [] _ (MRepr_init n) HF) as (s & F & HI). rewrite app_nil_r in HI.
  exists s. split; auto. intros x y Hx Hy. unfold md_find.
  destruct HI as (HI & _).
  destruct (Repr_find n _ _ x HI Hx) as (s1 & r1 & F1 & I1 & R1 & R1' & RR1 & _).
  destruct (Repr_find n _ s1 y I1 Hy) as (s2 & r2 & F2 & I2 & R2 & R2' & RR2 & _).
  rewrite F1; cbn [bind ds]. eexists _, _, _, _. split; [reflexivity|]. cbn [ds]. rewrite F2. cbn [bind].
  split; [reflexivity|]. destruct I1 as (? & E & _). apply E; auto.
Qed.
