From Verif Require Import Base QuantityModel QuantitySpec.

Section Proofs.
Variables (X V : Type) (deps : nat -> list nat) (F : nat -> X -> list V -> V).
Notation iface := (iface X V).
Notation cellT := (cell V).
Notation have := (have_of X V).
Variables (n : nat) (rk : nat -> nat).
Hypothesis Hrk : forall i, i < n -> rk i <= n /\ forall d, In d (deps i) -> d < n /\ rk d < rk i.

(** computed cells are filled, and hold the right value if [up] *)
Definition WF (up : Prop) (g : iface) : Prop :=
  length (cells g) = n /\
  forall j c, nth_error (cells g) j = Some c -> computed c = true ->
    exists v, buf c = Some v /\ (up -> IsValue X V deps F (input g) j v).

Record Ext (b : nat) (g g' : iface) (log : list nat) : Prop := mkExt {
  x_input : input g' = input g;
  x_len : length (cells g') = length (cells g);
  x_cells : forall j c, nth_error (cells g) j = Some c -> exists c', nth_error (cells g') j = Some c' /\
     requireCount c' = requireCount c /\ clearable c' = clearable c /\ hasBuffer c' = hasBuffer c /\
     (~ In j log -> c' = c) /\ (computed c' = true <-> computed c = true \/ In j log);
  x_new : forall j, In j log -> have g j = false /\ rk j < b /\ j < length (cells g);
  x_nodup : NoDup log;
  x_order : forall l1 j l2, log = l1 ++ j :: l2 -> forall d, In d (deps j) -> have g d = true \/ In d l1
}.

Lemma Ext_refl b g : Ext b g g [].
Proof.
  constructor; auto.
  - intros j c Hc. exists c. intuition.
  - intros j [].
  - constructor.
  - intros [|? ?] j l2 H; discriminate.
Qed.

Lemma Ext_mono b b' g g' l : b <= b' -> Ext b g g' l -> Ext b' g g' l.
Proof. intros H []; constructor; auto. intros j Hj. destruct (x_new0 j Hj) as (? & ? & ?). repeat split; auto. lia. Qed.

Lemma have_ext b g g' l : Ext b g g' l -> forall j, j < length (cells g) -> (have g' j = true <-> have g j = true \/ In j l).
Proof.
  intros E j Hj. unfold have_of. destruct (nth_error (cells g) j) as [c|] eqn:Ec.
  - destruct (x_cells _ _ _ _ E j c Ec) as (c' & -> & _ & _ & _ & _ & H). auto.
  - apply nth_error_None in Ec. lia.
Qed.

Lemma have_oob (g : iface) j : ~ j < length (cells g) -> have g j = false.
Proof. intros H. unfold have_of. destruct (nth_error (cells g) j) eqn:E; auto. exfalso. apply H. apply nth_error_Some. congruence. Qed.

Lemma app_cons_split {A} (a b : list A) l1 x l2 : a ++ b = l1 ++ x :: l2 ->
  (exists r, a = l1 ++ x :: r) \/ (exists r, l1 = a ++ r /\ b = r ++ x :: l2).
Proof.
  revert l1; induction a as [|y a IH]; simpl; intros l1 H.
  - right. exists l1. auto.
  - destruct l1 as [|z l1]; simpl in H; inversion H; subst.
    + left. exists a. auto.
    + destruct (IH l1 H2) as [[r ->]|[r [-> ->]]]; [left; exists r|right; exists r]; auto.
Qed.

Lemma NoDup_app {A} (a b : list A) : NoDup a -> NoDup b -> (forall x, In x a -> ~ In x b) -> NoDup (a ++ b).
Proof.
  induction a as [|x a IH]; simpl; intros Ha Hb H; auto. inversion Ha; subst. constructor.
  - rewrite in_app_iff. intros [?|?]; [auto|]. apply (H x); auto.
  - apply IH; auto.
Qed.


Lemma Ext_trans b g1 g2 g3 l1 l2 : Ext b g1 g2 l1 -> Ext b g2 g3 l2 -> Ext b g1 g3 (l1 ++ l2).
Proof.
  intros E1 E2.
  assert (New2 : forall j, In j l2 -> have g1 j = false /\ rk j < b /\ j < length (cells g1) /\ ~ In j l1).
  { intros j Hj. destruct (x_new _ _ _ _ E2 j Hj) as (Hn & Hr & Hl). rewrite (x_len _ _ _ _ E1) in Hl.
    pose proof (have_ext _ _ _ _ E1 j Hl) as H. rewrite Hn in H. repeat split; auto.
    - destruct (have g1 j); auto. symmetry; apply H; auto.
    - intros Hi. destruct H as [_ H]. discriminate H; auto. }
  constructor.
  - rewrite (x_input _ _ _ _ E2). apply E1.
  - rewrite (x_len _ _ _ _ E2). apply E1.
  - intros j c Hc. destruct (x_cells _ _ _ _ E1 j c Hc) as (c1 & H1 & A1 & B1 & C1 & D1 & K1).
    destruct (x_cells _ _ _ _ E2 j c1 H1) as (c2 & H2 & A2 & B2 & C2 & D2 & K2).
    exists c2. split; auto. repeat split; try congruence.
    + rewrite in_app_iff. intros Hcc. rewrite D2, D1; auto.
    + rewrite K2, K1, in_app_iff. tauto.
    + rewrite K2, K1, in_app_iff. tauto.
  - intros j Hj. apply in_app_iff in Hj as [Hj|Hj]; [apply E1; auto|]. destruct (New2 j Hj) as (? & ? & ? & ?). auto.
  - apply NoDup_app; [apply E1|apply E2|]. intros x Hx Hx2. destruct (New2 x Hx2) as (? & ? & ? & ?). auto.
  - intros p j q Hs d Hd. apply app_cons_split in Hs as [[r ->]|[r [-> ->]]].
    + eapply (x_order _ _ _ _ E1); eauto.
    + destruct (x_order _ _ _ _ E2 r j q eq_refl d Hd) as [H|H].
      * destruct (lt_dec d (length (cells g1))) as [Hl|Hl].
        -- apply (have_ext _ _ _ _ E1 d Hl) in H. rewrite in_app_iff. tauto.
        -- rewrite have_oob in H; [discriminate|]. rewrite (x_len _ _ _ _ E1); auto.
      * right. apply in_app_iff; auto.
Qed.

Lemma IsValue_Forall2 up g ds : WF up g -> (forall d, In d ds -> have g d = true) ->
  exists vs, mapM (read_buf X V g) ds = Ok vs /\ (up -> Forall2 (IsValue X V deps F (input g)) ds vs).
Proof.
  intros [L W]. induction ds as [|d ds IH]; intros H.
  - exists []. split; auto.
  - destruct IH as (vs & Hm & Hv); [intros; apply H; right; auto|].
    assert (Hd : have g d = true) by (apply H; left; auto). unfold have_of in Hd.
    destruct (nth_error (cells g) d) as [c|] eqn:Ec; [|discriminate].
    destruct (W d c Ec Hd) as (v & Hb & Hval).
    exists (v :: vs). split.
    + simpl. unfold read_buf at 1, rd. rewrite Ec. cbn [bind]. rewrite Hb. cbn [bind]. rewrite Hm. reflexivity.
    + intros u. constructor; auto.
Qed.

Lemma ensure_ok up fuel : forall g i, WF up g -> i < n -> rk i < fuel ->
  exists g' log, ensureHave X V deps F fuel g i = Ok (g', log) /\ WF up g' /\ Ext (S (rk i)) g g' log /\ have g' i = true /\
    (forall j, In j log -> Needed deps (have g) i j).
Proof.
  induction fuel as [|fuel IH]; intros g i W Hi Hf; [lia|].
  assert (All : forall ds g0, WF up g0 -> (forall d, In d ds -> d < n /\ rk d < rk i) ->
    exists g' log, ensureAll X V (ensureHave X V deps F fuel) ds g0 = Ok (g', log) /\ WF up g' /\ Ext (rk i) g0 g' log /\
      (forall d, In d ds -> have g' d = true) /\ (forall j, In j log -> exists d, In d ds /\ Needed deps (have g0) d j)).
  { induction ds as [|d ds IHds]; intros g0 W0 Hds.
    - exists g0, []. split; auto. split; auto. split; [apply Ext_refl|]. split; intros ? [].
    - destruct (Hds d (or_introl eq_refl)) as [Hdn Hdr].
      destruct (IH g0 d W0 Hdn ltac:(lia)) as (g1 & l1 & F1 & W1 & E1 & H1 & N1).
      destruct (IHds g1 W1 (fun d' h => Hds d' (or_intror h))) as (g2 & l2 & F2 & W2 & E2 & H2 & N2).
      cbn [ensureAll]. rewrite F1; cbn [bind]. rewrite F2; cbn [bind].
      exists g2, (l1 ++ l2). split; auto. split; auto.
      assert (E1' : Ext (rk i) g0 g1 l1) by (eapply Ext_mono; [|exact E1]; lia).
      split; [eapply Ext_trans; eauto|]. split.
      + intros d' [<-|Hd']; auto. apply (have_ext _ _ _ _ E2); auto. rewrite (x_len _ _ _ _ E1), (proj1 W0); auto.
      + intros j Hj. apply in_app_iff in Hj as [Hj|Hj]; [exists d; split; [left; auto|apply N1; auto]|].
        destruct (N2 j Hj) as (d' & Hd' & Hn). exists d'. split; [right; auto|].
        (* a quantity not yet computed later was not yet computed before *)
        assert (Hmono : forall k, have g1 k = false -> have g0 k = false).
        { intros k Hk. destruct (lt_dec k (length (cells g0))) as [Hl|Hl]; [|apply have_oob; auto].
          pose proof (have_ext _ _ _ _ E1 k Hl) as HH. rewrite Hk in HH. destruct (have g0 k); auto. symmetry; apply HH; auto. }
        clear - Hn Hmono. induction Hn; [apply Needed_self|eapply Needed_dep]; eauto. }
  cbn [ensureHave]. destruct (rd_Ok (cells g) i) as (c & Hr & Hc); [rewrite (proj1 W); auto|]. rewrite Hr; cbn [bind].
  destruct (computed c) eqn:Ec.
  - exists g, []. split; auto. split; auto. split; [apply Ext_refl|]. split; [unfold have_of; rewrite Hc; auto|intros ? []].
  - assert (Hni : have g i = false) by (unfold have_of; rewrite Hc; auto).
    destruct (All (deps i) g W (proj2 (Hrk i Hi))) as (g1 & log & Fa & W1 & E1 & H1 & N1). rewrite Fa; cbn [bind].
    destruct (IsValue_Forall2 up g1 (deps i) W1 H1) as (vs & Hm & Hv). rewrite Hm; cbn [bind].
    destruct (x_cells _ _ _ _ E1 i c Hc) as (c1 & Hc1 & A1 & B1 & C1 & D1 & K1).
    unfold rd at 1. rewrite Hc1. cbn [bind]. unfold set_cell.
    assert (Hi1 : i < length (cells g1)) by (rewrite (proj1 W1); auto).
    rewrite wr_Ok by auto. cbn [bind].
    eexists _, _. split; [reflexivity|].
    assert (Hnin : ~ In i log). { intros Hin. destruct (x_new _ _ _ _ E1 i Hin) as (_ & ? & _). lia. }
    match goal with |- WF _ ?G /\ _ => set (g2 := G) end.
    assert (Hni1 : nth_error (cells g2) i = Some {| computed := true; requireCount := requireCount c1;
                clearable := clearable c1; hasBuffer := hasBuffer c1; buf := Some (F i (input g1) vs) |}).
    { unfold g2; cbn [cells]. apply nth_error_upd_eq; auto. }
    split; [|split; [|split]].
    + split; [unfold g2; cbn [cells]; rewrite length_upd; apply W1|].
      intros j cj Hj Hcj. unfold g2 in Hj; cbn [cells] in Hj. destruct (Nat.eq_dec i j) as [->|Hne].
      * rewrite nth_error_upd_eq in Hj by auto. inversion Hj; subst cj. cbn [buf]. eexists; split; [reflexivity|].
        intros u. unfold g2; cbn [input]. constructor. auto.
      * rewrite nth_error_upd_neq in Hj by auto. destruct W1 as [_ W1]. destruct (W1 j cj Hj Hcj) as (v & ? & ?). exists v. auto.
    + constructor.
      * unfold g2; cbn [input]. apply E1.
      * unfold g2; cbn [cells]. rewrite length_upd. apply E1.
      * intros j cj Hj. destruct (x_cells _ _ _ _ E1 j cj Hj) as (c' & Hc' & A' & B' & C' & D' & K').
        destruct (Nat.eq_dec i j) as [->|Hne].
        -- rewrite Hc in Hj; inversion Hj; subst cj. rewrite Hc1 in Hc'; inversion Hc'; subst c'.
           eexists; split; [exact Hni1|]. cbn [requireCount clearable hasBuffer computed].
           assert (Hj' : In j (log ++ [j])) by (apply in_app_iff; right; left; auto).
           repeat split; auto; try congruence; tauto.
        -- exists c'. split; [unfold g2; cbn [cells]; rewrite nth_error_upd_neq; auto|]. rewrite in_app_iff. simpl. repeat split; auto; tauto || (rewrite K'; intuition congruence).
      * intros j Hj. apply in_app_iff in Hj as [Hj|[<-|[]]].
        -- destruct (x_new _ _ _ _ E1 j Hj) as (? & ? & ?). repeat split; auto; lia.
        -- repeat split; auto. rewrite (proj1 W); auto.
      * apply NoDup_app; [apply E1|constructor; [simpl; tauto|constructor]|]. intros x Hx [<-|[]]; auto.
      * intros p j q Hs d Hd. apply app_cons_split in Hs as [[r ->]|[r [-> Hs]]].
        -- eapply (x_order _ _ _ _ E1); eauto.
        -- destruct r as [|? [|? ?]]; inversion Hs; subst. rewrite app_nil_r.
           apply (have_ext _ _ _ _ E1); auto. rewrite (proj1 W). apply (Hrk j Hi); auto.
    + unfold have_of. rewrite Hni1. reflexivity.
    + intros j Hj. apply in_app_iff in Hj as [Hj|[<-|[]]].
      * destruct (N1 j Hj) as (d & Hd & Hn). eapply Needed_dep; eauto.
      * apply Needed_self; auto.
Qed.

(** exactly the needed quantities are evaluated *)
Lemma ensure_exact b g g' log i : Ext b g g' log -> (forall k, k < n -> k < length (cells g)) -> i < n ->
  have g' i = true -> forall j, Needed deps (have g) i j -> In j log.
Proof.
  intros E Hn Hi Hh.
  assert (Key : forall k j, Needed deps (have g) k j -> k < n -> have g' k = true -> In j log).
  { induction 1 as [k Hk|k d j Hk Hd HN IH]; intros Hkn Hk'.
    - apply (have_ext _ _ _ _ E k (Hn k Hkn)) in Hk' as [?|?]; auto. congruence.
    - apply (have_ext _ _ _ _ E k (Hn k Hkn)) in Hk' as [?|Hin]; [congruence|].
      apply in_split in Hin as (l1 & l2 & Hs).
      assert (Hdn : d < n) by (apply (Hrk k Hkn); auto).
      apply IH; auto. apply (have_ext _ _ _ _ E d (Hn d Hdn)).
      destruct (x_order _ _ _ _ E l1 k l2 Hs d Hd) as [H|H]; auto. right. rewrite Hs. apply in_app_iff; auto. }
  intros j HN. eapply Key; eauto.
Qed.

(** *** histories *)
Definition counts (g : iface) (f : nat -> Z) : Prop :=
  forall j c, nth_error (cells g) j = Some c -> requireCount c = f j.
Definition required_have (g : iface) : Prop :=
  forall j c, nth_error (cells g) j = Some c -> (0 < requireCount c)%Z -> computed c = true.

Lemma depth_ok (g : iface) i : length (cells g) = n -> i < n -> rk i < depth X V g.
Proof. intros L Hi. unfold depth. rewrite L. pose proof (proj1 (Hrk i Hi)). lia. Qed.

Lemma Ext_counts b g g' l f : Ext b g g' l -> counts g f -> counts g' f.
Proof.
  intros E H j c' Hc'. assert (Hl : j < length (cells g)).
  { rewrite <- (x_len _ _ _ _ E). apply nth_error_Some. congruence. }
  destruct (nth_error (cells g) j) as [c|] eqn:Ec; [|apply nth_error_None in Ec; lia].
  destruct (x_cells _ _ _ _ E j c Ec) as (c2 & H2 & A & _). rewrite Hc' in H2; inversion H2; subst. rewrite A. auto.
Qed.

Lemma Ext_computed b g g' l j c' : Ext b g g' l -> nth_error (cells g') j = Some c' ->
  exists c, nth_error (cells g) j = Some c /\ requireCount c' = requireCount c /\ clearable c' = clearable c /\
            hasBuffer c' = hasBuffer c /\ (computed c = true -> computed c' = true).
Proof.
  intros E Hc'. assert (Hl : j < length (cells g)).
  { rewrite <- (x_len _ _ _ _ E). apply nth_error_Some. congruence. }
  destruct (nth_error (cells g) j) as [c|] eqn:Ec; [|apply nth_error_None in Ec; lia].
  destruct (x_cells _ _ _ _ E j c Ec) as (c2 & H2 & A & B & C & D & K). rewrite Hc' in H2; inversion H2; subst.
  exists c. repeat split; auto. intros; apply K; auto.
Qed.

Lemma refresh_fold up : forall js g, WF up g -> (forall j, In j js -> j < n) ->
  exists g', foldM (ensureHaveIfRequired X V deps F) js g = Ok g' /\ WF up g' /\
    (exists l, Ext (S (S n)) g g' l) /\
    (forall j c, In j js -> nth_error (cells g') j = Some c -> (0 < requireCount c)%Z -> computed c = true).
Proof.
  induction js as [|j js IH]; intros g W Hjs.
  - exists g. split; auto. split; auto. split; [exists []; apply Ext_refl|]. intros ? ? [].
  - assert (Hj : j < n) by (apply Hjs; left; auto).
    destruct (rd_Ok (cells g) j) as (c & Hr & Hc); [rewrite (proj1 W); auto|].
    cbn [foldM]. unfold ensureHaveIfRequired at 1. rewrite Hr; cbn [bind].
    assert (exists g1, (if (0 <? requireCount c)%Z then let* (g', _) := ensureHave X V deps F (depth X V g) g j in Ok g' else Ok g) = Ok g1
        /\ WF up g1 /\ (exists l, Ext (S (S n)) g g1 l) /\ ((0 < requireCount c)%Z -> have g1 j = true)) as (g1 & -> & W1 & (l1 & E1) & H1).
    { destruct (Z.ltb_spec 0 (requireCount c)) as [Hp|Hp].
      - destruct (ensure_ok up (depth X V g) g j W Hj (depth_ok g j (proj1 W) Hj)) as (g1 & log & F1 & W1 & E1 & H1 & _).
        rewrite F1; cbn [bind]. exists g1. split; auto. split; auto. split; auto.
        exists log. eapply Ext_mono; [|exact E1]. pose proof (proj1 (Hrk j Hj)). lia.
      - exists g. split; auto. split; auto. split; [exists []; apply Ext_refl|]. lia. }
    cbn [bind]. destruct (IH g1 W1) as (g2 & F2 & W2 & (l2 & E2) & H2); [intros; apply Hjs; right; auto|].
    exists g2. split; auto. split; auto. split; [exists (l1 ++ l2); eapply Ext_trans; eauto|].
    intros k ck Hk Hck Hp. destruct (Nat.eq_dec j k) as [<-|Hne].
    + destruct (Ext_computed _ _ _ _ _ _ E2 Hck) as (c1 & Hc1 & A1 & _ & _ & K1).
      destruct (Ext_computed _ _ _ _ _ _ E1 Hc1) as (c0 & Hc0 & A0 & _). rewrite Hc in Hc0; inversion Hc0; subst c0.
      apply K1. assert (Hh : have g1 j = true) by (apply H1; lia). unfold have_of in Hh. rewrite Hc1 in Hh. auto.
    + destruct Hk as [Hk|Hk]; [congruence|]. eapply H2; eauto.
Qed.

Definition QInv (x : X) (up : Prop) (f : nat -> Z) (g : iface) : Prop :=
  WF up g /\ input g = x /\ counts g f /\ required_have g.

Lemma nth_error_map_inv {A B} (h : A -> B) l j b : nth_error (map h l) j = Some b -> exists a, nth_error l j = Some a /\ b = h a.
Proof. rewrite nth_error_map. destruct (nth_error l j); simpl; intros H; inversion H; eauto. Qed.

Lemma step_require x up f g i : QInv x up f g -> i < n ->
  exists g', require X V deps F g i = Ok g' /\ QInv x up (fun j => ((if Nat.eqb j i then 1 else 0) + f j)%Z) g'.
Proof.
  intros (W & Hin & Hc & Hr) Hi. unfold require.
  destruct (rd_Ok (cells g) i) as (c & Hrd & Hci); [rewrite (proj1 W); auto|]. rewrite Hrd; cbn [bind]. unfold set_cell.
  assert (Hil : i < length (cells g)) by (rewrite (proj1 W); auto).
  rewrite wr_Ok by auto. cbn [bind].
  match goal with |- context [depth X V ?G] => set (g1 := G) end.
  assert (W1 : WF up g1).
  { split; [unfold g1; cbn [cells]; rewrite length_upd; apply W|]. intros j cj Hj Hcj. unfold g1 in *; cbn [cells input] in *.
    destruct (Nat.eq_dec i j) as [->|Hne].
    - rewrite nth_error_upd_eq in Hj by auto. inversion Hj; subst cj. cbn [computed buf] in *. exact (proj2 W j c Hci Hcj).
    - rewrite nth_error_upd_neq in Hj by auto. exact (proj2 W j cj Hj Hcj). }
  destruct (ensure_ok up (depth X V g1) g1 i W1 Hi (depth_ok g1 i (proj1 W1) Hi)) as (g2 & log & F2 & W2 & E2 & H2 & _).
  rewrite F2; cbn [bind]. exists g2. split; auto. split; [exact W2|]. split; [rewrite (x_input _ _ _ _ E2); exact Hin|].
  assert (C1 : counts g1 (fun j => ((if Nat.eqb j i then 1 else 0) + f j)%Z)).
  { intros j cj Hj. unfold g1 in Hj; cbn [cells] in Hj. destruct (Nat.eqb_spec j i) as [->|Hne].
    - rewrite nth_error_upd_eq in Hj by auto. inversion Hj; subst cj. cbn [requireCount]. rewrite (Hc i c Hci). lia.
    - rewrite nth_error_upd_neq in Hj by auto. rewrite (Hc j cj Hj). lia. }
  split; [eapply Ext_counts; eauto|].
  intros j cj Hj Hp. destruct (Nat.eq_dec i j) as [->|Hne].
  - unfold have_of in H2. rewrite Hj in H2. auto.
  - destruct (Ext_computed _ _ _ _ _ _ E2 Hj) as (c1 & Hc1 & A & _ & _ & K). apply K.
    unfold g1 in Hc1; cbn [cells] in Hc1. rewrite nth_error_upd_neq in Hc1 by auto. apply (Hr j c1 Hc1). lia.
Qed.

Lemma step_unrequire x up f g i : QInv x up f g -> i < n ->
  exists g' b, unrequire X V g i = Ok (g', b) /\ QInv x up (fun j => ((if Nat.eqb j i then -1 else 0) + f j)%Z) g' /\
     (b = true <-> (f i <= 0)%Z).
Proof.
  intros (W & Hin & Hc & Hr) Hi. unfold unrequire.
  destruct (rd_Ok (cells g) i) as (c & Hrd & Hci); [rewrite (proj1 W); auto|]. rewrite Hrd; cbn [bind]. unfold set_cell.
  assert (Hil : i < length (cells g)) by (rewrite (proj1 W); auto).
  rewrite wr_Ok by auto. cbn [bind]. eexists _, _. split; [reflexivity|]. split.
  2:{ rewrite (Hc i c Hci). lia. }
  split; [|split; [|split]]; cbn [input]; auto.
  - split; [cbn [cells]; rewrite length_upd; apply W|]. intros j cj Hj Hcj. cbn [cells input] in *.
    destruct (Nat.eq_dec i j) as [->|Hne].
    + rewrite nth_error_upd_eq in Hj by auto. inversion Hj; subst cj. cbn [computed buf] in *. exact (proj2 W j c Hci Hcj).
    + rewrite nth_error_upd_neq in Hj by auto. exact (proj2 W j cj Hj Hcj).
  - intros j cj Hj. cbn [cells] in Hj. destruct (Nat.eqb_spec j i) as [->|Hne].
    + rewrite nth_error_upd_eq in Hj by auto. inversion Hj; subst cj. cbn [requireCount]. rewrite (Hc i c Hci). lia.
    + rewrite nth_error_upd_neq in Hj by auto. rewrite (Hc j cj Hj). lia.
  - intros j cj Hj Hp. cbn [cells] in Hj. destruct (Nat.eq_dec i j) as [->|Hne].
    + rewrite nth_error_upd_eq in Hj by auto. inversion Hj; subst cj. cbn [requireCount computed] in *. apply (Hr j c Hci). lia.
    + rewrite nth_error_upd_neq in Hj by auto. apply (Hr j cj Hj Hp).
Qed.

Lemma step_purge x up f g : QInv x up f g -> QInv x up f (purge X V g).
Proof.
  intros (W & Hin & Hc & Hr). unfold purge. split; [|split; [|split]]; cbn [input]; auto.
  - split; [cbn [cells]; rewrite map_length; apply W|]. intros j cj Hj Hcj. cbn [cells input] in *.
    apply nth_error_map_inv in Hj as (c & Hj & ->). unfold clear_cell in *.
    destruct (clearable c && (requireCount c <=? 0)%Z && hasBuffer c && computed c); [discriminate|]. exact (proj2 W j c Hj Hcj).
  - intros j cj Hj. cbn [cells] in Hj. apply nth_error_map_inv in Hj as (c & Hj & ->). unfold clear_cell.
    destruct (_ && _); cbn [requireCount]; auto.
  - intros j cj Hj Hp. cbn [cells] in Hj. apply nth_error_map_inv in Hj as (c & Hj & ->). unfold clear_cell in *.
    destruct (clearable c && (requireCount c <=? 0)%Z && hasBuffer c && computed c) eqn:E.
    + cbn [requireCount] in Hp. lia.
    + apply (Hr j c Hj Hp).
Qed.

Lemma step_refresh x up f g : QInv x up f g -> exists g', refresh X V deps F g = Ok g' /\ QInv x True f g'.
Proof.
  intros (W & Hin & Hc & Hr). unfold refresh. cbv zeta.
  set (g0 := {| input := input g; cells := map (uncompute V) (cells g) |}).
  assert (W0 : WF True g0).
  { split; [unfold g0; cbn [cells]; rewrite map_length; apply W|]. intros j cj Hj Hcj. unfold g0 in Hj; cbn [cells] in Hj.
    apply nth_error_map_inv in Hj as (c & Hj & ->). discriminate. }
  destruct (refresh_fold True (seq 0 (length (cells g))) g0 W0) as (g' & F' & W' & (l & E) & H').
  { intros j Hj. apply in_seq in Hj. rewrite (proj1 W) in Hj. lia. }
  exists g'. split; auto. split; auto. split; [rewrite (x_input _ _ _ _ E); exact Hin|]. split.
  - eapply Ext_counts; eauto. intros j cj Hj. unfold g0 in Hj; cbn [cells] in Hj. apply nth_error_map_inv in Hj as (c & Hj & ->).
    cbn. auto.
  - intros j cj Hj Hp. eapply H'; eauto. apply in_seq. split; [lia|]. rewrite (proj1 W).
    rewrite <- (proj1 W'). simpl. apply nth_error_Some. congruence.
Qed.

Lemma QInv_ext x up f f' g : (forall j, f j = f' j) -> QInv x up f g -> QInv x up f' g.
Proof. intros H (A & B & C & D). split; [auto|split; [auto|split; auto]]. intros j c Hj. rewrite <- H. auto. Qed.

Lemma run_ok ops : forall x up f g, QInv x up f g -> Forall (q_args_ok X n) ops ->
  exists g', q_run X V deps F ops g = Ok g' /\
    QInv (input_after X x ops) (fold_left (fun b o => match o with SetInput _ => False | Refresh_ => True | _ => b end) ops up)
      (fun j => (f j + outstanding X j ops)%Z) g'.
Proof.
  unfold q_run, input_after. induction ops as [|o ops IH]; intros x up f g I HF.
  - exists g. split; auto. eapply QInv_ext; [|exact I]. simpl; intros; lia.
  - inversion HF as [|? ? Ho HF']; subst. cbn [foldM fold_left]. destruct o as [i|i| | |y]; cbn [q_step q_args_ok outstanding] in *.
    + destruct (step_require x up f g i I Ho) as (g1 & F1 & I1). rewrite F1; cbn [bind].
      destruct (IH _ _ _ _ I1 HF') as (g2 & F2 & I2). exists g2. split; auto. eapply QInv_ext; [|exact I2]. intros; simpl; lia.
    + destruct (step_unrequire x up f g i I Ho) as (g1 & b & F1 & I1 & _). rewrite F1; cbn [bind].
      destruct (IH _ _ _ _ I1 HF') as (g2 & F2 & I2). exists g2. split; auto. eapply QInv_ext; [|exact I2]. intros; simpl; lia.
    + cbn [bind]. apply (IH _ _ _ _ (step_purge x up f g I) HF').
    + destruct (step_refresh x up f g I) as (g1 & F1 & I1). rewrite F1; cbn [bind]. apply (IH _ _ _ _ I1 HF').
    + cbn [bind]. apply (IH y False f _); auto. destruct I as (A & B & C & D).
      split; [|split; [auto|split; auto]]. split; [apply A|]. intros j c Hj Hcj. destruct (proj2 A j c Hj Hcj) as (v & Hv & _).
      exists v. split; auto. tauto.
Qed.

Lemma init_ok x flags : length flags = n -> QInv x True (fun _ => 0%Z) (q_init X V x flags).
Proof.
  intros L. split; [|split; [|split]]; auto.
  - split; [unfold q_init; cbn [cells]; rewrite map_length; auto|]. intros j c Hj Hc. cbn [cells q_init] in Hj.
    apply nth_error_map_inv in Hj as (p & _ & ->). discriminate.
  - intros j c Hj. cbn [cells q_init] in Hj. apply nth_error_map_inv in Hj as (p & _ & ->). reflexivity.
  - intros j c Hj. cbn [cells q_init] in Hj. apply nth_error_map_inv in Hj as (p & _ & ->). cbn. lia.
Qed.
End Proofs.

Section Final.
Variables (X V : Type) (deps : nat -> list nat) (F : nat -> X -> list V -> V).

Lemma required_available n x flags ops :
  acyclic deps n -> length flags = n -> Forall (q_args_ok X n) ops ->
  exists g, q_run X V deps F ops (q_init X V x flags) = Ok g /\ length (cells g) = n /\
    forall i, i < n -> (0 < outstanding X i ops)%Z ->
      exists v, (let* c := rd (cells g) i in Ok (buf c)) = Ok (Some v) /\
        (up_to_date X ops -> IsValue X V deps F (input_after X x ops) i v).
Proof.
  intros (rk & Hrk) HL HF.
  destruct (run_ok X V deps F n rk Hrk ops x True _ _ ltac:(eapply init_ok; eauto) HF) as (g & Hg & W & Hi & Hc & Hr).
  exists g. split; auto. split; [apply W|]. intros i Hin Ho.
  destruct (rd_Ok (cells g) i) as (c & Hrd & Hci); [rewrite (proj1 W); auto|]. rewrite Hrd; cbn [bind].
  destruct (proj2 W i c Hci) as (v & Hv & Hval).
  { apply (Hr i c Hci). rewrite (Hc i c Hci). lia. }
  exists v. rewrite Hv. split; auto. intros U. rewrite <- Hi. apply Hval. exact U.
Qed.

Lemma purge_frees n x flags ops :
  acyclic deps n -> length flags = n -> Forall (q_args_ok X n) ops ->
  exists g, q_run X V deps F ops (q_init X V x flags) = Ok g /\
    forall i c, nth_error (cells g) i = Some c ->
      exists c', nth_error (cells (purge X V g)) i = Some c' /\
       ((0 < outstanding X i ops)%Z -> c' = c) /\
       ((outstanding X i ops <= 0)%Z -> clearable c = true -> hasBuffer c = true -> computed c' = false).
Proof.
  intros (rk & Hrk) HL HF.
  destruct (run_ok X V deps F n rk Hrk ops x True _ _ ltac:(eapply init_ok; eauto) HF) as (g & Hg & W & Hi & Hc & Hr).
  exists g. split; auto. intros i c Hci. unfold purge; cbn [cells]. exists (clear_cell V c).
  split; [apply map_nth_error; auto|]. pose proof (Hc i c Hci) as Hcnt. cbv beta in Hcnt. unfold clear_cell.
  split; intros Ho.
  - destruct (Z.leb_spec (requireCount c) 0); [lia|]. rewrite andb_false_r. reflexivity.
  - intros Hcl Hb. rewrite Hcl, Hb. destruct (Z.leb_spec (requireCount c) 0); [|lia]. simpl. destruct (computed c) eqn:E; auto.
Qed.

Lemma unrequire_throws n x flags ops i :
  acyclic deps n -> length flags = n -> Forall (q_args_ok X n) ops -> i < n ->
  exists g g' b, q_run X V deps F ops (q_init X V x flags) = Ok g /\ unrequire X V g i = Ok (g', b) /\
    (b = true <-> (outstanding X i ops <= 0)%Z).
Proof.
  intros (rk & Hrk) HL HF Hi.
  destruct (run_ok X V deps F n rk Hrk ops x True _ _ ltac:(eapply init_ok; eauto) HF) as (g & Hg & I).
  destruct (step_unrequire X V deps F n rk Hrk _ _ _ g i I Hi) as (g' & b & Hu & _ & Hb).
  exists g, g', b. split; auto.
Qed.

(** quantities are evaluated once, after their dependencies, and only if needed *)
Lemma evaluation_order n g i :
  acyclic deps n -> length (cells g) = n -> i < n ->
  (forall j c, nth_error (cells g) j = Some c -> computed c = true -> buf c <> None) ->
  exists g' log, ensureHave X V deps F (depth X V g) g i = Ok (g', log) /\
    NoDup log /\
    (forall j, In j log <-> Needed deps (have_of X V g) i j) /\
    (forall l1 j l2 d, log = l1 ++ j :: l2 -> In d (deps j) -> have_of X V g d = true \/ In d l1) /\
    have_of X V g' i = true /\
    (forall j, j < n -> (have_of X V g' j = true <-> have_of X V g j = true \/ In j log)) /\
    (forall j, ~ In j log -> nth_error (cells g') j = nth_error (cells g) j).
Proof.
  intros (rk & Hrk) HL Hi HB.
  assert (W : WF X V deps F n False g).
  { split; auto. intros j c Hj Hc. specialize (HB j c Hj Hc). destruct (buf c) as [v|]; [|congruence]. exists v. tauto. }
  destruct (ensure_ok X V deps F n rk Hrk False (depth X V g) g i W Hi ltac:(eapply depth_ok; eauto))
    as (g' & log & He & W' & E & Hh & HN).
  exists g', log. split; auto. split; [apply E|]. split; [|split; [|split; [auto|split]]].
  - intros j; split; [apply HN|]. eapply ensure_exact; eauto. intros; lia.
  - intros l1 j l2 d Hs Hd. eapply x_order; eauto.
  - intros j Hj. eapply have_ext; eauto. lia.
  - intros j Hj. destruct (nth_error (cells g) j) as [c|] eqn:Ec.
    + destruct (x_cells _ _ _ _ _ _ _ _ E j c Ec) as (c' & Hc' & A & B & C & D & K). rewrite Hc'. f_equal. auto.
    + apply nth_error_None in Ec. apply nth_error_None. rewrite (x_len _ _ _ _ _ _ _ _ E). auto.
Qed.
End Final.
