From Coq Require Export Sorted.
From Verif Require Import Base DataModel DataSpec.

(** ** iteration *)
Lemma it_skip_ok okay e : forall fuel i, i <= e -> e - i < fuel ->
  exists j, it_skip fuel okay i e = Ok j /\ i <= j <= e /\ (j < e -> okay j = true) /\
    filter okay (seq i (e - i)) = filter okay (seq j (e - j)).
Proof.
  induction fuel as [|fuel IH]; intros i Hi Hf; [lia|]. cbn [it_skip].
  destruct (Nat.eqb_spec i e) as [->|Hne]; [exists e; repeat split; auto; lia|].
  destruct (okay i) eqn:Eo.
  - exists i. repeat split; auto.
  - destruct (IH (S i)) as (j & Hj & Hr & Hok & Hfl); [lia|lia|].
    exists j. rewrite Hj. split; auto. split; [lia|]. split; auto. rewrite <- Hfl.
    replace (e - i) with (S (e - S i)) by lia. cbn [seq filter]. rewrite Eo. reflexivity.
Qed.

Lemma it_loop_ok okay e : forall fuel i, i <= e -> e - i < fuel -> (i < e -> okay i = true) ->
  it_loop fuel okay i e = Ok (filter okay (seq i (e - i))).
Proof.
  induction fuel as [|fuel IH]; intros i Hi Hf Ho; [lia|]. cbn [it_loop].
  destruct (Nat.eqb_spec i e) as [->|Hne]; [rewrite Nat.sub_diag; reflexivity|].
  unfold it_next. destruct (it_skip_ok okay e (S fuel) (S i)) as (j & Hj & Hr & Hok & Hfl); [lia|lia|].
  rewrite Hj. cbn [bind]. rewrite IH; [|lia|lia|auto]. cbn [bind].
  replace (e - i) with (S (e - S i)) by lia. cbn [seq filter]. rewrite Ho by lia. rewrite Hfl. reflexivity.
Qed.

Lemma iterate_ok okay fill : iterate okay fill = Ok (live_list okay fill).
Proof.
  unfold iterate, it_begin, live_list.
  destruct (Nat.eqb_spec 0 fill) as [<-|Hne]; cbn [negb andb bind].
  - reflexivity.
  - destruct (okay 0) eqn:E0; cbn [negb andb bind].
    + rewrite it_loop_ok; [rewrite Nat.sub_0_r; reflexivity|lia|lia|auto].
    + unfold it_next. destruct (it_skip_ok okay fill (S fill) 1) as (j & Hj & Hr & Hok & Hfl); [lia|lia|].
      rewrite Hj. cbn [bind]. rewrite it_loop_ok; [|lia|lia|auto]. rewrite <- Hfl.
      destruct fill; [lia|]. cbn [seq filter]. rewrite E0. f_equal. f_equal. f_equal. lia.
Qed.

Lemma live_list_In okay fill i : In i (live_list okay fill) <-> i < fill /\ okay i = true.
Proof. unfold live_list. rewrite filter_In, in_seq. intuition lia. Qed.

Lemma filter_NoDup {A} (f : A -> bool) l : NoDup l -> NoDup (filter f l).
Proof.
  induction 1 as [|x l Hx H IH]; simpl; [constructor|]. destruct (f x); auto. constructor; auto.
  rewrite filter_In. tauto.
Qed.

Lemma live_list_NoDup okay fill : NoDup (live_list okay fill).
Proof. apply filter_NoDup, seq_NoDup. Qed.

Lemma seq_sorted a n : forall i j, i < j < n -> nth i (seq a n) 0 < nth j (seq a n) 0.
Proof. intros. rewrite !seq_nth; lia. Qed.

Lemma filter_seq_increasing okay n : forall a, StronglySorted lt (filter okay (seq a n)).
Proof.
  induction n as [|n IH]; intros a; simpl; [constructor|]. destruct (okay a); auto.
  constructor; auto. apply Forall_forall. intros y Hy. apply filter_In in Hy as [Hy _]. apply in_seq in Hy. lia.
Qed.

Lemma iteration_correct okay fill : exists l, iterate okay fill = Ok l /\ StronglySorted lt l /\ NoDup l /\ forall i, In i l <-> i < fill /\ okay i = true.
Proof.
  exists (live_list okay fill). split; [apply iterate_ok|]. split; [apply filter_seq_increasing|].
  split; [apply live_list_NoDup|]. intros; apply live_list_In.
Qed.

(** ** containers *)
Section MD.
Context {T : Type}.

Lemma md_get_ok (m : mdata T) i : i < length (dat m) -> md_get m i = Ok (nth i (dat m) (dflt m)).
Proof. intros. apply rd_nth; auto. Qed.

Lemma md_expand_ok n (m : mdata T) : length (dat m) <= n ->
  exists m', md_expand n m = Ok m' /\ length (dat m') = n /\ dflt m' = dflt m /\
    (forall i, i < length (dat m) -> nth_error (dat m') i = nth_error (dat m) i) /\
    (forall i, length (dat m) <= i -> i < n -> nth_error (dat m') i = Some (dflt m)).
Proof.
  intros H. unfold md_expand. destruct (Nat.leb_spec (length (dat m)) n); [|lia].
  eexists; split; [reflexivity|]. cbn [dat dflt]. rewrite app_length, repeat_length. repeat split; try lia.
  - intros i Hi. apply nth_error_app1; auto.
  - intros i Hi Hi2. rewrite nth_error_app2 by auto. apply nth_error_repeat. lia.
Qed.

Lemma mapM_rd {A} (d : A) (l : list A) idx : (forall i, In i idx -> i < length l) -> mapM (rd l) idx = Ok (map (fun i => nth i l d) idx).
Proof.
  induction idx as [|i idx IH]; intros H; simpl; auto. rewrite (rd_nth l i d) by (apply H; left; auto). cbn [bind].
  rewrite IH by (intros; apply H; right; auto). reflexivity.
Qed.

Lemma md_permute_ok perm (m : mdata T) : (forall i, In i perm -> i < length (dat m)) ->
  exists m', md_permute perm m = Ok m' /\ length (dat m') = length perm /\ dflt m' = dflt m /\
    forall k i, nth_error perm k = Some i -> nth_error (dat m') k = nth_error (dat m) i.
Proof.
  intros H. unfold md_permute. rewrite (mapM_rd (dflt m)) by auto. cbn [bind]. eexists; split; [reflexivity|].
  cbn [dat dflt]. rewrite map_length. repeat split; auto. intros k i Hk. rewrite nth_error_map, Hk. simpl.
  symmetry. apply nth_error_nth'. apply H. eapply nth_error_In; eauto.
Qed.

Definition vals (els : list nat) (m : mdata T) : list T := map (fun i => nth i (dat m) (dflt m)) els.

Lemma md_toVector_ok els (m : mdata T) : (forall i, In i els -> i < length (dat m)) ->
  md_toVector (length els) els m = Ok (vals els m).
Proof.
  intros H. unfold md_toVector. rewrite Nat.eqb_refl. unfold md_get, vals. apply mapM_rd; auto.
Qed.

Lemma md_put_ok (m : mdata T) i v : i < length (dat m) -> md_put m i v = Ok {| dflt := dflt m; dat := upd (dat m) i v |}.
Proof. intros. unfold md_put. rewrite wr_Ok; auto. Qed.

Lemma put_all_ok els : forall v k (m : mdata T), NoDup els -> (forall i, In i els -> i < length (dat m)) ->
  k + length els <= length v ->
  exists m', put_all els v k m = Ok m' /\ length (dat m') = length (dat m) /\ dflt m' = dflt m /\
    (forall j e, nth_error els j = Some e -> nth_error (dat m') e = nth_error v (k + j)) /\
    (forall i, ~ In i els -> nth_error (dat m') i = nth_error (dat m) i).
Proof.
  induction els as [|e els IH]; intros v k m ND HR HL; simpl in *.
  - exists m. repeat split; auto. intros [|j]; discriminate.
  - inversion ND as [|? ? Hni ND']; subst. destruct (rd_Ok v k) as (x & Hx & Hxe); [lia|]. rewrite Hx; cbn [bind].
    rewrite md_put_ok by (apply HR; auto). cbn [bind].
    destruct (IH v (S k) {| dflt := dflt m; dat := upd (dat m) e x |} ND') as (m' & Hm & L & D & V & U).
    { intros i Hi. cbn [dat]. rewrite length_upd. apply HR; auto. }
    { lia. }
    cbn [dat dflt] in *. rewrite length_upd in L. exists m'. repeat split; auto.
    + intros [|j] e' Hj; simpl in Hj.
      * inversion Hj; subst e'. rewrite U by auto. rewrite nth_error_upd_eq by (apply HR; auto). rewrite Nat.add_0_r; auto.
      * rewrite (V j e' Hj). f_equal. lia.
    + intros i Hi. rewrite U by tauto. apply nth_error_upd_neq. intros ->; apply Hi; auto.
Qed.

Lemma fromVector_toVector els (m : mdata T) : NoDup els -> (forall i, In i els -> i < length (dat m)) ->
  exists v, md_toVector (length els) els m = Ok v /\ length v = length els /\
  forall m0 : mdata T, (forall i, In i els -> i < length (dat m0)) ->
    exists m', md_fromVector (length els) els v m0 = Ok m' /\
      (forall i, In i els -> md_get m' i = md_get m i) /\
      (forall i, ~ In i els -> md_get m' i = md_get m0 i).
Proof.
  intros ND HR. exists (vals els m). split; [apply md_toVector_ok; auto|]. split; [apply map_length|].
  intros m0 HR0. unfold md_fromVector. unfold vals at 1. rewrite map_length, Nat.eqb_refl. cbn [guard bind].
  destruct (put_all_ok els (vals els m) 0 m0 ND HR0) as (m' & Hm & L & D & V & U).
  { unfold vals; rewrite map_length; lia. }
  exists m'. split; auto. unfold md_get, rd. split.
  - intros i Hi. apply In_nth_error in Hi as (j & Hj). rewrite (V j i Hj). simpl. unfold vals. rewrite nth_error_map, Hj. simpl.
    rewrite (nth_error_nth' (dat m) (dflt m)); auto. apply HR. eapply nth_error_In; eauto.
  - intros i Hi. rewrite U; auto.
Qed.

End MD.

Lemma nth_error_ext' {A} (l1 l2 : list A) : (forall i, nth_error l1 i = nth_error l2 i) -> l1 = l2.
Proof.
  revert l2; induction l1 as [|a l1 IH]; intros [|b l2] H; auto.
  - specialize (H 0); discriminate.
  - specialize (H 0); discriminate.
  - f_equal; [specialize (H 0); inversion H; auto|]. apply IH. intros i. apply (H (S i)).
Qed.

Section MD2.
Context {T : Type}.
Lemma toVector_fromVector els (m : mdata T) v : NoDup els -> (forall i, In i els -> i < length (dat m)) ->
  length v = length els ->
  exists m', md_fromVector (length els) els v m = Ok m' /\ md_toVector (length els) els m' = Ok v.
Proof.
  intros ND HR HL. unfold md_fromVector. rewrite HL, Nat.eqb_refl. cbn [guard bind].
  destruct (put_all_ok els v 0 m ND HR) as (m' & Hm & L & D & V & U); [lia|].
  exists m'. split; auto. rewrite md_toVector_ok by (intros; rewrite L; auto). f_equal. unfold vals.
  apply nth_error_ext'. intros j. rewrite nth_error_map. destruct (nth_error els j) as [e|] eqn:Ej; simpl.
  - specialize (V j e Ej). cbn [Nat.add] in V. rewrite <- V. symmetry. apply nth_error_nth'. rewrite L. apply HR. eapply nth_error_In; eauto.
  - apply nth_error_None in Ej. symmetry. apply nth_error_None. lia.
Qed.

Lemma fromVector_wrong_size els (m : mdata T) v n : length v <> n -> md_fromVector n els v m = Throw.
Proof. intros H. unfold md_fromVector. destruct (Nat.eqb_spec (length v) n); [contradiction|reflexivity]. Qed.

(** indexed variants *)
Definition keyed (els : list nat) (ind : list (option nat)) : list (nat * nat) :=
  flat_map (fun e => match nth e ind None with Some j => [(e, j)] | None => [] end) els.

Lemma keyed_In els ind e j : In (e, j) (keyed els ind) <-> In e els /\ nth e ind None = Some j.
Proof.
  unfold keyed. rewrite in_flat_map. split.
  - intros (x & Hx & H). destruct (nth x ind None) eqn:E; [|destruct H]. destruct H as [H|[]]. inversion H; subst. auto.
  - intros [H1 H2]. exists e. split; auto. rewrite H2. left; auto.
Qed.

Lemma toVector_ind_size els ind : (forall e, In e els -> e < length ind) -> forall k,
  foldM (fun k e => let* o := rd ind e in Ok (match o with Some _ => S k | None => k end)) els k = Ok (k + length (keyed els ind)).
Proof.
  induction els as [|e els IH]; intros H k; simpl; [f_equal; lia|].
  rewrite (rd_nth ind e None) by (apply H; left; auto). cbn [bind]. rewrite IH by (intros; apply H; right; auto).
  destruct (nth e ind None); simpl; f_equal; lia.
Qed.

Lemma toVector_ind_loop els ind (m : mdata T) : (forall e, In e els -> e < length ind /\ e < length (dat m)) ->
  NoDup (map snd (keyed els ind)) ->
  forall r, (forall e j, In (e, j) (keyed els ind) -> j < length r) ->
  exists r', foldM (fun (r : list (option T)) e =>
           let* o := rd ind e in
           match o with Some j => let* x := md_get m e in wr r j (Some x) | None => Ok r end) els r = Ok r' /\
    length r' = length r /\
    (forall e j, In (e, j) (keyed els ind) -> nth_error r' j = Some (nth_error (dat m) e)) /\
    (forall j, ~ In j (map snd (keyed els ind)) -> nth_error r' j = nth_error r j).
Proof.
  induction els as [|e els IH]; intros H ND r HR; simpl in *.
  - exists r. repeat split; auto. intros ? ? [].
  - destruct (H e (or_introl eq_refl)) as [He1 He2]. rewrite (rd_nth ind e None) by auto. cbn [bind].
    destruct (nth e ind None) as [j0|] eqn:Ej; simpl in *.
    + inversion ND as [|? ? Hni ND']; subst. rewrite md_get_ok by auto. cbn [bind].
      rewrite wr_Ok by (apply (HR e); auto). cbn [bind].
      destruct (IH (fun e' h => H e' (or_intror h)) ND' (upd r j0 (Some (nth e (dat m) (dflt m))))) as (r' & Hr & L & V & U).
      { intros e' j' Hin. rewrite length_upd. apply (HR e'); auto. }
      exists r'. rewrite length_upd in L. repeat split; auto.
      * intros e' j' [Heq|Hin]; [|apply V; auto]. inversion Heq; subst e' j'. rewrite U by auto.
        rewrite nth_error_upd_eq by (apply (HR e); auto). f_equal. symmetry. apply nth_error_nth'; auto.
      * intros j' Hj'. rewrite U by tauto. apply nth_error_upd_neq. intros ->; tauto.
    + destruct (IH (fun e' h => H e' (or_intror h)) ND r HR) as (r' & Hr & L & V & U). exists r'. auto.
Qed.

(** toVector(indexer), when the indexer numbers the kept elements 0..n-1 bijectively *)
Lemma toVector_ind_ok els ind (m : mdata T) : (forall e, In e els -> e < length ind /\ e < length (dat m)) ->
  NoDup (map snd (keyed els ind)) -> (forall e j, In (e, j) (keyed els ind) -> j < length (keyed els ind)) ->
  exists r, md_toVector_ind els ind m = Ok r /\ length r = length (keyed els ind) /\
    forall e j, In e els -> nth e ind None = Some j -> nth_error r j = Some (nth_error (dat m) e).
Proof.
  intros H ND HB. unfold md_toVector_ind. rewrite toVector_ind_size by (intros; apply H; auto). cbn [bind Nat.add].
  destruct (toVector_ind_loop els ind m H ND (repeat None (length (keyed els ind)))) as (r & Hr & L & V & U).
  { intros. rewrite repeat_length. eapply HB; eauto. }
  exists r. rewrite repeat_length in L. repeat split; auto. intros e j He Hj. apply V. apply keyed_In; auto.
Qed.

Lemma fromVector_ind_ok els ind (v : list T) : forall m : mdata T,
  NoDup els -> (forall e, In e els -> e < length ind /\ e < length (dat m)) ->
  (forall e j, In e els -> nth e ind None = Some j -> j < length v) ->
  exists m', md_fromVector_ind els ind v m = Ok m' /\ length (dat m') = length (dat m) /\ dflt m' = dflt m /\
    (forall e j, In e els -> nth e ind None = Some j -> nth_error (dat m') e = nth_error v j) /\
    (forall e, ~ In e els \/ nth e ind None = None -> nth_error (dat m') e = nth_error (dat m) e).
Proof.
  induction els as [|e els IH]; intros m ND H HB; unfold md_fromVector_ind; simpl.
  - exists m. repeat split; auto. intros ? ? [].
  - inversion ND as [|? ? Hni ND']; subst. destruct (H e (or_introl eq_refl)) as [He1 He2].
    rewrite (rd_nth ind e None) by auto. cbn [bind].
    destruct (nth e ind None) as [j0|] eqn:Ej.
    + destruct (rd_Ok v j0) as (x & Hx & Hxe); [apply (HB e); simpl; auto|]. rewrite Hx; cbn [bind].
      rewrite md_put_ok by auto. cbn [bind].
      destruct (IH {| dflt := dflt m; dat := upd (dat m) e x |} ND') as (m' & Hm & L & D & V & U).
      { intros e' He'. cbn [dat]. rewrite length_upd. apply H; right; auto. }
      { intros; eapply HB; eauto; right; auto. }
      unfold md_fromVector_ind in Hm. rewrite Hm. cbn [dat dflt] in *. rewrite length_upd in L.
      exists m'. repeat split; auto.
      * intros e' j' [<-|Hin] Hj'; [|apply V; auto]. rewrite Ej in Hj'. inversion Hj'; subst j'.
        rewrite U by auto. rewrite nth_error_upd_eq by auto. auto.
      * intros e' [Hn|Hn]; [rewrite U by tauto; apply nth_error_upd_neq; intros ->; tauto|].
        rewrite U by auto. apply nth_error_upd_neq. intros ->. congruence.
    + cbn [bind]. destruct (IH m ND') as (m' & Hm & L & D & V & U).
      { intros; apply H; right; auto. }
      { intros; eapply HB; eauto; right; auto. }
      unfold md_fromVector_ind in Hm. rewrite Hm. exists m'. repeat split; auto.
      * intros e' j' [<-|Hin] Hj'; [congruence|apply V; auto].
      * intros e' [Hn|Hn]; apply U; [left; intros Hq; apply Hn; right; exact Hq|right; exact Hn].
Qed.

(** dense indices *)
Lemma indices_loop els cap : forall (m : mdata nat) k, length (dat m) = cap -> NoDup els -> (forall e, In e els -> e < cap) ->
  exists m', foldM (fun (mi : mdata nat * nat) e => let (m, i) := mi in let* m' := md_put m e i in Ok (m', S i)) els (m, k)
     = Ok (m', k + length els) /\ length (dat m') = cap /\
    (forall j e, nth_error els j = Some e -> nth_error (dat m') e = Some (k + j)) /\
    (forall i, ~ In i els -> nth_error (dat m') i = nth_error (dat m) i).
Proof.
  induction els as [|e els IH]; intros m k L ND HR; simpl.
  - exists m. rewrite Nat.add_0_r. repeat split; auto. intros [|j]; discriminate.
  - inversion ND as [|? ? Hni ND']; subst. rewrite md_put_ok by (apply HR; left; auto). cbn [bind].
    destruct (IH {| dflt := dflt m; dat := upd (dat m) e k |} (S k)) as (m' & Hm & L' & V & U); auto.
    { apply length_upd. } { intros; apply HR; right; auto. }
    exists m'. rewrite Hm. split; [f_equal; f_equal; lia|]. split; auto. cbn [dat] in *. split.
    + intros [|j] e' Hj; simpl in Hj.
      * inversion Hj; subst. rewrite U by auto. rewrite nth_error_upd_eq by (apply HR; left; auto). f_equal; lia.
      * rewrite (V j e' Hj). f_equal; lia.
    + intros i Hi. rewrite U by tauto. apply nth_error_upd_neq. intros ->; tauto.
Qed.

Lemma indices_ok cap els : NoDup els -> (forall e, In e els -> e < cap) ->
  exists m, md_indices cap els = Ok m /\ length (dat m) = cap /\
    forall j e, nth_error els j = Some e -> md_get m e = Ok j.
Proof.
  intros ND HR. unfold md_indices. destruct (indices_loop els cap (md_new cap 0) 0) as (m & Hm & L & V & _); auto.
  { unfold md_new; cbn [dat]. apply repeat_length. }
  rewrite Hm. cbn [bind]. exists m. repeat split; auto. intros j e Hj. unfold md_get, rd. rewrite (V j e Hj). reflexivity.
Qed.

(** setDefault *)
Lemma fold_max_ge els : forall a, a <= fold_left Nat.max els a /\ (forall i, In i els -> i <= fold_left Nat.max els a).
Proof.
  induction els as [|e els IH]; intros a; simpl.
  - split; auto. tauto.
  - destruct (IH (Nat.max a e)) as [H1 H2]. split; [lia|]. intros i [<-|Hi]; auto. lia.
Qed.
Lemma fold_max_bound els b : forall a, a <= b -> (forall i, In i els -> i <= b) -> fold_left Nat.max els a <= b.
Proof.
  induction els as [|e els IH]; intros a Ha H; simpl; auto. apply IH; [|intros; apply H; right; auto].
  pose proof (H e (or_introl eq_refl)). lia.
Qed.

Lemma nth_error_firstn {A} (l : list A) n i : i < n -> nth_error (firstn n l) i = nth_error l i.
Proof.
  revert l i; induction n as [|n IH]; intros l i H; [lia|]. destruct l; destruct i; simpl; auto. apply IH; lia.
Qed.

Lemma setDefault_ok els d (m : mdata T) :
  let m' := md_setDefault els d m in
  dflt m' = d /\ length (dat m') = length (dat m) /\
  (forall i, i <= fold_left Nat.max els 0 -> nth_error (dat m') i = nth_error (dat m) i) /\
  (forall i, fold_left Nat.max els 0 < i -> i < length (dat m) -> nth_error (dat m') i = Some d).
Proof.
  unfold md_setDefault. set (k := fold_left Nat.max els 0). cbv zeta. cbn [dflt dat].
  assert (L : length (firstn (S k) (dat m)) = Nat.min (S k) (length (dat m))) by apply firstn_length.
  split; auto. split; [rewrite app_length, repeat_length, L; lia|]. split.
  - intros i Hi. destruct (lt_dec i (length (dat m))) as [Hl|Hl].
    + rewrite nth_error_app1 by lia. apply nth_error_firstn. lia.
    + assert (nth_error (dat m) i = None) as -> by (apply nth_error_None; lia). apply nth_error_None.
      rewrite app_length, repeat_length, L. lia.
  - intros i Hi Hl. rewrite nth_error_app2 by lia. apply nth_error_repeat. lia.
Qed.
End MD2.

(** ** operators *)
Lemma binop_loop {A B C} (op : A -> B -> C) (l : mdata A) (r : mdata B) n : forall k (acc : mdata C),
  k + n <= length (dat l) -> k + n <= length (dat r) -> k + n <= length (dat acc) ->
  exists acc', foldM (fun acc i => let* x := rd (dat l) i in let* y := rd (dat r) i in md_put acc i (op x y)) (seq k n) acc = Ok acc' /\
    length (dat acc') = length (dat acc) /\ dflt acc' = dflt acc /\
    (forall i x y, k <= i < k + n -> nth_error (dat l) i = Some x -> nth_error (dat r) i = Some y ->
        nth_error (dat acc') i = Some (op x y)) /\
    (forall i, ~ (k <= i < k + n) -> nth_error (dat acc') i = nth_error (dat acc) i).
Proof.
  induction n as [|n IH]; intros k acc H1 H2 H3; simpl.
  - exists acc. repeat split; auto. intros; lia.
  - destruct (rd_Ok (dat l) k) as (x & Hx & Ex); [lia|]. rewrite Hx; cbn [bind].
    destruct (rd_Ok (dat r) k) as (y & Hy & Ey); [lia|]. rewrite Hy; cbn [bind].
    rewrite md_put_ok by lia. cbn [bind].
    destruct (IH (S k) {| dflt := dflt acc; dat := upd (dat acc) k (op x y) |}) as (acc' & Ha & L & D & V & U); cbn [dat]; try rewrite length_upd; try lia.
    cbn [dat dflt] in *. rewrite length_upd in L. exists acc'. repeat split; auto.
    + intros i x' y' Hi Hx' Hy'. destruct (Nat.eq_dec k i) as [<-|Hne].
      * rewrite U by lia. rewrite nth_error_upd_eq by lia. congruence.
      * apply V; auto. lia.
    + intros i Hi. rewrite U by lia. apply nth_error_upd_neq. lia.
Qed.

Lemma binop_ok {A B C} (op : A -> B -> C) d cap (l : mdata A) (r : mdata B) :
  length (dat l) = cap -> length (dat r) = cap ->
  exists m, md_binop op d cap l r = Ok m /\ length (dat m) = cap /\
    forall i x y, md_get l i = Ok x -> md_get r i = Ok y -> md_get m i = Ok (op x y).
Proof.
  intros H1 H2. unfold md_binop. destruct (binop_loop op l r (length (dat l)) 0 (md_new cap d)) as (m & Hm & L & D & V & U).
  { lia. } { lia. } { unfold md_new; cbn [dat]. rewrite repeat_length. lia. }
  exists m. split; auto. unfold md_new in L; cbn [dat] in L; rewrite repeat_length in L. split; auto.
  intros i x y Hx Hy. apply rd_Ok_inv in Hx as [Hx Hl]. apply rd_Ok_inv in Hy as [Hy _].
  unfold md_get, rd. rewrite (V i x y); auto. lia.
Qed.

(** a left operand longer than the fresh result writes past its end *)
Lemma foldM_app {A S} (f : S -> A -> res S) l1 l2 s : foldM f (l1 ++ l2) s = let* s' := foldM f l1 s in foldM f l2 s'.
Proof. revert s; induction l1 as [|a l1 IH]; intros s; simpl; auto. destruct (f s a); simpl; auto. Qed.

Lemma binop_overflow {A B C} (op : A -> B -> C) d cap (l : mdata A) (r : mdata B) :
  cap < length (dat l) -> length (dat l) <= length (dat r) -> md_binop op d cap l r = UB.
Proof.
  intros H1 H2. unfold md_binop.
  replace (length (dat l)) with (cap + S (length (dat l) - cap - 1)) by lia.
  rewrite seq_app, foldM_app. cbn [Nat.add].
  destruct (binop_loop op l r cap 0 (md_new cap d)) as (m & Hm & L & _).
  { lia. } { lia. } { unfold md_new; cbn [dat]. rewrite repeat_length. lia. }
  rewrite Hm. cbn [bind seq foldM]. unfold md_new in L; cbn [dat] in L; rewrite repeat_length in L.
  destruct (rd_Ok (dat l) cap) as (x & Hx & _); [lia|]. destruct (rd_Ok (dat r) cap) as (y & Hy & _); [lia|].
  rewrite Hx, Hy. cbn [bind]. unfold md_put, wr. destruct (Nat.ltb_spec cap (length (dat m))); [lia|]. reflexivity.
Qed.

Lemma unop_ok {A C} (op : A -> C) d cap (l : mdata A) : length (dat l) = cap ->
  exists m, md_unop op d cap l = Ok m /\ length (dat m) = cap /\ forall i x, md_get l i = Ok x -> md_get m i = Ok (op x).
Proof.
  intros H. destruct (binop_ok (fun x (_ : A) => op x) d cap l l H H) as (m & Hm & L & V). exists m. split.
  - rewrite <- Hm. unfold md_unop, md_binop. clear Hm. generalize (md_new cap d). generalize (seq 0 (length (dat l))).
    induction l0 as [|i l0 IH]; intros acc; simpl; auto. destruct (rd (dat l) i); cbn [bind]; auto. destruct (md_put acc i (op a)); cbn [bind]; auto.
  - split; auto. intros i x Hx. apply (V i x x); auto.
Qed.

Lemma assignop_loop {A B} (op : A -> B -> A) (r : mdata B) n : forall k (acc : mdata A),
  k + n <= length (dat r) -> k + n <= length (dat acc) ->
  exists acc', foldM (fun acc i => let* x := rd (dat acc) i in let* y := rd (dat r) i in md_put acc i (op x y)) (seq k n) acc = Ok acc' /\
    length (dat acc') = length (dat acc) /\ dflt acc' = dflt acc /\
    (forall i x y, k <= i < k + n -> nth_error (dat acc) i = Some x -> nth_error (dat r) i = Some y ->
        nth_error (dat acc') i = Some (op x y)) /\
    (forall i, ~ (k <= i < k + n) -> nth_error (dat acc') i = nth_error (dat acc) i).
Proof.
  induction n as [|n IH]; intros k acc H2 H3; simpl.
  - exists acc. repeat split; auto. intros; lia.
  - destruct (rd_Ok (dat acc) k) as (x & Hx & Ex); [lia|]. rewrite Hx; cbn [bind].
    destruct (rd_Ok (dat r) k) as (y & Hy & Ey); [lia|]. rewrite Hy; cbn [bind].
    rewrite md_put_ok by lia. cbn [bind].
    destruct (IH (S k) {| dflt := dflt acc; dat := upd (dat acc) k (op x y) |}) as (acc' & Ha & L & D & V & U); cbn [dat]; try rewrite length_upd; try lia.
    cbn [dat dflt] in *. rewrite length_upd in L. exists acc'. repeat split; auto.
    + intros i x' y' Hi Hx' Hy'. destruct (Nat.eq_dec k i) as [<-|Hne].
      * rewrite U by lia. rewrite nth_error_upd_eq by lia. congruence.
      * apply V; auto; [lia|]. rewrite nth_error_upd_neq; auto.
    + intros i Hi. rewrite U by lia. apply nth_error_upd_neq. lia.
Qed.

Lemma assignop_ok {A B} (op : A -> B -> A) (l : mdata A) (r : mdata B) :
  length (dat l) = length (dat r) ->
  exists m, md_assignop op l r = Ok m /\ length (dat m) = length (dat l) /\ dflt m = dflt l /\
    forall i x y, md_get l i = Ok x -> md_get r i = Ok y -> md_get m i = Ok (op x y).
Proof.
  intros H. unfold md_assignop. destruct (assignop_loop op r (length (dat l)) 0 l) as (m & Hm & L & D & V & U); [lia|lia|].
  exists m. repeat split; auto. intros i x y Hx Hy. apply rd_Ok_inv in Hx as [Hx Hl]. apply rd_Ok_inv in Hy as [Hy _].
  unfold md_get, rd. rewrite (V i x y); auto. lia.
Qed.

(** ** point clouds refine tables *)
Section PC.
Context {T : Type}.

Definition col_of (els : list nat) (m : mdata T) : column T := {| cdef := dflt m; cvals := vals els m |}.

Record PInv (c : pcloud T) : Prop := mkPInv {
  pi_len : length (pointValid c) = nPointsCapacityCount c;
  pi_fill : nPointsFillCount c <= nPointsCapacityCount c;
  pi_cap0 : 0 < nPointsCapacityCount c -> 0 < nPointsFillCount c;
  pi_count : nPointsCount c = length (live_list (pc_live c) (nPointsFillCount c));
  pi_dead : forall i, nPointsFillCount c <= i -> pc_live c i = false;
  pi_flag : isCompressedFlag c = true -> nPointsCount c = nPointsFillCount c /\ nPointsFillCount c = nPointsCapacityCount c;
  pi_data : forall m, In m (pdata c) -> length (dat m) = nPointsCapacityCount c /\
     forall i, nPointsFillCount c <= i -> i < nPointsCapacityCount c -> nth_error (dat m) i = Some (dflt m)
}.

Definition els_of (c : pcloud T) := live_list (pc_live c) (nPointsFillCount c).
Definition tab_of (c : pcloud T) : table T := {| rows := nPointsCount c; cols := map (col_of (els_of c)) (pdata c) |}.

Lemma els_bound c : PInv c -> forall i, In i (els_of c) -> i < nPointsCapacityCount c.
Proof. intros I i Hi. apply live_list_In in Hi. pose proof (pi_fill c I). lia. Qed.

Lemma points_ok c : pc_points c = Ok (els_of c).
Proof. apply iterate_ok. Qed.

Lemma view_ok c : PInv c -> pc_view c = Ok (map cvals (cols (tab_of c))).
Proof.
  intros I. unfold pc_view. rewrite points_ok. cbn [bind]. unfold tab_of; cbn [cols]. rewrite map_map. unfold col_of; cbn [cvals].
  pose proof (pi_data c I) as HD. rewrite (pi_count c I). fold (els_of c).
  induction (pdata c) as [|m l IH]; simpl; auto. rewrite md_toVector_ok.
  - cbn [bind]. rewrite IH; [reflexivity|]. intros; apply HD; right; auto.
  - intros i Hi. rewrite (proj1 (HD m (or_introl eq_refl))). apply els_bound; auto.
Qed.

Lemma nth_error_inj_len {A} (l : list A) i x : nth_error l i = Some x -> i < length l.
Proof. intros H. apply nth_error_Some. congruence. Qed.

Lemma mapM_Ok_all {A B} (f : A -> res B) l : (forall a, In a l -> exists b, f a = Ok b) -> exists l', mapM f l = Ok l'.
Proof.
  induction l as [|a l IH]; intros H; simpl; eauto. destruct (H a (or_introl eq_refl)) as (b & ->). cbn [bind].
  destruct IH as (l' & ->); [intros; apply H; right; auto|]. cbn [bind]. eauto.
Qed.

Lemma mapM_map {A B} (f : A -> res B) (g : A -> B) l : (forall a, In a l -> f a = Ok (g a)) -> mapM f l = Ok (map g l).
Proof.
  induction l as [|a l IH]; intros H; simpl; auto. rewrite (H a (or_introl eq_refl)). cbn [bind].
  rewrite IH by (intros; apply H; right; auto). reflexivity.
Qed.

Lemma filter_ext_seq f g n : (forall i, i < n -> f i = g i) -> forall a, a <= n -> filter f (seq a (n - a)) = filter g (seq a (n - a)).
Proof.
  intros H a Ha. apply filter_ext_in. intros i Hi. apply in_seq in Hi. apply H. lia.
Qed.

Lemma live_list_ext f g n : (forall i, i < n -> f i = g i) -> live_list f n = live_list g n.
Proof. intros H. unfold live_list. apply filter_ext_in. intros i Hi. apply in_seq in Hi. apply H. lia. Qed.

Lemma vals_ext els (m m' : mdata T) : (forall i, In i els -> nth_error (dat m') i = nth_error (dat m) i /\ i < length (dat m)) -> vals els m' = vals els m.
Proof.
  intros H. unfold vals. apply map_ext_in. intros i Hi. destruct (H i Hi) as [H1 H2].
  rewrite (nth_error_nth' (dat m) (dflt m) H2) in H1. apply nth_error_nth. auto.
Qed.

Lemma new_ok c : PInv c -> 0 < nPointsCount c ->
  exists c' i, pc_getNewPoint c = Ok (c', i) /\ PInv c' /\ tab_of c' = t_step (tab_of c) PNew.
Proof.
  intros I Hc. unfold pc_getNewPoint.
  assert (Hf : 0 < nPointsFillCount c).
  { rewrite (pi_count c I) in Hc. destruct (live_list (pc_live c) (nPointsFillCount c)) as [|x l] eqn:E; [simpl in Hc; lia|].
    assert (In x (live_list (pc_live c) (nPointsFillCount c))) by (rewrite E; left; auto). apply live_list_In in H. lia. }
  set (f := nPointsFillCount c) in *.
  (* state after the optional growth *)
  assert (G : exists c1, pc_grow c = Ok c1 /\
     length (pointValid c1) = nPointsCapacityCount c1 /\ nPointsFillCount c1 = f /\ f < nPointsCapacityCount c1 /\
     nPointsCount c1 = nPointsCount c /\ (forall i, pc_live c1 i = pc_live c i) /\
     (forall m, In m (pdata c1) -> length (dat m) = nPointsCapacityCount c1 /\
        forall i, f <= i -> i < nPointsCapacityCount c1 -> nth_error (dat m) i = Some (dflt m)) /\
     map (col_of (els_of c)) (pdata c1) = map (col_of (els_of c)) (pdata c)).
  { unfold pc_grow. fold f. destruct (Nat.ltb_spec f (nPointsCapacityCount c)) as [Hlt|Hge].
    - exists c. destruct I. repeat split; auto.
      + apply pi_data0; auto. + apply pi_data0; auto.
    - cbv zeta. assert (Hfc : f = nPointsCapacityCount c) by (pose proof (pi_fill c I); unfold f in *; lia).
      set (nc := nPointsCapacityCount c * 2).
      rewrite (mapM_map _ (fun m => {| dflt := dflt m; dat := dat m ++ repeat (dflt m) (nc - length (dat m)) |})).
      2:{ intros m Hm. unfold md_expand. rewrite (proj1 (pi_data c I m Hm)).
          destruct (Nat.leb_spec (nPointsCapacityCount c) nc); [reflexivity|unfold nc in *; lia]. }
      cbn [bind]. eexists; split; [reflexivity|]. cbn [pointValid nPointsCapacityCount nPointsFillCount nPointsCount pdata].
      split; [rewrite app_length, repeat_length, (pi_len c I); unfold nc; lia|]. split; auto. split; [unfold nc; lia|]. split; auto.
      split; [|split].
      + intros i. unfold pc_live; cbn [pointValid]. destruct (lt_dec i (length (pointValid c))).
        * rewrite app_nth1; auto.
        * rewrite (nth_overflow (pointValid c)) by lia. rewrite app_nth2 by lia. apply nth_repeat.
      + intros m Hm. apply in_map_iff in Hm as (m0 & <- & Hm0). destruct (pi_data c I m0 Hm0) as [L0 D0]. cbn [dat dflt].
        split; [rewrite app_length, repeat_length; unfold nc; lia|]. intros i Hi1 Hi2.
        rewrite nth_error_app2 by lia. apply nth_error_repeat. lia.
      + rewrite map_map. apply map_ext_in. intros m Hm. destruct (pi_data c I m Hm) as [L0 D0].
        unfold col_of; cbn [dflt]. f_equal. apply vals_ext. intros i Hi. cbn [dat].
        assert (i < length (dat m)) by (rewrite L0; apply els_bound; auto). split; auto. apply nth_error_app1; auto. }
  destruct G as (c1 & -> & L1 & F1 & Hlt & N1 & Lv & D1 & C1). cbn [bind].
  rewrite wr_Ok by lia. cbn [bind]. eexists _, _. split; [reflexivity|].
  match goal with |- PInv ?C /\ _ => set (c2 := C) end.
  assert (Lv2 : forall i, pc_live c2 i = if Nat.eqb i f then true else pc_live c i).
  { intros i. unfold c2, pc_live at 1; cbn [pointValid]. rewrite F1, nth_upd.
    destruct (Nat.eqb_spec f i) as [->|Hne].
    - rewrite Nat.eqb_refl. destruct (Nat.ltb_spec i (length (pointValid c1))); auto. lia.
    - cbn [andb]. destruct (Nat.eqb_spec i f); [congruence|]. apply Lv. }
  assert (Els : els_of c2 = els_of c ++ [f]).
  { unfold els_of, live_list. unfold c2 at 2; cbn [nPointsFillCount]. rewrite F1.
    replace (S f) with (f + 1) by lia. rewrite seq_app, filter_app. cbn [Nat.add seq filter]. rewrite Lv2, Nat.eqb_refl.
    f_equal. apply filter_ext_in. intros i Hi. apply in_seq in Hi. rewrite Lv2. destruct (Nat.eqb_spec i f); [unfold f in *; lia|auto]. }
  split.
  - constructor; unfold c2; cbn [pointValid nPointsCapacityCount nPointsFillCount nPointsCount pdata isCompressedFlag]; fold c2; try lia.
    + rewrite length_upd; auto.
    + change (S (nPointsCount c1) = length (live_list (pc_live c2) (S (nPointsFillCount c1)))).
      transitivity (length (els_of c2)); [|unfold els_of, c2; reflexivity].
      rewrite Els, app_length. cbn. rewrite N1, (pi_count c I). unfold els_of. fold f. lia.
    + intros i Hi. change (pc_live c2 i = false). rewrite Lv2. destruct (Nat.eqb_spec i f); [lia|]. apply (pi_dead c I). fold f. lia.
    + intros m Hm. destruct (D1 m Hm) as [A B]. split; auto. intros i Hi. apply B. lia.
  - unfold tab_of, t_step. cbn [rows cols]. rewrite Els. unfold c2; cbn [nPointsCount pdata]. rewrite N1. f_equal.
    rewrite <- C1, map_map. apply map_ext_in. intros m Hm. unfold col_of; cbn [cdef cvals]. f_equal.
    unfold vals. rewrite map_app. f_equal. simpl. f_equal. destruct (D1 m Hm) as [A B]. apply nth_error_nth. apply B; lia.
Qed.

Lemma remove_nth_app {A} (l1 l2 : list A) x : remove_nth (length l1) (l1 ++ x :: l2) = l1 ++ l2.
Proof. induction l1; simpl; f_equal; auto. Qed.
Lemma map_remove_nth {A B} (f : A -> B) r l : map f (remove_nth r l) = remove_nth r (map f l).
Proof. revert r; induction l; intros [|r]; simpl; f_equal; auto. Qed.

Lemma filter_remove l x : NoDup l -> forall r, nth_error l r = Some x -> filter (fun y => negb (Nat.eqb y x)) l = remove_nth r l.
Proof.
  induction l as [|y l IH]; intros ND [|r] H; simpl in *; try discriminate.
  - inversion H; subst. rewrite Nat.eqb_refl. cbn [negb]. inversion ND; subst.
    clear - H2. induction l as [|z l IH]; simpl; auto. destruct (Nat.eqb_spec z x) as [->|E]; [exfalso; apply H2; left; auto|].
    cbn [negb]. f_equal. apply IH. intros H; apply H2; right; auto.
  - inversion ND; subst. destruct (Nat.eqb_spec y x) as [->|E]; [exfalso; apply H2; eapply nth_error_In; eauto|].
    cbn [negb]. f_equal. apply IH; auto.
Qed.

Lemma filter_filter {A} (f g : A -> bool) l : filter f (filter g l) = filter (fun x => g x && f x) l.
Proof. induction l as [|x l IH]; simpl; auto. destruct (g x); simpl; [destruct (f x)|]; rewrite ?IH; auto. Qed.

Lemma length_remove_nth {A} r (l : list A) : r < length l -> length (remove_nth r l) = length l - 1.
Proof. revert r; induction l as [|x l IH]; intros [|r] H; simpl in *; try lia. rewrite IH; lia. Qed.

Lemma delete_ok c r : PInv c -> r < nPointsCount c ->
  exists c', (let* els := pc_points c in let* i := rd els r in pc_delete c i) = Ok c' /\ PInv c' /\
     tab_of c' = t_step (tab_of c) (PDelete r).
Proof.
  intros I Hr. rewrite points_ok. cbn [bind].
  destruct (rd_Ok (els_of c) r) as (i & Hi & Ei). { unfold els_of. rewrite <- (pi_count c I). auto. }
  rewrite Hi; cbn [bind]. unfold pc_delete.
  assert (Hil : i < nPointsFillCount c /\ pc_live c i = true) by (apply live_list_In; eapply nth_error_In; eauto).
  pose proof (pi_fill c I). rewrite wr_Ok by (rewrite (pi_len c I); lia). cbn [bind].
  eexists; split; [reflexivity|]. match goal with |- PInv ?C /\ _ => set (c2 := C) end.
  assert (Lv : forall j, pc_live c2 j = pc_live c j && negb (Nat.eqb j i)).
  { intros j. unfold c2, pc_live; cbn [pointValid]. rewrite nth_upd.
    destruct (Nat.eqb_spec i j) as [->|Hne].
    - rewrite Nat.eqb_refl. destruct (Nat.ltb_spec j (length (pointValid c))); [rewrite andb_false_r; auto|]. rewrite (pi_len c I) in *; lia.
    - cbn [andb]. destruct (Nat.eqb_spec j i); [congruence|]. cbn [negb]. rewrite andb_true_r. auto. }
  assert (Els : els_of c2 = remove_nth r (els_of c)).
  { rewrite <- (filter_remove _ i); [|apply live_list_NoDup|auto]. unfold els_of, live_list. rewrite filter_filter.
    unfold c2 at 2; cbn [nPointsFillCount]. apply filter_ext. intros j. apply Lv. }
  assert (Lr : length (els_of c2) = nPointsCount c - 1).
  { rewrite Els, length_remove_nth; rewrite (pi_count c I) in *; auto. }
  split.
  - constructor; unfold c2; cbn [pointValid nPointsCapacityCount nPointsFillCount nPointsCount pdata isCompressedFlag]; fold c2; try apply I.
    + rewrite length_upd. apply I.
    + symmetry. exact Lr.
    + intros j Hj. change (pc_live c2 j = false). rewrite Lv, (pi_dead c I j Hj). auto.
    + discriminate.
  - unfold tab_of, t_step. cbn [rows cols]. rewrite Els. unfold c2; cbn [nPointsCount pdata]. f_equal.
    rewrite map_map. apply map_ext. intros m. unfold col_of; cbn [cdef cvals]. f_equal. unfold vals. apply map_remove_nth.
Qed.

Lemma filter_length_all (f : nat -> bool) l : length (filter f l) = length l -> filter f l = l.
Proof.
  induction l as [|x l IH]; simpl; auto. destruct (f x) eqn:E; simpl; intros H; [f_equal; apply IH; lia|].
  exfalso. assert (length (filter f l) <= length l) by (clear; induction l as [|x l IH]; simpl; auto; destruct (f x); simpl; lia). lia.
Qed.

Lemma compress_ok c : PInv c -> exists c', pc_compress c = Ok c' /\ PInv c' /\ tab_of c' = tab_of c /\
   nPointsCapacityCount c' = nPointsCount c' /\ els_of c' = seq 0 (nPointsCount c').
Proof.
  intros I. unfold pc_compress. destruct (isCompressedFlag c) eqn:Ef.
  - exists c. destruct (pi_flag c I Ef) as [A B]. split; [reflexivity|]. split; [exact I|]. split; [reflexivity|]. split; [lia|].
    unfold els_of. assert (K := pi_count c I). rewrite A in *. rewrite <- (seq_length (nPointsFillCount c) 0) in K at 1.
    symmetry in K. apply filter_length_all in K. exact K.
  - cbv zeta. fold (els_of c). change (filter (pc_live c) (seq 0 (nPointsFillCount c))) with (els_of c).
    assert (Hb : forall i, In i (els_of c) -> i < nPointsCapacityCount c) by (apply els_bound; auto).
    rewrite (mapM_rd false) by (intros; rewrite (pi_len c I); auto). cbn [bind].
    rewrite (mapM_map _ (fun m => {| dflt := dflt m; dat := vals (els_of c) m |})).
    2:{ intros m Hm. unfold md_permute. rewrite (mapM_rd (dflt m)); [reflexivity|]. intros i Hi. rewrite (proj1 (pi_data c I m Hm)). auto. }
    cbn [bind]. eexists; split; [reflexivity|]. match goal with |- PInv ?C /\ _ => set (c2 := C) end.
    assert (Lv : forall i, pc_live c2 i = Nat.ltb i (nPointsCount c)).
    { intros i. unfold c2, pc_live; cbn [pointValid]. rewrite (pi_count c I).
      destruct (Nat.ltb_spec i (length (live_list (pc_live c) (nPointsFillCount c)))) as [H|H].
      - destruct (rd_Ok (els_of c) i H) as (j & _ & Hj).
        erewrite nth_error_nth; [|rewrite nth_error_map, Hj; simpl; reflexivity].
        assert (In j (els_of c)) by (eapply nth_error_In; eauto). apply live_list_In in H0. apply H0.
      - apply nth_overflow. rewrite map_length. auto. }
    assert (Els : els_of c2 = seq 0 (nPointsCount c)).
    { unfold els_of, live_list. unfold c2 at 2; cbn [nPointsFillCount].
      transitivity (filter (fun _ => true) (seq 0 (nPointsCount c))).
      - apply filter_ext_in. intros i Hi. apply in_seq in Hi. rewrite Lv. destruct (Nat.ltb_spec i (nPointsCount c)); auto; lia.
      - clear. induction (seq 0 (nPointsCount c)); simpl; congruence. }
    split; [|split; [|split; [reflexivity|exact Els]]].
    + constructor; unfold c2; cbn [pointValid nPointsCapacityCount nPointsFillCount nPointsCount pdata isCompressedFlag]; fold c2; auto.
      * rewrite map_length. symmetry. apply (pi_count c I).
      * change (nPointsCount c = length (els_of c2)). rewrite Els, seq_length. reflexivity.
      * intros i Hi. change (pc_live c2 i = false). rewrite Lv. destruct (Nat.ltb_spec i (nPointsCount c)); auto; lia.
      * intros m Hm. apply in_map_iff in Hm as (m0 & <- & Hm0). cbn [dat dflt]. split; [|intros; lia].
        unfold vals. rewrite map_length. symmetry. apply (pi_count c I).
    + unfold tab_of. rewrite Els. unfold c2; cbn [nPointsCount pdata]. f_equal. rewrite map_map. apply map_ext. intros m.
      unfold col_of; cbn [dflt]. f_equal. unfold vals at 1; cbn [dat dflt].
      apply nth_error_ext'. intros k. rewrite nth_error_map.
      destruct (lt_dec k (nPointsCount c)) as [Hk|Hk].
      * rewrite (nth_error_nth' (seq 0 _) 0) by (rewrite seq_length; auto). rewrite seq_nth by auto. simpl.
        symmetry. apply nth_error_nth'. unfold vals. rewrite map_length. rewrite (pi_count c I) in Hk. exact Hk.
      * assert (nth_error (seq 0 (nPointsCount c)) k = None) as -> by (apply nth_error_None; rewrite seq_length; lia). simpl.
        symmetry. apply nth_error_None. unfold vals. rewrite map_length. rewrite (pi_count c I) in Hk. unfold els_of. lia.
Qed.

Lemma addData_ok c d : PInv c -> PInv (pc_addData c d) /\ tab_of (pc_addData c d) = t_step (tab_of c) (PAddData d).
Proof.
  intros I. split.
  - destruct I. constructor; cbn [pc_addData pointValid nPointsCapacityCount nPointsFillCount nPointsCount pdata isCompressedFlag]; auto.
    intros m Hm. apply in_app_iff in Hm as [Hm|[<-|[]]]; auto. unfold md_new; cbn [dat dflt]. rewrite repeat_length. split; auto.
    intros i _ Hi. apply nth_error_repeat; auto.
  - unfold tab_of, t_step. cbn [pc_addData nPointsCount pdata rows cols]. f_equal. rewrite map_app. f_equal. simpl. f_equal.
    unfold col_of, md_new; cbn [dflt]. f_equal. unfold vals; cbn [dat dflt].
    rewrite (pi_count c I). change (els_of (pc_addData c d)) with (els_of c). fold (els_of c).
    apply nth_error_ext'. intros k. rewrite nth_error_map. destruct (nth_error (els_of c) k) eqn:E; simpl.
    + rewrite nth_repeat. symmetry. apply nth_error_repeat. eapply nth_error_inj_len; eauto.
    + symmetry. apply nth_error_None. rewrite repeat_length. apply nth_error_None in E. auto.
Qed.

Lemma map_upd {A B} (f : A -> B) l k x : map f (upd l k x) = upd (map f l) k (f x).
Proof. revert k; induction l; intros [|k]; simpl; f_equal; auto. Qed.

Lemma In_upd {A} (l : list A) k x y : In y (upd l k x) -> y = x \/ In y l.
Proof. revert k; induction l as [|a l IH]; intros [|k]; simpl; try tauto. - intuition. - intros [<-|H]; auto. destruct (IH k H); auto. Qed.

Lemma vals_put els (m : mdata T) r i v : NoDup els -> nth_error els r = Some i -> i < length (dat m) ->
  vals els {| dflt := dflt m; dat := upd (dat m) i v |} = upd (vals els m) r v.
Proof.
  intros ND Hr Hi. apply nth_error_ext'. intros k. unfold vals at 1. rewrite nth_error_map. cbn [dat dflt].
  destruct (Nat.eq_dec r k) as [<-|Hne].
  - rewrite Hr. simpl. rewrite nth_upd_eq by auto. symmetry. apply nth_error_upd_eq. unfold vals. rewrite map_length. eapply nth_error_inj_len; eauto.
  - rewrite nth_error_upd_neq by auto. unfold vals. rewrite nth_error_map. destruct (nth_error els k) as [j|] eqn:Ek; simpl; auto.
    f_equal. apply nth_upd_neq. intros ->. apply Hne.
    eapply (proj1 (NoDup_nth_error els) ND); [eapply nth_error_inj_len; eauto|congruence].
Qed.

Lemma setData_ok c k r v : PInv c -> k < length (pdata c) -> r < nPointsCount c ->
  exists c', (let* els := pc_points c in let* i := rd els r in pc_setData c k i v) = Ok c' /\ PInv c' /\
     tab_of c' = t_step (tab_of c) (PSetData k r v).
Proof.
  intros I Hk Hr. rewrite points_ok. cbn [bind].
  destruct (rd_Ok (els_of c) r) as (i & Hi & Ei). { unfold els_of. rewrite <- (pi_count c I). auto. }
  rewrite Hi; cbn [bind]. unfold pc_setData.
  assert (Hil : i < nPointsFillCount c /\ pc_live c i = true) by (apply live_list_In; eapply nth_error_In; eauto).
  pose proof (pi_fill c I).
  destruct (rd_Ok (pdata c) k Hk) as (m & Hm & Em). rewrite Hm; cbn [bind].
  destruct (pi_data c I m (nth_error_In _ _ Em)) as [Lm Dm].
  rewrite md_put_ok by lia. cbn [bind]. rewrite wr_Ok by auto. cbn [bind].
  eexists; split; [reflexivity|]. match goal with |- PInv ?C /\ _ => set (c2 := C) end. split.
  - destruct I. constructor; unfold c2; cbn [pointValid nPointsCapacityCount nPointsFillCount nPointsCount pdata isCompressedFlag]; auto.
    intros m' Hm'. apply In_upd in Hm' as [->|Hm']; auto. cbn [dat dflt]. rewrite length_upd. split; auto.
    intros j Hj1 Hj2. rewrite nth_error_upd_neq by lia. auto.
  - unfold tab_of, t_step. cbn [rows cols]. change (els_of c2) with (els_of c). unfold c2; cbn [nPointsCount pdata]. f_equal.
    unfold upd_col. rewrite nth_error_map, Em. simpl. rewrite map_upd. f_equal. unfold col_of; cbn [cdef cvals dflt]. f_equal.
    apply vals_put; auto. apply live_list_NoDup. lia.
Qed.

Lemma setDefault_step c k d : PInv c -> k < length (pdata c) ->
  exists c', pc_setDefault c k d = Ok c' /\ PInv c' /\ tab_of c' = t_step (tab_of c) (PSetDefault k d).
Proof.
  intros I Hk. unfold pc_setDefault. rewrite points_ok. cbn [bind].
  destruct (rd_Ok (pdata c) k Hk) as (m & Hm & Em). rewrite Hm; cbn [bind].
  destruct (pi_data c I m (nth_error_In _ _ Em)) as [Lm Dm].
  rewrite wr_Ok by auto. cbn [bind].
  destruct (setDefault_ok (els_of c) d m) as (A & B & C & D). pose proof (fold_max_ge (els_of c) 0) as [_ M].
  eexists; split; [reflexivity|]. match goal with |- PInv ?C /\ _ => set (c2 := C) end. split.
  - assert (Hmax : forall i, nPointsFillCount c <= i -> i < nPointsCapacityCount c -> fold_left Nat.max (els_of c) 0 < i).
    { intros i Hi Hc. pose proof (pi_cap0 c I ltac:(lia)).
      assert (fold_left Nat.max (els_of c) 0 <= nPointsFillCount c - 1); [|lia].
      apply fold_max_bound; [lia|]. intros j Hj. apply live_list_In in Hj. lia. }
    destruct I. constructor; unfold c2; cbn [pointValid nPointsCapacityCount nPointsFillCount nPointsCount pdata isCompressedFlag]; auto.
    intros m' Hm'. apply In_upd in Hm' as [->|Hm']; auto. split; [lia|]. intros i Hi1 Hi2. rewrite A. apply D; [auto|lia].
  - unfold tab_of, t_step. cbn [rows cols]. change (els_of c2) with (els_of c). unfold c2; cbn [nPointsCount pdata]. f_equal.
    unfold upd_col. rewrite nth_error_map, Em. simpl. rewrite map_upd. f_equal. unfold col_of; cbn [cdef cvals]. rewrite A. f_equal.
    apply vals_ext. intros i Hi. split; [apply C; auto|]. rewrite Lm. apply els_bound; auto.
Qed.

Lemma step_ok c o : PInv c -> t_args_ok (tab_of c) o -> exists c', pc_step c o = Ok c' /\ PInv c' /\ tab_of c' = t_step (tab_of c) o.
Proof.
  intros I Ho. destruct o as [|r| |d|k r v|k d]; cbn [pc_step t_args_ok] in *; unfold tab_of in Ho; cbn [rows cols] in Ho; rewrite ?map_length in Ho.
  - destruct (new_ok c I Ho) as (c' & i & -> & H). cbn [bind]. eauto.
  - apply delete_ok; auto.
  - destruct (compress_ok c I) as (c' & H1 & H2 & H3 & _). eauto.
  - exists (pc_addData c d). split; auto. apply addData_ok; auto.
  - destruct Ho. apply setData_ok; auto.
  - apply setDefault_step; auto.
Qed.

Lemma init_PInv n : PInv (pc_new n).
Proof.
  assert (E : forall i, @pc_live T (pc_new n) i = Nat.ltb i n).
  { intros i. unfold pc_live, pc_new; cbn [pointValid]. destruct (Nat.ltb_spec i n).
    - apply nth_error_nth. apply nth_error_repeat; auto.
    - apply nth_overflow. rewrite repeat_length; auto. }
  constructor; unfold pc_new; cbn [pointValid nPointsCapacityCount nPointsFillCount nPointsCount pdata isCompressedFlag]; auto.
  - apply repeat_length.
  - fold (@pc_new T n). unfold live_list. transitivity (length (filter (fun _ => true) (seq 0 n))).
    + replace (filter (fun _ => true) (seq 0 n)) with (seq 0 n); [rewrite seq_length; auto|].
      clear. induction (seq 0 n); simpl; congruence.
    + f_equal. apply filter_ext_in. intros i Hi. apply in_seq in Hi. fold (@pc_new T n). symmetry.
      transitivity (Nat.ltb i n); [apply E|]. destruct (Nat.ltb_spec i n); auto; lia.
  - intros i Hi. transitivity (Nat.ltb i n); [apply E|]. destruct (Nat.ltb_spec i n); auto; lia.
  - intros m [].
Qed.

Lemma run_table : forall ops c, PInv c -> t_history_ok (tab_of c) ops ->
  exists c', pc_run ops c = Ok c' /\ PInv c' /\ tab_of c' = t_run ops (tab_of c).
Proof.
  unfold pc_run, t_run. induction ops as [|o ops IH]; intros c I H; simpl in *; eauto.
  destruct H as [Ho H]. destruct (step_ok c o I Ho) as (c1 & -> & I1 & T1). cbn [bind].
  rewrite <- T1 in *. apply IH; auto.
Qed.

Lemma pointcloud_refines n (ops : list (pc_op T)) :
  t_history_ok {| rows := n; cols := [] |} ops ->
  exists c, pc_run ops (pc_new n) = Ok c /\
    (let t := t_run ops {| rows := n; cols := [] |} in
     nPointsCount c = rows t /\ pc_view c = Ok (map cvals (cols t)) /\
     exists els, pc_points c = Ok els /\ length els = rows t /\ NoDup els /\ (forall i, In i els <-> i < nPointsFillCount c /\ pc_live c i = true)).
Proof.
  intros H. destruct (run_table ops (pc_new n) (init_PInv n) H) as (c & Hr & I & Ht).
  exists c. split; auto. cbv zeta. change (tab_of (pc_new n)) with {| rows := n; cols := @nil (column T) |} in Ht. rewrite <- Ht. split; [reflexivity|].
  split; [apply view_ok; auto|]. exists (els_of c). split; [apply points_ok|]. split; [symmetry; apply (pi_count c I)|].
  split; [apply live_list_NoDup|]. intros i. apply live_list_In.
Qed.

Lemma pointcloud_compress n (ops : list (pc_op T)) :
  t_history_ok {| rows := n; cols := [] |} ops ->
  exists c c', pc_run ops (pc_new n) = Ok c /\ pc_compress c = Ok c' /\ pc_view c' = pc_view c /\
    nPointsCount c' = nPointsCount c /\ nPointsCapacityCount c' = nPointsCount c' /\
    pc_points c' = Ok (seq 0 (nPointsCount c')).
Proof.
  intros H. destruct (run_table ops (pc_new n) (init_PInv n) H) as (c & Hr & I & Ht).
  destruct (compress_ok c I) as (c' & Hc & I' & Ht' & Hcap & Hels).
  exists c, c'. split; auto. split; auto. split; [rewrite !view_ok by auto; congruence|].
  split; [change (rows (tab_of c') = rows (tab_of c)); congruence|]. split; auto. rewrite points_ok, Hels. reflexivity.
Qed.

(** containers registered with a reachable cloud have the size arithmetic expects *)
Lemma pointcloud_sizes n (ops : list (pc_op T)) :
  t_history_ok {| rows := n; cols := [] |} ops ->
  exists c, pc_run ops (pc_new n) = Ok c /\ forall m, In m (pdata c) -> length (dat m) = nPointsCapacityCount c.
Proof.
  intros H. destruct (run_table ops (pc_new n) (init_PInv n) H) as (c & Hr & I & Ht). exists c. split; auto. intros m Hm. apply (pi_data c I m Hm).
Qed.
End PC.

Lemma pointcloud_arith {T} (op : T -> T -> T) (d : T) n (ops : list (pc_op T)) :
  t_history_ok {| rows := n; cols := [] |} ops ->
  exists c, pc_run ops (pc_new n) = Ok c /\ forall l r, In l (pdata c) -> In r (pdata c) ->
    exists m, md_binop op d (nPointsCapacityCount c) l r = Ok m /\
      exists els, pc_points c = Ok els /\ forall i, In i els -> exists x y, md_get l i = Ok x /\ md_get r i = Ok y /\ md_get m i = Ok (op x y).
Proof.
  intros H. destruct (run_table ops (pc_new n) (init_PInv n) H) as (c & Hr & I & Ht). exists c. split; auto. intros l r Hl Hr'.
  destruct (pi_data c I l Hl) as [L1 _]. destruct (pi_data c I r Hr') as [L2 _].
  destruct (binop_ok op d (nPointsCapacityCount c) l r L1 L2) as (m & Hm & Lm & V). exists m. split; auto.
  exists (els_of c). split; [apply points_ok|]. intros i Hi. apply els_bound in Hi; auto.
  eexists _, _. split; [apply md_get_ok; lia|]. split; [apply md_get_ok; lia|]. apply V; apply md_get_ok; lia.
Qed.

Lemma setDefault_no_element : exists (m : mdata nat) d,
  dat m = repeat (dflt m) 4 /\ md_get (md_setDefault [] d m) 0 <> Ok d.
Proof. exists {| dflt := 1; dat := [1; 1; 1; 1] |}, 5. split; [reflexivity|vm_compute; discriminate]. Qed.
