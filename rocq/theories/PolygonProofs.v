From Verif Require Import Base PolygonModel PolygonSpec.
From Coq Require Import Permutation Sorted.

(** ** generic lemmas *)
Lemma foldM_app {A S} (f : S -> A -> res S) l1 l2 s : foldM f (l1 ++ l2) s = bind (foldM f l1 s) (foldM f l2).
Proof. revert s; induction l1; simpl; intros; auto. destruct (f s a); simpl; auto. Qed.

Lemma mapM_ok {A B} (f : A -> res B) (g : A -> B) l : (forall x, In x l -> f x = Ok (g x)) -> mapM f l = Ok (map g l).
Proof.
  induction l; simpl; intros H; auto. rewrite H by auto. simpl. rewrite IHl by auto. auto.
Qed.

Lemma F2_mapM {A B} (f : A -> res B) l l' : Forall2 (fun a b => f a = Ok b) l l' -> mapM f l = Ok l'.
Proof. induction 1; simpl; auto. rewrite H. simpl. rewrite IHForall2. auto. Qed.

Lemma F2_build {A B} (R : A -> B -> Prop) l : (forall x, In x l -> exists y, R x y) -> exists l', Forall2 R l l'.
Proof.
  induction l; intros H. exists []; constructor.
  destruct (H a) as [y Hy]; simpl; auto. destruct IHl as [l' Hl]; simpl in *; auto. exists (y :: l'). constructor; auto.
Qed.

Lemma F2_impl {A B} (R R' : A -> B -> Prop) l l' : (forall x y, In x l -> In y l' -> R x y -> R' x y) -> Forall2 R l l' -> Forall2 R' l l'.
Proof. intros H F; induction F; constructor; simpl in *; auto. Qed.

Lemma Forall2_length {A B} (R : A -> B -> Prop) l l' : Forall2 R l l' -> length l = length l'.
Proof. induction 1; simpl; auto. Qed.

Lemma SSorted_snoc ks n : StronglySorted lt ks -> (forall k, In k ks -> k < n) -> StronglySorted lt (ks ++ [n]).
Proof.
  induction 1; simpl; intros L. repeat constructor.
  constructor. apply IHStronglySorted; auto. apply Forall_app. split; auto.
Qed.

Lemma picks_snoc {A} ks (l l' : list A) k x : picks ks l l' -> nth_error l k = Some x -> picks (ks ++ [k]) l (l' ++ [x]).
Proof. intros. apply Forall2_app; auto. Qed.

Lemma picks_ext {A} ks (l l' : list A) y : picks ks l l' -> picks ks (l ++ [y]) l'.
Proof.
  intros. eapply F2_impl; [|exact H]. intros k x _ _ E. cbn. rewrite nth_error_app1; auto.
  apply nth_error_Some. congruence.
Qed.

Lemma nth_error_snoc {A} (l : list A) x : nth_error (l ++ [x]) (length l) = Some x.
Proof. rewrite nth_error_app2, Nat.sub_diag by lia. auto. Qed.

Lemma nth_error_snoc_inv {A} (l : list A) x i y : nth_error (l ++ [x]) i = Some y -> nth_error l i = Some y \/ (i = length l /\ y = x).
Proof.
  intros H. destruct (lt_dec i (length l)).
  - rewrite nth_error_app1 in H; auto.
  - rewrite nth_error_app2 in H by lia. destruct (i - length l) eqn:E; simpl in H.
    + right. split. lia. congruence.
    + destruct n0; discriminate.
Qed.

Lemma nth_error_lt {A} (l : list A) i y : nth_error l i = Some y -> i < length l.
Proof. intros. apply nth_error_Some. congruence. Qed.

Lemma nth_error_app_some {A} (l l2 : list A) i y : nth_error l i = Some y -> nth_error (l ++ l2) i = Some y.
Proof. intros. rewrite nth_error_app1; auto. eapply nth_error_lt; eauto. Qed.

(** ** mergeIdenticalVertices *)
Section Merge.
Context {P U : Type} (eqb : P -> P -> bool).
Hypothesis eqb_sym : forall x y, eqb x y = true -> eqb y x = true.
Hypothesis eqb_trans : forall x y z, eqb x y = true -> eqb y z = true -> eqb x z = true.

Definition MInv (l : list P) (st : list P * list nat * list (P * nat)) : Prop :=
  let '(cp, cv, canon) := st in
  length cv = length l
  /\ (forall v i, In (v, i) canon -> nth_error cp i = Some v)
  /\ (forall v i, nth_error cp i = Some v -> In (v, i) canon)
  /\ (forall k v, nth_error l k = Some v -> exists c p, nth_error cv k = Some c /\ nth_error cp c = Some p /\ (p = v \/ eqb p v = true))
  /\ (forall i j p q, nth_error cp i = Some p -> nth_error cp j = Some q -> i <> j -> eqb p q = false)
  /\ exists ks, increasing ks /\ picks ks l cp
       /\ (forall k v, nth_error l k = Some v -> (In k ks <-> forall j w, j < k -> nth_error l j = Some w -> eqb w v = false)).

Lemma merge_inv l : MInv l (fold_left (merge_step eqb) l ([], [], [])).
Proof.
  induction l as [|v l IH] using rev_ind.
  - simpl. repeat split; auto; try (intros; now destruct i); try easy.
    + intros k v H; destruct k; discriminate.
    + exists []. repeat split; try constructor; try easy; destruct k; discriminate.
  - rewrite fold_left_app. simpl. destruct (fold_left (merge_step eqb) l ([], [], [])) as [[cp cv] canon].
    destruct IH as (L & C1 & C2 & M & D & ks & S & Pk & K). unfold merge_step.
    destruct (find (fun kv => eqb (fst kv) v) canon) as [[w i]|] eqn:F.
    + apply find_some in F. destruct F as [Fi Fe]. simpl in Fe.
      repeat split; auto.
      * rewrite !app_length. simpl. lia.
      * intros k u H. apply nth_error_snoc_inv in H. destruct H as [H|[-> ->]].
        { destruct (M _ _ H) as (c & p & A & B & E). exists c, p. split; auto. apply nth_error_app_some; auto. }
        { exists i, w. simpl. rewrite <- L. rewrite nth_error_snoc. auto. }
      * exists ks. split; [|split]; auto. apply picks_ext; auto.
        intros k u H. apply nth_error_snoc_inv in H. destruct H as [H|[-> ->]].
        { pose proof (nth_error_lt _ _ _ H). rewrite (K _ _ H). split; intros Q j x J X.
          - apply nth_error_snoc_inv in X. destruct X as [X|[-> ->]]; [eauto|lia].
          - apply (Q j x J). apply nth_error_app_some; auto. }
        { split; intros Q.
          - exfalso. clear -Q Pk. unfold picks in Pk. revert Q. induction Pk; simpl; [tauto|]. intros [->|Q]; auto.
            apply nth_error_lt in H. lia.
          - exfalso. apply C1 in Fi.
            assert (In i (seq 0 (length cp))) by (apply in_seq; apply nth_error_lt in Fi; lia).
            destruct (nth_error ks i) as [k|] eqn:Ek.
            2:{ apply nth_error_None in Ek. apply Forall2_length in Pk. apply nth_error_lt in Fi. lia. }
            assert (nth_error l k = Some w).
            { clear -Pk Ek Fi. unfold picks in Pk. revert i Ek Fi. induction Pk; intros [|i]; simpl; intros; try discriminate; eauto. congruence. }
            pose proof (nth_error_lt _ _ _ H0).
            rewrite (Q k w) in Fe; [discriminate| lia|]. apply nth_error_app_some; auto. }
    + assert (N : forall w i, nth_error cp i = Some w -> eqb w v = false).
      { intros w i H. apply C2 in H. exact (find_none _ _ F _ H). }
      assert (E1 : length (cp ++ [v]) - 1 = length cp) by (rewrite app_length; simpl; lia). rewrite E1.
      repeat split.
      * rewrite !app_length. simpl. lia.
      * intros u j [H|H]. injection H as <- <-. apply nth_error_snoc. apply nth_error_app_some; auto.
      * intros u j H. apply nth_error_snoc_inv in H. destruct H as [H|[-> ->]]; simpl; auto.
      * intros k u H. apply nth_error_snoc_inv in H. destruct H as [H|[-> ->]].
        { destruct (M _ _ H) as (c & p & A & B & E). exists c, p. split; [|split]; auto; apply nth_error_app_some; auto. }
        { exists (length cp), v. rewrite <- L, nth_error_snoc. auto using nth_error_snoc. }
      * intros i j p q A B ne. apply nth_error_snoc_inv in A. apply nth_error_snoc_inv in B.
        destruct A as [A|[-> ->]], B as [B|[-> ->]]; eauto.
        { destruct (eqb v q) eqn:E; auto. apply eqb_sym in E. rewrite (N _ _ B) in E. discriminate. }
        { lia. }
      * assert (Lk : forall k, In k ks -> k < length l).
        { intros k H. clear -H Pk. unfold picks in Pk. induction Pk; simpl in *; [tauto|]. destruct H as [->|]; auto. eapply nth_error_lt; eauto. }
        exists (ks ++ [length l]). split; [|split].
        { apply SSorted_snoc; auto. }
        { apply picks_snoc. apply picks_ext; auto. apply nth_error_snoc. }
        { intros k u H. apply nth_error_snoc_inv in H. rewrite in_app_iff. simpl. destruct H as [H|[-> ->]].
          - pose proof (nth_error_lt _ _ _ H). split.
            + intros [Q|[Q|[]]]; [|lia]. rewrite (K _ _ H) in Q. intros j x J X.
              apply nth_error_snoc_inv in X. destruct X as [X|[-> ->]]; [eauto|lia].
            + intros Q. left. rewrite (K _ _ H). intros j x J X. apply (Q j x J). apply nth_error_app_some; auto.
          - split; auto. intros _ j x J X. apply nth_error_snoc_inv in X. destruct X as [X|[-> ->]]; [|lia].
            destruct (M _ _ X) as (c & p & A & B & [E|E]).
            + subst. eauto.
            + destruct (eqb x v) eqn:Y; auto. rewrite (N _ _ B) || idtac. pose proof (eqb_trans _ _ _ E Y). rewrite (N _ _ B) in H. discriminate. }
Qed.

Definition same (x y : option P) : Prop := exists p q, x = Some p /\ y = Some q /\ (p = q \/ eqb p q = true).

Lemma merge_ok (m : pmesh P U) : inRange m ->
  exists m', mergeIdenticalVertices eqb m = Ok m'
    /\ uvs m' = uvs m
    /\ Forall2 (Forall2 same) (geom m') (geom m)
    /\ (forall i j p q, nth_error (verts m') i = Some p -> nth_error (verts m') j = Some q -> i <> j -> eqb p q = false)
    /\ exists ks, increasing ks /\ picks ks (verts m) (verts m')
         /\ (forall k v, nth_error (verts m) k = Some v -> (In k ks <-> forall j w, j < k -> nth_error (verts m) j = Some w -> eqb w v = false)).
Proof.
  intros R. unfold mergeIdenticalVertices. pose proof (merge_inv (verts m)) as I.
  destruct (fold_left (merge_step eqb) (verts m) ([], [], [])) as [[cp cv] canon].
  destruct I as (L & C1 & C2 & M & D & K).
  assert (E : mapM (mapM (rd cv)) (polys m) = Ok (map (map (fun i => nth i cv 0)) (polys m))).
  { apply mapM_ok. intros f F. apply mapM_ok. intros i I. apply rd_nth. rewrite L. eapply R; eauto. }
  rewrite E. simpl. eexists. split; [reflexivity|]. simpl. split; auto. split; auto.
  unfold geom. simpl. rewrite map_map. clear E. revert R. unfold inRange. generalize (polys m).
  induction l as [|f l IH]; intros R; simpl; constructor.
  - assert (Rf : forall i, In i f -> i < length (verts m)) by (intros; eapply R; simpl; eauto). clear -M Rf L.
    rewrite map_map. induction f; simpl; constructor.
    + assert (A : a < length (verts m)) by (apply Rf; simpl; auto).
      apply nth_error_Some in A. destruct (nth_error (verts m) a) as [v|] eqn:Ev; [|congruence].
      destruct (M _ _ Ev) as (c & p & X & Y & Z). exists p, v. rewrite (nth_error_nth _ _ _ X). auto.
    + apply IHf. intros; apply Rf; simpl; auto.
  - apply IH. intros; eapply R; simpl; eauto.
Qed.

Lemma merge_ub (m : pmesh P U) : ~ inRange m -> mergeIdenticalVertices eqb m = UB.
Proof.
  intros R. unfold mergeIdenticalVertices. pose proof (merge_inv (verts m)) as I.
  destruct (fold_left (merge_step eqb) (verts m) ([], [], [])) as [[cp cv] canon].
  destruct I as (L & _).
  assert (E : mapM (mapM (rd cv)) (polys m) = UB).
  { unfold inRange in R. rewrite <- L in R. revert R. generalize (polys m). clear. induction l as [|f l IH]; intros R.
    - exfalso. apply R. simpl. tauto.
    - simpl. destruct (mapM (rd cv) f) as [f'| |] eqn:Ef.
      + simpl. rewrite IH; auto. intros Q. apply R. intros g i [<-|G] Ii; [|eauto].
        apply mapM_Forall2 in Ef. clear -Ef Ii. induction Ef; simpl in *; [tauto|]. destruct Ii as [->|]; auto. apply rd_Ok_inv in H. tauto.
      + exfalso. clear -Ef. induction f; simpl in Ef; [discriminate|]. unfold rd at 1 in Ef. destruct (nth_error cv a); simpl in Ef; [|discriminate].
        destruct (mapM (rd cv) f); simpl in *; try discriminate. auto.
      + auto. }
  rewrite E. auto.
Qed.
End Merge.

(** ** stripUnusedVertices *)
Lemma mark_list nV l : forall used, length used = nV ->
  (Forall (fun i => i < nV) l -> exists used', foldM (mark_used nV) l used = Ok used' /\ length used' = nV
     /\ forall i, i < nV -> (nth i used' false = true <-> nth i used false = true \/ In i l))
  /\ (~ Forall (fun i => i < nV) l -> foldM (mark_used nV) l used = Throw).
Proof.
  induction l as [|a l IH]; intros used L; split; intros F.
  - exists used. simpl. split; auto. split; auto. intuition.
  - exfalso; apply F; constructor.
  - inversion F; subst. simpl. unfold mark_used at 1. replace (a <? length used) with true by (symmetry; apply Nat.ltb_lt; auto). simpl.
    rewrite wr_Ok by auto. simpl. destruct (IH (upd used a true)) as [A _]. rewrite length_upd; auto.
    destruct A as (u & X & Y & Z); auto. exists u. split; auto. split; auto. intros i Hi. rewrite Z by auto.
    destruct (Nat.eq_dec a i). subst. rewrite nth_upd_eq by auto. tauto. rewrite nth_upd_neq by auto. simpl. intuition.
  - simpl. unfold mark_used at 1. destruct (a <? nV) eqn:E; simpl; auto. apply Nat.ltb_lt in E.
    rewrite wr_Ok by lia. simpl. apply IH. rewrite length_upd; auto. intros Q. apply F. constructor; auto.
Qed.

Lemma foldM_concat {A S} (f : S -> A -> res S) ll s : foldM (fun s l => foldM f l s) ll s = foldM f (concat ll) s.
Proof. revert s; induction ll; simpl; intros; auto. rewrite foldM_app. destruct (foldM f a s); simpl; auto. Qed.

Lemma inRange_concat {P U} (m : pmesh P U) : inRange m <-> Forall (fun i => i < length (verts m)) (concat (polys m)).
Proof.
  unfold inRange. rewrite Forall_forall. split.
  - intros H i I. apply in_concat in I. destruct I as (f & A & B). eauto.
  - intros H f i A B. apply H. apply in_concat. eauto.
Qed.

Lemma reindex_loop {P} (used : list bool) (vs : list P) n : length used = length vs -> n <= length vs ->
  exists newInd nv, foldM (reindex_step used vs) (seq 0 n) (repeat None (length vs), [], 0) = Ok (newInd, nv, length nv)
    /\ length newInd = length vs
    /\ let ks := filter (fun i => nth i used false) (seq 0 n) in
       picks ks vs nv /\ increasing ks
       /\ (forall i k, nth_error newInd i = Some (Some k) <-> nth_error ks k = Some i)
       /\ (forall i, i < length vs -> nth_error newInd i <> None).
Proof.
  intros L. induction n; intros Hn.
  - exists (repeat None (length vs)), []. simpl. rewrite repeat_length. repeat split; auto; try constructor.
    + intros H. apply nth_error_In, repeat_spec in H. discriminate.
    + intros H; destruct k; discriminate.
    + intros i Hi. apply nth_error_Some. rewrite repeat_length; auto.
  - destruct IHn as (newInd & nv & E & Ln & Pk & S & K & Q); [lia|].
    rewrite seq_S, foldM_app, E. simpl. unfold rd at 1.
    destruct (nth_error used n) as [u|] eqn:Eu. 2:{ apply nth_error_None in Eu. lia. }
    simpl. rewrite filter_app. simpl. rewrite (nth_error_nth _ _ false Eu).
    destruct u; simpl.
    + rewrite wr_Ok by lia. simpl. unfold rd. destruct (nth_error vs n) as [x|] eqn:Ex. 2:{ apply nth_error_None in Ex. lia. }
      simpl. exists (upd newInd n (Some (length nv))), (nv ++ [x]). split; [|split; [|split; [|split; [|split]]]].
      * rewrite app_length. simpl. rewrite Nat.add_1_r. auto.
      * rewrite length_upd; auto.
      * apply picks_snoc; auto.
      * apply SSorted_snoc; auto. intros k Ik. apply filter_In in Ik. destruct Ik as [Ik _]. apply in_seq in Ik. lia.
      * pose proof (Forall2_length _ _ _ Pk) as Lk. intros i k. destruct (Nat.eq_dec i n) as [->|ne].
        { rewrite nth_error_upd_eq by lia. split.
          - intros [= <-]. rewrite <- Lk. apply nth_error_snoc.
          - intros H. apply nth_error_snoc_inv in H. destruct H as [H|[-> _]]; [|congruence].
            apply nth_error_In, filter_In in H. destruct H as [H _]. apply in_seq in H. lia. }
        { rewrite nth_error_upd_neq by auto. rewrite K. split; intros H.
          - apply nth_error_app_some; auto.
          - apply nth_error_snoc_inv in H. destruct H as [H|[-> ->]]; auto. lia. }
      * intros i Hi. apply nth_error_Some. rewrite length_upd. lia.
    + exists newInd, nv. rewrite app_nil_r. auto 10.
Qed.

Lemma strip_unused_ok {P U} (m : pmesh P U) : inRange m ->
  exists m' newInd ks, stripUnusedVertices m = Ok (m', newInd)
    /\ geom m' = geom m /\ uvs m' = uvs m
    /\ increasing ks /\ picks ks (verts m) (verts m')
    /\ (forall i, In i ks <-> usedIn m i)
    /\ length newInd = length (verts m)
    /\ (forall i k, nth_error newInd i = Some (Some k) <-> nth_error ks k = Some i).
Proof.
  intros R. unfold stripUnusedVertices. rewrite foldM_concat.
  destruct (mark_list (length (verts m)) (concat (polys m)) (repeat false (length (verts m)))) as [A _]. apply repeat_length.
  destruct A as (used & E & L & M). apply inRange_concat; auto. rewrite E. simpl.
  destruct (reindex_loop used (verts m) (length (verts m)) L (le_n _)) as (newInd & nv & E2 & Ln & Pk & S & K & Q).
  rewrite E2. simpl.
  set (ks := filter (fun i => nth i used false) (seq 0 (length (verts m)))) in *.
  assert (Uk : forall i, In i ks <-> usedIn m i).
  { intros i. unfold ks. rewrite filter_In, in_seq. split.
    - intros [H1 H2]. apply M in H2; [|lia]. destruct H2 as [H2|H2]. rewrite nth_repeat in H2; discriminate.
      apply in_concat in H2. exact H2.
    - intros (f & F & I). pose proof (R f i F I). split. lia. apply M; auto. right. apply in_concat. exists f; auto. }
  assert (T : forall i, usedIn m i -> exists k, nth_error newInd i = Some (Some k) /\ nth_error nv k = nth_error (verts m) i).
  { intros i I. apply Uk in I. apply In_nth_error in I. destruct I as [k I]. exists k. split. apply K; auto.
    clear -Pk I. unfold picks in Pk. revert k I. induction Pk; intros [|k]; simpl; intros; try discriminate; auto. congruence. }
  set (g := fun i => match nth i newInd None with Some k => k | None => 0 end).
  assert (G : mapM (mapM (translate newInd)) (polys m) = Ok (map (map g) (polys m))).
  { apply mapM_ok. intros f F. apply mapM_ok. intros i I. destruct (T i) as (k & X & _). exists f; auto.
    unfold translate, rd, g. rewrite X, (nth_error_nth _ _ _ X). auto. }
  rewrite G. simpl. exists (mkP (map (map g) (polys m)) nv (uvs m)), newInd, ks. simpl. split; [reflexivity|].
  split; [|tauto]. unfold geom. simpl. rewrite map_map. apply map_ext_in. intros f F. rewrite map_map. apply map_ext_in.
  intros i I. destruct (T i) as (k & X & Y). exists f; auto. rewrite <- Y. f_equal. unfold g. now rewrite (nth_error_nth _ _ _ X).
Qed.

Lemma strip_unused_throw {P U} (m : pmesh P U) : ~ inRange m -> stripUnusedVertices m = Throw.
Proof.
  intros R. unfold stripUnusedVertices. rewrite foldM_concat.
  destruct (mark_list (length (verts m)) (concat (polys m)) (repeat false (length (verts m)))) as [_ A]. apply repeat_length.
  rewrite A; auto. rewrite <- inRange_concat; auto.
Qed.

(** ** stripInvalidFaceWorker *)
Lemma badInds_spec nV f : badInds nV f = true <-> exists i, In i f /\ nV <= i.
Proof.
  unfold badInds. assert (G : forall b, fold_left (fun cull i => if nV <=? i then true else cull) f b = true <-> b = true \/ exists i, In i f /\ nV <= i).
  { induction f as [|a f IH]; simpl; intros b. split; auto. intros [H|(i & [] & _)]; auto.
    rewrite IH. destruct (nV <=? a) eqn:E.
    - apply Nat.leb_le in E. split; auto. intros _. right. eauto.
    - apply Nat.leb_gt in E. split; intros [H|(i & I & H)]; eauto. destruct I as [->|I]; [lia|eauto]. }
  rewrite G. split; auto. intros [H|H]; auto. discriminate.
Qed.

Lemma repeatsSmall_spec f : exists b, repeatsSmall f = Ok b /\ (b = true <-> ~ NoDup f).
Proof.
  unfold repeatsSmall.
  assert (In1 : forall i, i < length f -> forall js c, (forall j, In j js -> j < length f) ->
     exists b, foldM (fun cull j => let* a := rd f i in let* b := rd f j in Ok (if a =? b then true else cull)) js c = Ok b
       /\ (b = true <-> c = true \/ exists j, In j js /\ nth i f 0 = nth j f 0)).
  { intros i Hi js. induction js as [|j js IH]; intros c Hj; simpl.
    - exists c. split; auto. split; auto. intros [|(j & [] & _)]; auto.
    - rewrite !(rd_nth f _ 0) by (auto; apply Hj; simpl; auto). simpl.
      destruct (IH (if nth i f 0 =? nth j f 0 then true else c)) as (b & E & S). intros; apply Hj; simpl; auto.
      exists b. split. rewrite (rd_nth f i 0) in E by auto. exact E. rewrite S. destruct (nth i f 0 =? nth j f 0) eqn:Q.
      + apply Nat.eqb_eq in Q. split; auto. intros _. right. eauto.
      + apply Nat.eqb_neq in Q. split; intros [H|(k & I & H)]; eauto. destruct I as [->|I]; [congruence|eauto]. }
  assert (Out : forall is c, (forall i, In i is -> i < length f) ->
     exists b, foldM (fun cull i => foldM (fun cull j => let* a := rd f i in let* b := rd f j in Ok (if a =? b then true else cull))
                (seq (i + 1) (length f - (i + 1))) cull) is c = Ok b
       /\ (b = true <-> c = true \/ exists i j, In i is /\ i < j < length f /\ nth i f 0 = nth j f 0)).
  { induction is as [|i is IH]; intros c Hi.
    - exists c. simpl. split; auto. split; auto. intros [|(i & j & [] & _)]; auto.
    - simpl. destruct (In1 i (Hi i (or_introl eq_refl)) (seq (i + 1) (length f - (i + 1))) c) as (b & E & S).
      { intros j Ij. apply in_seq in Ij. specialize (Hi i (or_introl eq_refl)). lia. }
      rewrite E. simpl. destruct (IH b) as (b' & E' & S'). intros; apply Hi; simpl; auto. exists b'. split; auto.
      rewrite S', S. split.
      + intros [[H|(j & Ij & H)]|(i' & j & I' & H)]; auto.
        * right. exists i, j. apply in_seq in Ij. specialize (Hi i (or_introl eq_refl)). split; auto. split; auto. lia.
        * right. exists i', j. auto.
      + intros [H|(i' & j & [->|I'] & Hj & H)]; auto.
        * left. right. exists j. split; auto. apply in_seq. lia.
        * right. eauto. }
  destruct (Out (seq 0 (length f)) false) as (b & E & S). intros i I; apply in_seq in I; lia.
  exists b. split; auto. rewrite S. split.
  - intros [H|(i & j & Ii & Hj & H)]; [discriminate|]. intros N. assert (i = j); [|lia].
    apply (proj1 (NoDup_nth f 0) N); auto; lia.
  - intros N. right. destruct (ListDec.NoDup_dec Nat.eq_dec f) as [D|D]; [contradiction|].
    clear -D. induction f as [|a f IH].
    + exfalso. apply D. constructor.
    + destruct (in_dec Nat.eq_dec a f) as [I|I].
      * apply (In_nth _ _ 0) in I. destruct I as (j & Hj & E). exists 0, (S j). simpl. repeat split; try lia; auto.
      * destruct IH as (i & j & Ii & Hj & E). intros Q; apply D; constructor; auto. exists (S i), (S j). simpl length.
        split. apply in_seq; lia. split. lia. auto.
Qed.

Lemma repeatsBig_spec f : repeatsBig f = true <-> ~ NoDup f.
Proof.
  unfold repeatsBig.
  assert (G : forall c s, fst (fold_left (fun st i => let '(cull, inds) := st in (if existsb (Nat.eqb i) inds then true else cull, i :: inds)) f (c, s)) = true
     <-> c = true \/ ~ NoDup f \/ exists i, In i f /\ In i s).
  { induction f as [|a f IH]; intros c s; simpl.
    - split; auto. intros [H|[H|(i & [] & _)]]; auto. exfalso; apply H; constructor.
    - rewrite IH. assert (X : existsb (Nat.eqb a) s = true <-> In a s).
      { rewrite existsb_exists. split. intros (x & I & E). apply Nat.eqb_eq in E. subst; auto. intros; exists a; rewrite Nat.eqb_refl; auto. }
      destruct (existsb (Nat.eqb a) s) eqn:E.
      + assert (In a s) by (apply X; auto). split; auto. intros _. right. right. eauto.
      + assert (~ In a s) by (intros Q; apply X in Q; discriminate). clear X E. split.
        * intros [Q|[Q|(i & Fi & [Ei|Si])]]; auto.
          -- right. left. intros D; inversion D; auto.
          -- subst. right. left. intros D; inversion D; auto.
          -- right. right. eauto.
        * intros [Q|[Q|(i & [Ei|Fi] & Si)]]; auto.
          -- destruct (in_dec Nat.eq_dec a f). right. right. exists a. simpl. auto.
             right. left. intros D. apply Q. constructor; auto.
          -- subst; contradiction.
          -- right. right. exists i. simpl. auto. }
  rewrite G. split; auto. intros [H|[H|(i & _ & [])]]; auto. discriminate.
Qed.

Lemma cullFace_spec nV b1 b2 b3 f : exists c, cullFace nV b1 b2 b3 f = Ok c
  /\ (c = true <-> (b1 = true /\ (length f < 3 \/ exists i, In i f /\ nV <= i)) \/ (b3 = true /\ ~ NoDup f)).
Proof.
  unfold cullFace, lowDegree.
  assert (A : forall c : bool, c = (if b1 then if length f <? 3 then true else if b1 then badInds nV f else false else if b1 then badInds nV f else false) ->
     (c = true <-> b1 = true /\ (length f < 3 \/ exists i, In i f /\ nV <= i))).
  { intros c ->. destruct b1. 2:{ split; [|intros []]; discriminate. }
    destruct (length f <? 3) eqn:E. apply Nat.ltb_lt in E. tauto. apply Nat.ltb_ge in E. rewrite badInds_spec.
    split; auto. intros [_ [H|H]]; auto. lia. }
  specialize (A _ eq_refl). remember (if b1 then _ else _) as c. clear Heqc. destruct b3.
  - assert (R : exists r, (if length f <? 8 then repeatsSmall f else Ok (repeatsBig f)) = Ok r /\ (r = true <-> ~ NoDup f)).
    { destruct (length f <? 8). apply repeatsSmall_spec. eexists; split; [reflexivity|apply repeatsBig_spec]. }
    destruct R as (r & E & R). rewrite E. simpl. eexists. split; [reflexivity|]. destruct r; rewrite ?A; split; auto.
    + intros _. right. split; auto. apply R; auto.
    + intros [H|[_ H]]; auto. apply R in H. discriminate.
  - exists c. split; auto. rewrite A. split; auto. intros [H|[H _]]; auto. discriminate.
Qed.

Lemma stripWorker_ok {P U} b1 b2 b3 (m : pmesh P U) : uvsAligned m ->
  exists m' ks, stripWorker b1 b2 b3 m = Ok m'
    /\ verts m' = verts m
    /\ increasing ks /\ picks ks (polys m) (polys m')
    /\ (if hasParam m then picks ks (uvs m) (uvs m') else uvs m' = [])
    /\ forall k f, nth_error (polys m) k = Some f ->
        (In k ks <-> (b1 = true -> 3 <= length f /\ forall i, In i f -> i < length (verts m)) /\ (b3 = true -> NoDup f)).
Proof.
  intros Al. unfold stripWorker.
  set (step := fun (st : list (list nat) * list (list U)) iF => _).
  assert (G : forall n, n <= length (polys m) -> exists fs cs ks, foldM step (seq 0 n) ([], []) = Ok (fs, cs)
     /\ increasing ks /\ picks ks (polys m) fs /\ (if hasParam m then picks ks (uvs m) cs else True)
     /\ (forall k, In k ks -> k < n)
     /\ forall k f, k < n -> nth_error (polys m) k = Some f ->
        (In k ks <-> (b1 = true -> 3 <= length f /\ forall i, In i f -> i < length (verts m)) /\ (b3 = true -> NoDup f))).
  { induction n; intros Hn.
    - exists [], [], []. simpl. repeat split; try constructor; try easy; destruct (hasParam m); auto; constructor.
    - destruct IHn as (fs & cs & ks & E & S & Pk & Pu & Lk & K); [lia|]. rewrite seq_S, foldM_app, E. simpl.
      unfold rd at 1. destruct (nth_error (polys m) n) as [f|] eqn:Ef. 2:{ apply nth_error_None in Ef. lia. }
      simpl. destruct (cullFace_spec (length (verts m)) b1 b2 b3 f) as (c & Ec & C). rewrite Ec. simpl.
      assert (C' : c = false <-> (b1 = true -> 3 <= length f /\ forall i, In i f -> i < length (verts m)) /\ (b3 = true -> NoDup f)).
      { split.
        - intros ->. split.
          + intros ->. assert (N : ~ (length f < 3 \/ exists i, In i f /\ length (verts m) <= i)) by (intros Q; assert (false = true); [apply C; auto|discriminate]).
            split. lia. intros i I. destruct (lt_dec i (length (verts m))); auto. exfalso. apply N. right. exists i. split; auto. lia.
          + intros ->. destruct (ListDec.NoDup_dec Nat.eq_dec f) as [D|D]; auto. assert (false = true); [apply C; auto|discriminate].
        - intros [A B]. destruct c; auto. destruct (proj1 C eq_refl) as [[X [Y|(i & I & Y)]]|[X Y]].
          + apply A in X. lia.
          + apply A in X. destruct X as [_ X]. apply X in I. lia.
          + elim Y; auto. }
      destruct c.
      + exists fs, cs, ks. split; auto. split; auto. split; auto. split; auto. split. intros k I; apply Lk in I; lia.
        intros k g Hk Eg. destruct (Nat.eq_dec k n) as [->|ne]; [|apply K; auto; lia].
        rewrite Ef in Eg. injection Eg as <-. split; intros Q. apply Lk in Q; lia. apply C' in Q. discriminate.
      + assert (X : exists cs', (if hasParam m then let* c := rd (uvs m) n in Ok (cs ++ [c]) else Ok cs) = Ok cs' /\ if hasParam m then picks (ks ++ [n]) (uvs m) cs' else True).
        { unfold hasParam in *. destruct Al as [Al|Al]. rewrite Al in *. eauto.
          destruct (uvs m) eqn:Eu; eauto. rewrite <- Eu in *. unfold rd. destruct (nth_error (uvs m) n) eqn:En. 2:{ apply nth_error_None in En. lia. }
          simpl. eexists. split; [reflexivity|]. apply picks_snoc; auto. }
        destruct X as (cs' & Ex & Px). rewrite Ex. simpl. exists (fs ++ [f]), cs', (ks ++ [n]).
        split; auto. split. apply SSorted_snoc; auto. split. apply picks_snoc; auto. split; auto. split.
        { intros k I. apply in_app_iff in I. simpl in I. destruct I as [I|[I|[]]]; [apply Lk in I|]; lia. }
        intros k g Hk Eg. rewrite in_app_iff. simpl. destruct (Nat.eq_dec k n) as [->|ne].
        { rewrite Ef in Eg. injection Eg as <-. split; auto. intros _. apply C'; auto. }
        { rewrite <- (K k g); auto; try lia. split; auto. intros [I|[I|[]]]; auto. lia. } }
  destruct (G (length (polys m)) (le_n _)) as (fs & cs & ks & E & S & Pk & Pu & Lk & K). rewrite E. simpl.
  eexists. exists ks. split; [reflexivity|]. simpl. split; auto. split; auto. split; auto. split.
  - unfold hasParam in *. destruct (uvs m); auto.
  - intros k f Ef. apply K; auto. eapply nth_error_lt; eauto.
Qed.

(** ** stripDuplicateFaces *)
Lemma list_eqb_spec a : forall b, list_eqb a b = true <-> a = b.
Proof.
  induction a as [|x a IH]; intros [|y b]; simpl; try (split; congruence).
  rewrite andb_true_iff, Nat.eqb_eq, IH. split. intros [-> ->]; auto. intros [= -> ->]; auto.
Qed.

Lemma lexle_antisym a b : lexle a b -> lexle b a -> a = b.
Proof.
  induction 1; intros H'.
  - inversion H'; auto.
  - inversion H'; subst; lia.
  - inversion H'; subst; try lia. f_equal; auto.
Qed.

Section Dup.
Context {P U : Type} (sortInds : list nat -> list nat) (sortPolys : list (list nat * nat) -> list (list nat * nat)).
Hypothesis sortInds_perm : forall l, Permutation l (sortInds l).
Hypothesis sortInds_sorted : forall l, StronglySorted le (sortInds l).
Hypothesis sortPolys_perm : forall l, Permutation l (sortPolys l).
Hypothesis sortPolys_sorted : forall l, StronglySorted (fun a b => lexle (fst a) (fst b)) (sortPolys l).

Lemma sorted_unique (l1 : list nat) : forall l2, StronglySorted le l1 -> StronglySorted le l2 -> Permutation l1 l2 -> l1 = l2.
Proof.
  induction l1 as [|a l1 IH]; intros l2 S1 S2 Pm.
  - apply Permutation_nil in Pm. auto.
  - destruct l2 as [|b l2]. apply Permutation_sym, Permutation_nil in Pm. discriminate.
    inversion S1; subst. inversion S2; subst. assert (a = b).
    { assert (In a (b :: l2)) by (apply (Permutation_in _ Pm); simpl; auto).
      assert (In b (a :: l1)) by (apply (Permutation_in _ (Permutation_sym Pm)); simpl; auto).
      rewrite Forall_forall in *. simpl in *. destruct H as [->|H]; auto. destruct H0 as [->|H0]; auto.
      apply H2 in H0. apply H4 in H. lia. }
    subst. f_equal. apply IH; auto. eapply Permutation_cons_inv; eauto.
Qed.

Lemma skip_spec key l : StronglySorted (fun a b : list nat * nat => lexle (fst a) (fst b)) l ->
  Forall (fun e => lexle key (fst e)) l ->
  exists pre, l = pre ++ skip key l /\ (forall e, In e pre -> fst e = key) /\ (forall e, In e (skip key l) -> fst e <> key).
Proof.
  induction l as [|[k i] l IH]; intros S F.
  - exists []. simpl. repeat split; tauto.
  - simpl. inversion S; subst. inversion F; subst. simpl in *. destruct (list_eqb key k) eqn:E.
    + apply list_eqb_spec in E. subst k. destruct IH as (pre & A & B & C); auto. exists ((key, i) :: pre). split.
      * simpl. f_equal; auto.
      * split; auto. intros e [<-|I]; auto.
    + exists []. split; auto. split; [simpl; tauto|]. assert (key <> k) by (intros ->; rewrite (proj2 (list_eqb_spec k k) eq_refl) in E; discriminate).
      intros e [<-|I]; simpl; auto. rewrite Forall_forall in H2. apply H2 in I. intros Q. rewrite Q in I.
      apply H, lexle_antisym; auto.
Qed.

Lemma keepRuns_ok l : forall fuel, length l <= fuel -> StronglySorted (fun a b : list nat * nat => lexle (fst a) (fst b)) l ->
  exists ks, keepRuns fuel l = Ok ks
    /\ incl ks (map snd l)
    /\ (NoDup (map snd l) -> NoDup ks)
    /\ (forall k i, In (k, i) l -> exists i', In i' ks /\ In (k, i') l)
    /\ (NoDup (map snd l) -> forall k i i', In (k, i) l -> In (k, i') l -> In i ks -> In i' ks -> i = i').
Proof.
  intros fuel. revert l. induction fuel; intros l Lf S.
  - destruct l; [|simpl in Lf; lia]. exists []. simpl. repeat split; try easy. 
  - destruct l as [|[key i] t].
    + exists []. simpl. repeat split; try easy.
    + simpl in Lf. inversion S; subst. simpl in H2. destruct (skip_spec key t) as (pre & A & B & C); auto.
      assert (S' : StronglySorted (fun a b : list nat * nat => lexle (fst a) (fst b)) (skip key t)).
      { rewrite A in H1. clear -H1. induction pre; simpl in *; auto. inversion H1; auto. }
      destruct (IHfuel (skip key t)) as (ks & E & I1 & I2 & I3 & I4); auto.
      { rewrite A in Lf. rewrite app_length in Lf. lia. }
      assert (Incl : forall x, In x (skip key t) -> In x t) by (intros x; rewrite A at 2; rewrite in_app_iff; auto).
      assert (Dup : NoDup (i :: map snd t) -> NoDup (map snd (skip key t)) /\ ~ In i ks /\ (forall k' i', In (k', i') pre -> ~ In i' ks)).
      { intros N. inversion N; subst. rewrite A in H4. rewrite map_app in H4. split; [|split].
        - clear -H4. induction pre; simpl in *; auto. inversion H4; auto.
        - intros Q. apply H3. apply I1 in Q. apply in_map_iff in Q. destruct Q as (x & <- & Q). apply in_map. auto.
        - intros k' i' Ip Ik. apply I1 in Ik. apply (in_map snd) in Ip. simpl in Ip. revert Ip Ik H4. clear. intros.
          induction (map snd pre); simpl in *; [tauto|]. inversion H4; subst. destruct Ip as [->|]; auto. apply H1. apply in_app_iff; auto. }
      exists (i :: ks). simpl. rewrite E. simpl. split; auto. split; [|split; [|split]].
      * intros x [<-|Ix]; [simpl; auto|]. right. apply I1 in Ix. apply in_map_iff in Ix. destruct Ix as (y & <- & Iy). apply in_map; auto.
      * intros N. apply Dup in N. destruct N as (N1 & N2 & _). constructor; auto.
      * intros k j [[= <- <-]|I]; eauto. rewrite A in I. apply in_app_iff in I. destruct I as [I|I].
        { apply B in I. simpl in I. subst k. eauto. }
        { destruct (I3 _ _ I) as (i' & X & Y). exists i'. auto. }
      * intros N k j j' Ij Ij' Kj Kj'. destruct (Dup N) as (N1 & N2 & N3).
        assert (Q : forall j, (key, i) = (k, j) \/ In (k, j) t -> i = j \/ In j ks -> (k = key /\ j = i) \/ In (k, j) (skip key t) /\ In j ks).
        { intros x [[= <- <-]|Ix] Kx; auto. rewrite A in Ix. apply in_app_iff in Ix. destruct Ix as [Ix|Ix].
          - pose proof (B _ Ix) as Bx. simpl in Bx. subst k. destruct Kx as [->|Kx]; auto. elim (N3 _ _ Ix Kx).
          - destruct Kx as [->|Kx]; auto. exfalso. inversion N; subst. apply H3. apply Incl in Ix. apply (in_map snd) in Ix. auto. }
        destruct (Q j Ij Kj) as [[-> ->]|[X Y]], (Q j' Ij' Kj') as [[Z ->]|[X' Y']]; auto.
        { exfalso. apply C in X'. simpl in X'. auto. }
        { subst k. exfalso. apply C in X. simpl in X. auto. }
        { eapply I4; eauto. }
Qed.

Lemma combine_seq (A : Type) (l : list A) n k i : In (k, i) (combine l (seq n (length l))) <-> n <= i /\ nth_error l (i - n) = Some k.
Proof.
  revert n. induction l as [|a l IH]; intros n; simpl.
  - split; [tauto|]. intros [_ H]. destruct (i - n); discriminate.
  - rewrite IH. split.
    + intros [[= <- <-]|[H1 H2]]. split; auto. rewrite Nat.sub_diag. auto. split. lia. replace (i - n) with (S (i - S n)) by lia. auto.
    + intros [H1 H2]. destruct (Nat.eq_dec i n) as [->|ne].
      * rewrite Nat.sub_diag in H2. simpl in H2. left. congruence.
      * right. split. lia. replace (i - n) with (S (i - S n)) in H2 by lia. auto.
Qed.

Lemma stripDuplicates_ok (m : pmesh P U) : uvsAligned m ->
  exists m' ks, stripDuplicateFaces sortInds sortPolys m = Ok m'
    /\ verts m' = verts m /\ NoDup ks /\ picks ks (polys m) (polys m')
    /\ (if hasParam m then picks ks (uvs m) (uvs m') else uvs m' = [])
    /\ forall i f, nth_error (polys m) i = Some f ->
         exists! k, In k ks /\ exists g, nth_error (polys m) k = Some g /\ Permutation f g.
Proof.
  intros Al. unfold stripDuplicateFaces.
  set (l0 := combine (map sortInds (polys m)) (seq 0 (length (polys m)))).
  assert (L0 : forall k i, In (k, i) l0 <-> nth_error (map sortInds (polys m)) i = Some k).
  { intros k i. unfold l0. rewrite <- (map_length sortInds). rewrite combine_seq, Nat.sub_0_r. split; [tauto|]. split; auto. lia. }
  assert (N0 : NoDup (map snd l0)).
  { unfold l0. clear. rewrite <- (map_length sortInds) at 1. generalize (map sortInds (polys m)), 0. induction l; simpl; intros n; constructor; auto.
    intros Q. apply in_map_iff in Q. destruct Q as ([k i] & E & Q). simpl in E. apply in_combine_r, in_seq in Q. lia. }
  pose proof (sortPolys_perm l0) as Pm.
  destruct (keepRuns_ok (sortPolys l0) (length (sortPolys l0)) (le_n _) (sortPolys_sorted _)) as (ks & E & I1 & I2 & I3 & I4).
  assert (N1 : NoDup (map snd (sortPolys l0))) by (eapply Permutation_NoDup; [apply Permutation_map, Pm|auto]).
  assert (Inl : forall x, In x (sortPolys l0) <-> In x l0) by (intros x; split; apply Permutation_in; auto using Permutation_sym).
  rewrite E. simpl.
  assert (Rng : forall k, In k ks -> k < length (polys m)).
  { intros k Ik. apply I1, in_map_iff in Ik. destruct Ik as ([x y] & <- & Ik). simpl. apply Inl, L0, nth_error_lt in Ik. rewrite map_length in Ik. auto. }
  assert (RD : forall (A : Type) (l : list A), length l = length (polys m) -> exists l', mapM (rd l) ks = Ok l' /\ picks ks l l').
  { intros A l Ll. destruct (F2_build (fun k x => nth_error l k = Some x) ks) as [l' F].
    - intros k Ik. apply Rng in Ik. destruct (nth_error l k) eqn:Q; eauto. apply nth_error_None in Q. lia.
    - exists l'. split; auto. apply F2_mapM. eapply F2_impl; [|exact F]. simpl. intros k x _ _ Q. unfold rd. now rewrite Q. }
  destruct (RD _ (polys m) eq_refl) as (fs & Ef & Pf). rewrite Ef. simpl.
  assert (Q : exists cs, (if hasParam m then mapM (rd (uvs m)) ks else Ok []) = Ok cs /\ if hasParam m then picks ks (uvs m) cs else cs = []).
  { unfold hasParam. destruct Al as [Al|Al]. rewrite Al. eauto. destruct (RD _ (uvs m) Al) as (cs & Ec & Pc). destruct (uvs m); eauto. }
  destruct Q as (cs & Ec & Pc). rewrite Ec. simpl. eexists. exists ks. split; [reflexivity|]. simpl.
  split; auto. split; auto. split; auto. split; auto.
  intros i f Hf.
  assert (Key : forall j g, nth_error (polys m) j = Some g -> In (sortInds g, j) (sortPolys l0)).
  { intros j g Hg. apply Inl, L0. apply map_nth_error; auto. }
  destruct (I3 _ _ (Key _ _ Hf)) as (k & Kk & Ik).
  assert (B : forall j, In (sortInds f, j) (sortPolys l0) -> exists g, nth_error (polys m) j = Some g /\ Permutation f g).
  { intros j Ij. apply Inl, L0 in Ij. pose proof (nth_error_lt _ _ _ Ij) as Lj. rewrite map_length in Lj.
    destruct (nth_error (polys m) j) as [g|] eqn:Eg. 2:{ apply nth_error_None in Eg. lia. }
    exists g. split; auto. erewrite map_nth_error in Ij by eauto. injection Ij as Ij.
    rewrite (sortInds_perm f), <- Ij. symmetry. auto. }
  exists k. split; auto.
  intros k' [Kk' (g & Eg & Pg)]. apply (I4 N1 (sortInds f)); auto.
  assert (X : sortInds f = sortInds g).
  { apply sorted_unique; auto. rewrite <- !sortInds_perm. auto. }
  rewrite X. apply Key; auto.
Qed.
End Dup.

(** ** triangulate *)
Open Scope Z_scope.
Definition contrib (a b x y : nat) : Z := (if side_eqb (a, b) (x, y) then 1 else 0) - (if side_eqb (b, a) (x, y) then 1 else 0).
Lemma contrib_anti a b x y : contrib a b x y + contrib a b y x = 0.
Proof.
  unfold contrib, side_eqb. simpl. destruct (Nat.eqb_spec a x), (Nat.eqb_spec b y), (Nat.eqb_spec a y), (Nat.eqb_spec b x); simpl; try lia.
Qed.
Definition csum (a b : nat) (l : list (nat * nat)) : Z := fold_right (fun s z => contrib a b (fst s) (snd s) + z) 0 l.
Lemma csum_app a b l1 l2 : csum a b (l1 ++ l2) = csum a b l1 + csum a b l2.
Proof. induction l1; simpl; lia. Qed.
Lemma net_csum a b p : net a b p = csum a b (sidesOf p).
Proof.
  unfold net, occ. induction (sidesOf p) as [|[x y] l IH]; auto. simpl. unfold contrib. 
  change (side_eqb (a, b) (x, y)) with (side_eqb (a, b) (x, y)).
  destruct (side_eqb (a, b) (x, y)), (side_eqb (b, a) (x, y)); simpl length; lia.
Qed.

(** sum along an open path *)
Fixpoint path (a b : nat) (x : nat) (l : list nat) : Z := match l with [] => 0 | y :: t => contrib a b x y + path a b y t end.
Fixpoint fan (x0 y : nat) (t : list nat) : list (list nat) :=
  match t with [] => [] | z :: t' => [x0; y; z] :: fan x0 z t' end.
Fixpoint cpath (a b x0 y : nat) (t : list nat) : Z :=
  match t with [] => contrib a b y x0 | z :: t' => contrib a b y z + cpath a b x0 z t' end.

Lemma net_fan a b x0 t : forall y, netAll a b (fan x0 y t) = contrib a b x0 y + cpath a b x0 y t.
Proof.
  induction t as [|z t IH]; intros y; cbn [fan netAll fold_right cpath].
  - rewrite contrib_anti. auto.
  - fold (netAll a b (fan x0 z t)). rewrite IH, net_csum. unfold sidesOf, rot1, csum. cbn [combine app fold_right fst snd].
    pose proof (contrib_anti a b z x0). lia.
Qed.

Lemma csum_cpath a b x0 t : forall y, csum a b (combine (y :: t) (t ++ [x0])) = cpath a b x0 y t.
Proof. induction t as [|z t IH]; intros y. unfold csum; simpl; lia. change (contrib a b y z + csum a b (combine (z :: t) (t ++ [x0])) = cpath a b x0 y (z :: t)). rewrite IH. auto. Qed.

Lemma net_poly a b x0 x1 t : net a b (x0 :: x1 :: t) = contrib a b x0 x1 + cpath a b x0 x1 t.
Proof.
  rewrite net_csum. 
  change (contrib a b x0 x1 + csum a b (combine (x1 :: t) (t ++ [x0])) = contrib a b x0 x1 + cpath a b x0 x1 t). now rewrite csum_cpath.
Qed.
Close Scope Z_scope.

Lemma fan_map x0 p t : forall pre y, p = pre ++ y :: t ->
  map (fun i => [x0; nth (i - 1) p 0; nth i p 0]) (seq (S (length pre)) (length t)) = fan x0 y t.
Proof.
  induction t as [|z t IH]; intros pre y E; auto. cbn [length seq map fan]. f_equal.
  - rewrite E. replace (S (length pre) - 1) with (length pre) by lia. rewrite nth_middle. do 2 f_equal.
    rewrite app_nth2 by lia. replace (S (length pre) - length pre) with 1 by lia. auto.
  - rewrite <- (IH (pre ++ [y]) z). rewrite app_length. simpl length. rewrite Nat.add_1_r. auto. now rewrite <- app_assoc.
Qed.

Lemma triangulatePoly_ok p : 3 <= length p ->
  exists ts, triangulatePoly p = Ok ts /\ length ts = length p - 2
    /\ (forall t, In t ts -> length t = 3 /\ incl t p)
    /\ (forall a b, netAll a b ts = net a b p).
Proof.
  intros L. destruct p as [|x0 [|x1 t]]; try (simpl in L; lia). exists (fan x0 x1 t). split; [|split; [|split]].
  - unfold triangulatePoly. replace (length (x0 :: x1 :: t) <=? 2) with false by (symmetry; apply Nat.leb_gt; lia).
    rewrite (mapM_ok _ (fun i => [x0; nth (i - 1) (x0 :: x1 :: t) 0; nth i (x0 :: x1 :: t) 0])).
    + f_equal. replace (length (x0 :: x1 :: t) - 2) with (length t) by (simpl; lia). apply (fan_map x0 _ t [x0] x1). auto.
    + intros i I. apply in_seq in I. rewrite !(rd_nth (x0 :: x1 :: t) _ 0) by (simpl in *; lia). auto.
  - replace (length (x0 :: x1 :: t) - 2) with (length t) by (simpl; lia). clear. revert x1; induction t; simpl; auto.
  - assert (G : forall (p : list nat), In x0 p -> forall t y, In y p -> incl t p -> forall s, In s (fan x0 y t) -> length s = 3 /\ incl s p).
    { clear. intros p H0. induction t as [|z t IH]; intros y Hy I s Hs; simpl in Hs; [tauto|].
      assert (In z p) by (apply I; simpl; auto). destruct Hs as [<-|Hs].
      - split; auto. intros w [<-|[<-|[<-|[]]]]; auto.
      - apply (IH z); auto. intros w Hw; apply I; simpl; auto. }
    apply G; simpl; auto. intros w Hw; simpl; auto.
  - intros a b. rewrite net_fan, net_poly. auto.
Qed.

Lemma triangulateP_ok {P U} (m : pmesh P U) : (forall f, In f (polys m) -> 3 <= length f) ->
  exists m' tss, triangulateP m = Ok m' /\ verts m' = verts m /\ uvs m' = uvs m /\ polys m' = concat tss
    /\ Forall2 (fun p ts => length ts = length p - 2 /\ (forall t, In t ts -> length t = 3 /\ incl t p) /\ forall a b, netAll a b ts = net a b p) (polys m) tss.
Proof.
  intros H. unfold triangulateP.
  assert (G : forall fs acc, (forall f, In f fs -> 3 <= length f) -> exists tss,
     foldM (fun acc poly => let* t := triangulatePoly poly in Ok (acc ++ t)) fs acc = Ok (acc ++ concat tss)
     /\ Forall2 (fun p ts => length ts = length p - 2 /\ (forall t, In t ts -> length t = 3 /\ incl t p) /\ forall a b, netAll a b ts = net a b p) fs tss).
  { induction fs as [|f fs IH]; intros acc Hf.
    - exists []. simpl. rewrite app_nil_r. auto.
    - destruct (triangulatePoly_ok f) as (ts & E & Q). apply Hf; simpl; auto. destruct (IH (acc ++ ts)) as (tss & E2 & F). intros; apply Hf; simpl; auto.
      exists (ts :: tss). simpl. rewrite E. simpl. rewrite E2. rewrite app_assoc. auto. }
  destruct (G (polys m) [] H) as (tss & E & F). rewrite E. simpl. eexists. exists tss. split; [reflexivity|]. simpl. auto.
Qed.

Lemma triangulateP_throw {P U} (m : pmesh P U) : (exists f, In f (polys m) /\ length f < 3) -> triangulateP m = Throw.
Proof.
  intros (f & I & L). unfold triangulateP. 
  assert (G : forall fs acc, In f fs -> foldM (fun acc poly => let* t := triangulatePoly poly in Ok (acc ++ t)) fs acc = Throw).
  { induction fs as [|g fs IH]; intros acc J; [easy|]. simpl. destruct (le_lt_dec 3 (length g)) as [Hg|Hg].
    - destruct (triangulatePoly_ok g Hg) as (ts & E & _). rewrite E. simpl. apply IH. destruct J as [->|]; auto. lia.
    - unfold triangulatePoly. replace (length g <=? 2) with true by (symmetry; apply Nat.leb_le; lia). auto. }
  rewrite G; auto.
Qed.

(** ** unionMeshes *)
Section Union.
Context {P U : Type}.
Definition ustep (keep : bool) := (fun (st : list (list nat) * list P * list (list U)) (m : pmesh P U) =>
      let '(fs, vs, cs) := st in
      let offset := length vs in
      (fs ++ map (map (fun i => i + offset)) (polys m), vs ++ verts m, if keep then cs ++ uvs m else cs)).

Lemma ufold keep ms : forall fs vs cs, exists fs' vs' cs', fold_left (ustep keep) ms (fs, vs, cs) = (fs ++ fs', vs ++ vs', cs ++ cs')
  /\ length fs' = sumLen polys ms /\ length vs' = sumLen verts ms /\ length cs' = (if keep then sumLen uvs ms else 0).
Proof.
  induction ms as [|m ms IH]; intros fs vs cs.
  - exists [], [], []. simpl. rewrite !app_nil_r. destruct keep; auto.
  - cbn [fold_left ustep]. destruct (IH (fs ++ map (map (fun i => i + length vs)) (polys m)) (vs ++ verts m) (if keep then cs ++ uvs m else cs)) as (fs' & vs' & cs' & E & A & B & C).
    exists (map (map (fun i => i + length vs)) (polys m) ++ fs'), (verts m ++ vs'), ((if keep then uvs m else []) ++ cs').
    simpl in E. rewrite E. rewrite !app_assoc. unfold sumLen in *. cbn [fold_right]. rewrite !app_length, map_length, A, B, C.
    destruct keep; rewrite ?app_nil_r; auto.
Qed.

Lemma union_ok (ms pre post : list (pmesh P U)) (m : pmesh P U) : ms = pre ++ m :: post ->
  let u := unionMeshes ms in
  (forall i f, nth_error (polys m) i = Some f -> nth_error (polys u) (sumLen polys pre + i) = Some (map (fun v => sumLen verts pre + v) f))
  /\ (forall v p, nth_error (verts m) v = Some p -> nth_error (verts u) (sumLen verts pre + v) = Some p)
  /\ (forallb hasParam ms = true -> forall i c, nth_error (uvs m) i = Some c -> nth_error (uvs u) (sumLen uvs pre + i) = Some c)
  /\ (forallb hasParam ms = false -> uvs u = [])
  /\ length (polys u) = sumLen polys ms /\ length (verts u) = sumLen verts ms.
Proof.
  intros Ems u. unfold u, unionMeshes.
  assert (K : forall k, fold_left (fun k (m : pmesh P U) => if hasParam m then k else false) ms k = k && forallb hasParam ms).
  { clear. induction ms as [|x ms IH]; intros k; simpl. now rewrite andb_true_r. rewrite IH. destruct (hasParam x), k; auto. }
  rewrite K. simpl andb. set (keep := forallb hasParam ms). clearbody keep. clear K.
  fold (ustep keep).
  destruct (ufold keep ms [] [] []) as (fa & va & ca & Ea & La1 & La2 & La3).
  pose proof Ea as Eb. rewrite Ems in Eb. rewrite fold_left_app in Eb.
  destruct (ufold keep pre [] [] []) as (f1 & v1 & c1 & E1 & L1 & L2 & L3). rewrite E1 in Eb. simpl app in Eb. cbn [fold_left ustep] in Eb.
  destruct (ufold keep post (f1 ++ map (map (fun i => i + length v1)) (polys m)) (v1 ++ verts m) (if keep then c1 ++ uvs m else c1)) as (f2 & v2 & c2 & E2 & M1 & M2 & M3).
  rewrite E2 in Eb. simpl app in Eb. rewrite Ea. simpl app.
  assert (fa = (f1 ++ map (map (fun i => i + length v1)) (polys m)) ++ f2) by congruence.
  assert (va = (v1 ++ verts m) ++ v2) by congruence.
  assert (ca = (if keep then c1 ++ uvs m else c1) ++ c2) by congruence. clear Eb Ea E1 E2.
  cbn [polys verts uvs]. repeat split; auto.
  - intros i f Hf. rewrite H. apply nth_error_app_some. rewrite nth_error_app2, L1 by lia.
    replace (sumLen polys pre + i - sumLen polys pre) with i by lia. rewrite (map_nth_error _ _ _ Hf). f_equal. apply map_ext. intros; lia.
  - intros v p Hv. rewrite H0. apply nth_error_app_some. rewrite nth_error_app2, L2 by lia.
    replace (sumLen verts pre + v - sumLen verts pre) with v by lia. auto.
  - intros -> i c Hc. rewrite H1. apply nth_error_app_some. rewrite nth_error_app2, L3 by lia.
    replace (sumLen uvs pre + i - sumLen uvs pre) with i by lia. auto.
  - intros ->. destruct ca; auto. discriminate.
Qed.
End Union.

(** ** OBJ round trip *)
Lemma writeFace_uv f : forall iC, exists ts, writeFace true iC f = (ts, iC + length f)
  /\ ((forall i, In i f -> (Z.of_nat (i + 1) <= INT_MAX)%Z) -> (Z.of_nat (iC + length f) <= INT_MAX)%Z ->
      forall a b, foldM (fun st tok =>
      let '(face, inds) := st in
      let* (pos, uv) := parseFaceIndex tok in
      if (pos <? 0)%Z then UB
      else Ok (face ++ [Z.to_nat pos], if (uv =? -1)%Z then inds else inds ++ [Z.to_nat uv])) ts (a, b) = Ok (a ++ f, b ++ seq iC (length f))).
Proof.
  induction f as [|x f IH]; intros iC.
  - exists []. simpl. rewrite Nat.add_0_r. split; auto. intros. now rewrite !app_nil_r.
  - destruct (IH (S iC)) as (ts & E & F). exists ([x + 1; iC + 1] :: ts). cbn [writeFace]. rewrite E. split. simpl. f_equal. lia.
    intros Hx Hc a b. cbn [foldM parseFaceIndex bind]. simpl length in *. unfold clampInt.
    specialize (Hx x (or_introl eq_refl)) as Hx1.
    rewrite !Z.min_l by lia. replace (Z.of_nat (x + 1) - 1)%Z with (Z.of_nat x) by lia. replace (Z.of_nat (iC + 1) - 1)%Z with (Z.of_nat iC) by lia.
    replace (Z.of_nat x <? 0)%Z with false by (symmetry; apply Z.ltb_ge; lia).
    replace (Z.of_nat iC =? -1)%Z with false by (symmetry; apply Z.eqb_neq; lia). cbn [bind]. rewrite !Nat2Z.id.
    rewrite F; try lia. 2:{ intros; apply Hx; simpl; auto. } rewrite <- !app_assoc. auto.
Qed.

Lemma writeFace_no f : exists ts, (forall iC, writeFace false iC f = (ts, iC))
  /\ ((forall i, In i f -> (Z.of_nat (i + 1) <= INT_MAX)%Z) ->
      forall a b, foldM (fun st tok =>
      let '(face, inds) := st in
      let* (pos, uv) := parseFaceIndex tok in
      if (pos <? 0)%Z then UB
      else Ok (face ++ [Z.to_nat pos], if (uv =? -1)%Z then inds else inds ++ [Z.to_nat uv])) ts (a, b) = Ok (a ++ f, b ++ repeat 0 (length f))).
Proof.
  induction f as [|x f IH].
  - exists []. simpl. split; auto. intros. now rewrite !app_nil_r.
  - destruct IH as (ts & E & F). exists ([x + 1] :: ts). split. intros; cbn [writeFace]. rewrite E. auto.
    intros Hx a b. cbn [foldM parseFaceIndex bind]. unfold clampInt.
    specialize (Hx x (or_introl eq_refl)) as Hx1.
    rewrite !Z.min_l by lia. replace (Z.of_nat (x + 1) - 1)%Z with (Z.of_nat x) by lia.
    replace (Z.of_nat x <? 0)%Z with false by (symmetry; apply Z.ltb_ge; lia). cbn [bind]. rewrite !Nat2Z.id.
    replace (0 =? -1)%Z with false by auto. rewrite F. 2:{ intros; apply Hx; simpl; auto. } rewrite <- !app_assoc. auto.
Qed.

Section Obj.
Context {P U : Type}.
Notation RL := (@readLine P U).

Fixpoint blocks (iC : nat) (fs : list (list nat)) : list (list nat) :=
  match fs with [] => [] | f :: t => seq iC (length f) :: blocks (iC + length f) t end.

Lemma read_faces_uv fs : forall iC vs cs F I, (forall f i, In f fs -> In i f -> (Z.of_nat (i + 1) <= INT_MAX)%Z) ->
  (Z.of_nat (iC + length (concat fs)) <= INT_MAX)%Z -> (forall f, In f fs -> f <> []) ->
  foldM RL (writeFaces true iC fs) (vs, cs, F, I) = Ok (vs, cs, F ++ fs, I ++ blocks iC fs).
Proof.
  induction fs as [|f fs IH]; intros iC vs cs F I Hi Hc Hn.
  - simpl. now rewrite !app_nil_r.
  - simpl. destruct (writeFace_uv f iC) as (ts & E & G). rewrite E. cbn [foldM readLine]. unfold readFace.
    simpl concat in Hc. rewrite app_length in Hc.
    rewrite G; [| intros; eapply Hi; simpl; eauto|lia]. cbn [bind app].
    assert (f <> []) by (apply Hn; simpl; auto). destruct f as [|x f]; [congruence|]. remember (x :: f) as g.
    assert (X : exists y l, seq iC (length g) = y :: l) by (subst g; simpl; eauto). destruct X as (y & l & X). rewrite X.
    rewrite IH; try (intros; eauto using in_cons); try lia. rewrite <- !app_assoc. simpl. auto.
Qed.

Definition nonempty (f : list nat) : bool := match f with [] => false | _ => true end.

Lemma read_faces_no fs : forall iC vs cs F I, (forall f i, In f fs -> In i f -> (Z.of_nat (i + 1) <= INT_MAX)%Z) ->
  foldM RL (writeFaces false iC fs) (vs, cs, F, I) = Ok (vs, cs, F ++ fs, I ++ map (fun f => repeat 0 (length f)) (filter nonempty fs)).
Proof.
  induction fs as [|f fs IH]; intros iC vs cs F I Hi.
  - simpl. now rewrite !app_nil_r.
  - simpl. destruct (writeFace_no f) as (ts & E & G). rewrite E. cbn [foldM readLine]. unfold readFace.
    rewrite G; [| intros; eapply Hi; simpl; eauto]. cbn [bind app].
    assert (Hi' : forall f0 i, In f0 fs -> In i f0 -> (Z.of_nat (i + 1) <= INT_MAX)%Z) by (intros; eapply Hi; simpl; eauto).
    destruct f as [|x f]; simpl; rewrite IH by auto; rewrite <- !app_assoc; auto.
Qed.

Lemma read_v vs0 : forall vs cs F I, foldM RL (map LV vs0) (vs, cs, F, I) = Ok (vs ++ vs0, cs, F, I).
Proof. induction vs0; intros; simpl. now rewrite app_nil_r. rewrite IHvs0, <- app_assoc. auto. Qed.
Lemma read_vt cs0 : forall vs cs F I, foldM RL (map LVt cs0) (vs, cs, F, I) = Ok (vs, cs ++ cs0, F, I).
Proof. induction cs0; intros; simpl. now rewrite app_nil_r. rewrite IHcs0, <- app_assoc. auto. Qed.

Lemma pick_nil (l : list nat) : @pickCoords U [] l = [].
Proof. unfold pickCoords. induction l; simpl; auto. destruct a; auto. Qed.

Lemma pick_seq (c : list U) : forall pre post acc,
  fold_left (fun acc i => match nth_error (pre ++ c ++ post) i with Some c => acc ++ [c] | None => acc end) (seq (length pre) (length c)) acc = acc ++ c.
Proof.
  induction c as [|x c IH]; intros; simpl. now rewrite app_nil_r.
  rewrite nth_error_app2, Nat.sub_diag by lia. simpl. specialize (IH (pre ++ [x]) post (acc ++ [x])).
  rewrite app_length in IH. simpl in IH. rewrite Nat.add_1_r in IH. rewrite <- !app_assoc in IH. simpl in IH. exact IH.
Qed.

Lemma pick_blocks (us : list (list U)) : forall (fs : list (list nat)) (pre : list U), map (@length U) us = map (@length nat) fs ->
  map (pickCoords (pre ++ concat us)) (blocks (length pre) fs) = us.
Proof.
  induction us as [|u us IH]; intros [|f fs] pre E; simpl in E; try discriminate; auto.
  injection E as E1 E2. simpl. f_equal.
  - rewrite <- E1. unfold pickCoords. apply (pick_seq u pre (concat us) []).
  - rewrite <- E1. rewrite <- app_length. rewrite app_assoc. apply IH; auto.
Qed.

Lemma obj_uv (m : pmesh P U) : hasParam m = true -> uvsMatch m -> (forall f, In f (polys m) -> f <> []) ->
  (forall f i, In f (polys m) -> In i f -> (Z.of_nat (i + 1) <= INT_MAX)%Z) -> (Z.of_nat (length (concat (polys m))) <= INT_MAX)%Z ->
  readObj (writeObj m) = Ok m.
Proof.
  intros Hp Hm Hn Hi Hc. unfold readObj, writeObj. rewrite Hp. rewrite foldM_app. cbn [repeat foldM readLine bind].
  rewrite foldM_app, read_v. cbn [bind app]. rewrite foldM_app, read_vt. cbn [bind app].
  rewrite read_faces_uv by auto. cbn [bind app]. f_equal. destruct Hm as [Hm|Hm]. unfold hasParam in Hp; rewrite Hm in Hp; discriminate.
  pose proof (pick_blocks (uvs m) (polys m) [] Hm) as X; simpl in X; rewrite X. destruct m; auto.
Qed.

Lemma obj_no (m : pmesh P U) : hasParam m = false ->
  (forall f i, In f (polys m) -> In i f -> (Z.of_nat (i + 1) <= INT_MAX)%Z) ->
  readObj (writeObj m) = Ok (mkP (polys m) (verts m) (map (fun _ => []) (filter nonempty (polys m)))).
Proof.
  intros Hp Hi. unfold readObj, writeObj. rewrite Hp. rewrite foldM_app. cbn [repeat foldM readLine bind].
  assert (Eu : uvs m = []) by (unfold hasParam in Hp; destruct (uvs m); auto; discriminate). rewrite Eu.
  rewrite foldM_app, read_v. cbn [bind app]. simpl concat. cbn [map app].
  rewrite read_faces_no by auto. cbn [bind app]. do 2 f_equal. rewrite map_map. apply map_ext. intros. apply pick_nil.
Qed.
End Obj.
