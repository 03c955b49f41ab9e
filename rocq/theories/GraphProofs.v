(** Correctness of the two searches *)
From Coq Require Import QArith Permutation.
From Verif Require Import Base MeshModel MeshSpec MeshBase MeshExec MeshOrbit GraphModel GraphSpec.
Open Scope Z_scope.

Lemma NoDup_app_intro {A} (l r : list A) : NoDup l -> NoDup r -> (forall x, In x l -> In x r -> False) -> NoDup (l ++ r).
Proof.
  induction l as [|a l IH]; cbn; auto. intros N1 N2 D. inversion N1; subst. constructor; [|apply IH; auto; intros; eapply D; eauto].
  rewrite in_app_iff. intros [X|X]; auto. eapply D; eauto.
Qed.
Lemma wZ_laws : WLaws wZ.
Proof. split; cbn; intros; lia. Qed.
Lemma wQ_laws : WLaws wQ.
Proof.
  split; cbn; intros.
  - destruct (Qlt_le_dec b a) as [H|H]; [right|left]; apply Qle_bool_iff; [apply Qlt_le_weak|]; auto.
  - rewrite Qle_bool_iff in *. eapply Qle_trans; eauto.
  - rewrite Qle_bool_iff in *. apply Qplus_le_compat; auto. apply Qle_refl.
  - rewrite Qle_bool_iff in *. setoid_replace a with (a + 0)%Q at 1 by ring. apply Qplus_le_compat; auto. apply Qle_refl.
Qed.
(** any monotone rounding that leaves the numbers of its format alone *)
Lemma wF_laws (F : Q -> Prop) zero rnd into : (forall x y, (x <= y)%Q -> (rnd x <= rnd y)%Q) -> (forall x, F x -> (rnd x == x)%Q) ->
  WLaws (wF F zero rnd into).
Proof.
  intros M I. split; cbn; intros.
  - destruct (Qlt_le_dec (proj1_sig b) (proj1_sig a)) as [H|H]; [right|left]; apply Qle_bool_iff; [apply Qlt_le_weak|]; auto.
  - rewrite Qle_bool_iff in *. eapply Qle_trans; eauto.
  - rewrite Qle_bool_iff in *. apply M. apply Qplus_le_compat; auto. apply Qle_refl.
  - rewrite Qle_bool_iff in *. rewrite <- (I (proj1_sig a)) at 1 by apply proj2_sig. apply M.
    setoid_replace (proj1_sig a) with (proj1_sig a + 0)%Q at 1 by ring. apply Qplus_le_compat; auto. apply Qle_refl.
Qed.

Section Proofs.
Context (W : weights) (L : WLaws W) (m : mesh) (V : Valid m) (len : Z -> wt W).
Context (Pos : forall h, liveH m h -> wle W (w0 W) (len (edge h)) = true).
Notation le a b := (wle W a b = true).
Notation tip h := (ve m (tw h)).
Notation wadd := (wadd W).
Let CN : Connected m := va_cn _ V.

Lemma le_refl a : le a a.
Proof. destruct (wl_total _ L a a); auto. Qed.
Lemma item_le x y : itemLt W x y = true -> le (fst x) (fst y).
Proof.
  unfold itemLt, wlt. destruct (wle W (fst y) (fst x)) eqn:A, (wle W (fst x) (fst y)) eqn:B; cbn; auto.
  destruct (wl_total _ L (fst x) (fst y)); congruence.
Qed.
Lemma item_nle x y : itemLt W x y = false -> le (fst y) (fst x).
Proof. unfold itemLt, wlt. destruct (wle W (fst y) (fst x)) eqn:A; cbn; auto. Qed.

Lemma popMin_ok q x r : popMin W q = Some (x, r) -> Permutation q (x :: r) /\ forall y, In y q -> le (fst x) (fst y).
Proof.
  revert x r. induction q as [|a q IH]; intros x r; cbn; [discriminate|].
  destruct (popMin W q) as [[y r']|] eqn:E.
  - destruct (IH y r' eq_refl) as (P & M). destruct (itemLt W y a) eqn:I; intros H; injection H as <- <-.
    + split.
      * rewrite P. apply perm_swap.
      * intros z [<-|Hz]; auto. apply item_le; auto.
    + split.
      * rewrite P. reflexivity.
      * intros z [<-|Hz]; [apply le_refl|]. eapply (wl_trans _ L); [apply item_nle; eauto|auto].
  - intros H. injection H as <- <-. destruct q; [|cbn in E; destruct (popMin W q) as [[? ?]|]; [destruct (itemLt W _ _)|]; discriminate].
    split; [reflexivity|]. intros z [<-|[]]. apply le_refl.
Qed.
Lemma popMin_nil q : popMin W q = None -> q = [].
Proof. destruct q; auto. cbn. destruct (popMin W q) as [[? ?]|]; [destruct (itemLt W _ _)|]; discriminate. Qed.

Lemma lookup_In {A} (l : list (Z * A)) v a : lookup l v = Some a -> In (v, a) l.
Proof. induction l as [|[u b] l IH]; cbn; [discriminate|]. destruct (u =? v) eqn:E; intros H; [injection H as ->; left; f_equal; lia|auto]. Qed.
Lemma present_true {A} (l : list (Z * A)) v : present l v = true <-> In v (map fst l).
Proof.
  unfold present. induction l as [|[u b] l IH]; cbn; [split; [discriminate|tauto]|].
  destruct (u =? v) eqn:E.
  - split; auto. intros _. left. lia.
  - rewrite IH. split; auto. intros [H|H]; auto. lia.
Qed.
Lemma present_false {A} (l : list (Z * A)) v : present l v = false <-> ~ In v (map fst l).
Proof. rewrite <- present_true. destruct (present l v); split; intros; congruence || (exfalso; auto). Qed.

(** paths *)
Lemma path_app a p b q c : isPath m a p b -> isPath m b q c -> isPath m a (p ++ q) c.
Proof. revert a. induction p as [|h p IH]; cbn; intros a; [intros ->; auto|]. intros (A & B & C) D. auto. Qed.
Lemma path_snoc a p h : isPath m a p (ve m h) -> liveH m h -> isPath m a (p ++ [h]) (tip h).
Proof. intros P H. eapply path_app; eauto. cbn. auto. Qed.
Lemma len_snoc p h : pathLen W len (p ++ [h]) = wadd (pathLen W len p) (len (edge h)).
Proof. unfold pathLen. rewrite fold_left_app. reflexivity. Qed.
Lemma len_app_le a p b q c : isPath m a p b -> isPath m b q c -> le (pathLen W len p) (pathLen W len (p ++ q)).
Proof.
  intros _. revert p b. induction q as [|h q IH]; intros p b; cbn.
  - intros _. rewrite app_nil_r. apply le_refl.
  - intros (A & B & C). replace (p ++ h :: q) with ((p ++ [h]) ++ q) by now rewrite <- app_assoc.
    eapply (wl_trans _ L); [|eapply IH; eauto]. rewrite len_snoc. apply (wl_infl _ L). auto.
Qed.

(** a path that starts in a set and ends outside of it has a first step leaving it *)
Lemma crossing (D : Z -> bool) a p b : isPath m a p b -> D a = true -> D b = false ->
  exists p1 h p2, p = p1 ++ h :: p2 /\ isPath m a p1 (ve m h) /\ liveH m h /\ D (ve m h) = true /\ D (tip h) = false /\ isPath m (tip h) p2 b.
Proof.
  revert a. induction p as [|h p IH]; intros a; cbn.
  - intros -> A B. congruence.
  - intros (A & B & C) Da Db. destruct (D (tip h)) eqn:E.
    + destruct (IH _ C E Db) as (p1 & h' & p2 & -> & P1 & P2 & P3 & P4 & P5). exists (h :: p1), h', p2. cbn. auto 10.
    + exists [], h, p. cbn. subst a. auto 10.
Qed.
Lemma tip_ok h : liveH m h -> vertexOf m (tw h) = Ok (tip h).
Proof. intros H. apply (cn_tw _ CN) in H. apply vertexOf_ok. apply (liveH_bnd m V) in H. lia. Qed.
Lemma tip_live h : liveH m h -> liveV m (tip h).
Proof. intros H. apply (cn_ve _ CN), (cn_tw _ CN). auto. Qed.
Lemma path_live a p b : liveV m a -> isPath m a p b -> liveV m b.
Proof. revert a. induction p; cbn; intros ? A; [now intros ->|]. intros (B & _ & C). eapply IHp; [|eauto]. apply tip_live; auto. Qed.

(** live halfedges leaving the vertices not yet in a set: what remains to be pushed *)
Definition remaining (D : Z -> bool) : nat := length (filter (fun h => liveHb m h && negb (D (ve m h))) (zseq (heFill m))).
Lemma remaining_split D D' v hs : D v = false -> (forall u, D' u = (u =? v) || D u) ->
  NoDup hs -> (forall h, In h hs <-> liveH m h /\ ve m h = v) -> remaining D = (length hs + remaining D')%nat.
Proof.
  intros Dv ED ND IN. unfold remaining.
  assert (Permutation (filter (fun h => liveHb m h && negb (D (ve m h))) (zseq (heFill m)))
    (hs ++ filter (fun h => liveHb m h && negb (D' (ve m h))) (zseq (heFill m)))) as P.
  { apply NoDup_Permutation.
    - apply NoDup_filter, zseq_NoDup.
    - apply NoDup_app_intro; auto.
      + apply NoDup_filter, zseq_NoDup.
      + intros x A B. apply IN in A. apply filter_In in B. rewrite ED in B. destruct B as (_ & B). destruct A as (_ & A).
        rewrite A, Z.eqb_refl in B. cbn in B. rewrite andb_false_r in B. discriminate.
    - intros x. rewrite in_app_iff, !filter_In, IN, zseq_In, ED. unfold liveH, liveHb.
      destruct (nx m x =? -1) eqn:E1; cbn.
      + split; [intros (_ & C); discriminate|]. intros [((A & B) & C)|(A & C)]; [lia|discriminate].
      + destruct (ve m x =? v) eqn:E2; cbn.
        * assert (ve m x = v) as -> by lia. rewrite Dv. cbn. split; [intros (A & _); left; repeat split; auto; lia|intros [((A & _) & _)|(_ & A)]; [auto|discriminate]].
        * split; [intros (A & B); right; auto|]. intros [(_ & B)|B]; auto. lia. }
  rewrite (Permutation_length P), app_length. reflexivity.
Qed.
Lemma remaining_le D : (remaining D <= Z.to_nat (heFill m))%nat.
Proof.
  unfold remaining. assert (forall (p : Z -> bool) l, (length (filter p l) <= length l)%nat) as FL by (intros p l; induction l as [|a l IH]; cbn; auto; destruct (p a); cbn; lia).
  etransitivity; [apply FL|]. pose proof (zseq_length (heFill m)). destruct (va_st _ V) as [_ _ _ _ _ S _ _ _]. lia.
Qed.

(** ** shortestEdgePath *)
Section Path.
Context (s : Z) (Ls : liveV m s).

Lemma enqueue_ok inc q v d : liveV m v -> exists hs, vertHalfedges m v = Ok hs /\ NoDup hs /\ (forall h, In h hs <-> liveH m h /\ ve m h = v) /\
  exists q', enqueue W m len s inc q v d = Ok q' /\ (length q' <= length hs + length q)%nat /\
  forall x, In x q' <-> In x q \/ exists h, liveH m h /\ ve m h = v /\ discovered s inc (tip h) = false /\ x = (wadd d (len (edge h)), h).
Proof.
  intros Lv. destruct (vertHalfedges_ok m V v Lv) as (hs & E & _ & _ & ND & IN). exists hs. split; auto. split; auto. split; auto.
  unfold enqueue. rewrite E. cbn [bind].
  assert (forall l q, (forall h, In h l -> liveH m h) -> exists q', foldM (fun q h => let* t := vertexOf m (tw h) in
     if discovered s inc t then Ok q else Ok ((wadd d (len (edge h)), h) :: q)) l q = Ok q' /\ (length q' <= length l + length q)%nat /\
     forall x, In x q' <-> In x q \/ exists h, In h l /\ discovered s inc (tip h) = false /\ x = (wadd d (len (edge h)), h)) as G.
  { clear E IN ND hs q. induction l as [|h l IH]; intros q HL; cbn [foldM].
    - exists q. split; auto. split; [cbn; lia|]. intros x. split; auto. intros [A|(h & [] & _)]; auto.
    - rewrite (tip_ok h) by (apply HL; now left). cbn [bind]. destruct (discovered s inc (tip h)) eqn:D; cbn [bind].
      + destruct (IH q) as (q' & A & B & C). { intros; apply HL; now right. }
        exists q'. split; auto. split; [cbn; lia|]. intros x. rewrite C. split.
        * intros [H|(h' & H1 & H2 & H3)]; auto. right. exists h'. cbn. auto.
        * intros [H|(h' & [<-|H1] & H2 & H3)]; auto; [congruence|]. right. exists h'. auto.
      + destruct (IH ((wadd d (len (edge h)), h) :: q)) as (q' & A & B & C). { intros; apply HL; now right. }
        exists q'. split; auto. split; [cbn in *; lia|]. intros x. rewrite C. cbn. split.
        * intros [[<-|H]|(h' & H1 & H2 & H3)]; auto; right; [exists h; auto|exists h'; auto].
        * intros [H|(h' & [<-|H1] & H2 & H3)]; auto. right. exists h'. auto. }
  destruct (G hs q) as (q' & A & B & C). { intros h H. now apply IN in H. }
  exists q'. split; auto. split; auto. intros x. rewrite C. split; (intros [H|(h & H1 & H2)]; [auto|]); right; exists h; [apply IN in H1; tauto|].
  destruct H2 as (? & ? & ?). split; [apply IN|]; auto.
Qed.

(** the tree of incoming halfedges *)
Fixpoint tree (inc : list (Z * Z)) : Prop :=
  match inc with
  | [] => True
  | (v, h) :: r => liveH m h /\ tip h = v /\ discovered s r v = false /\ discovered s r (ve m h) = true /\ tree r
  end.
(** the path from s to v in it *)
Fixpoint treePath (inc : list (Z * Z)) (v : Z) : list Z :=
  match inc with
  | [] => []
  | (u, h) :: r => if v =? u then treePath r (ve m h) ++ [h] else treePath r v
  end.
Lemma disc_cons inc v h u : discovered s ((v, h) :: inc) u = (u =? v) || discovered s inc u.
Proof. unfold discovered, present. cbn. rewrite (Z.eqb_sym v u). destruct (u =? v), (u =? s); auto. Qed.
Lemma disc_s inc : discovered s inc s = true.
Proof. unfold discovered. rewrite Z.eqb_refl. reflexivity. Qed.
Lemma treePath_s inc : tree inc -> treePath inc s = [].
Proof.
  induction inc as [|[u h] r IH]; cbn; auto. intros (_ & _ & A & _ & B). destruct (s =? u) eqn:E; auto.
  assert (u = s) by lia. subst. rewrite disc_s in A. discriminate.
Qed.
Lemma treePath_ok inc v : tree inc -> discovered s inc v = true -> isPath m s (treePath inc v) v.
Proof.
  revert v. induction inc as [|[u h] r IH]; intros v.
  - intros _ D. unfold discovered in D. cbn in *. rewrite orb_false_r in D. lia.
  - cbn [tree]. intros (A & B & C & D & T). rewrite disc_cons. cbn [treePath]. destruct (v =? u) eqn:E; cbn; auto.
    intros _. assert (v = u) by lia. subst v u. apply path_snoc; auto.
Qed.
Lemma treePath_old inc v h u : discovered s inc v = false -> discovered s inc u = true -> treePath ((v, h) :: inc) u = treePath inc u.
Proof. intros A B. cbn. destruct (u =? v) eqn:E; auto. assert (u = v) by lia. congruence. Qed.

Lemma walkBack_ok inc : tree inc -> forall fuel v acc, discovered s inc v = true -> (length (treePath inc v) < fuel)%nat ->
  walkBack fuel m s inc v acc = Ok (treePath inc v ++ acc).
Proof.
  intros T. induction fuel as [|k IH]; intros v acc D F; [lia|]. cbn [walkBack]. destruct (v =? s) eqn:E.
  - assert (v = s) by lia. subst. rewrite treePath_s; auto.
  - assert (exists h, lookup inc v = Some h /\ liveH m h /\ treePath inc v = treePath inc (ve m h) ++ [h] /\ discovered s inc (ve m h) = true) as (h & A & B & C & D').
    { clear IH F acc. induction inc as [|[u h] r IH]; [unfold discovered in D; cbn in D; rewrite E in D; discriminate|].
      cbn [tree] in T. destruct T as (T1 & T2 & T3 & T4 & T5). rewrite disc_cons in D. cbn [lookup]. rewrite (Z.eqb_sym u v). destruct (v =? u) eqn:X.
      - exists h. split; auto. split; auto. rewrite (treePath_old r u h (ve m h)) by auto. cbn [treePath]. rewrite X. split; auto. rewrite disc_cons, T4, orb_true_r. auto.
      - cbn in D. destruct (IH T5 D) as (h' & A & B & C & F). exists h'. split; auto. split; auto. rewrite (treePath_old r u h (ve m h')) by auto.
        cbn [treePath]. rewrite X. split; auto. rewrite disc_cons, F, orb_true_r. auto. }
    rewrite A. rewrite vertexOf_ok by (apply (liveH_bnd m V) in B; lia). cbn [bind].
    rewrite C in F. rewrite app_length in F. cbn in F. rewrite IH; auto; [|lia]. rewrite C, <- app_assoc. reflexivity.
Qed.
Lemma treePath_length inc v : (length (treePath inc v) <= length inc)%nat.
Proof. revert v. induction inc as [|[u h] r IH]; intros v; cbn; auto. destruct (v =? u); [rewrite app_length; cbn; specialize (IH (ve m h))|specialize (IH v)]; lia. Qed.

Notation pl p := (pathLen W len p).
Record Inv (inc : list (Z * Z)) (q : list (item W)) : Prop := {
  iv_tree : tree inc;
  iv_live : forall v, discovered s inc v = true -> liveV m v;
  iv_front : forall h, liveH m h -> discovered s inc (ve m h) = true -> discovered s inc (tip h) = false ->
    In (wadd (pl (treePath inc (ve m h))) (len (edge h)), h) q;
  iv_queue : forall d h, In (d, h) q -> liveH m h /\ discovered s inc (ve m h) = true /\ d = wadd (pl (treePath inc (ve m h))) (len (edge h));
  iv_best : forall v p, discovered s inc v = true -> isPath m s p v -> le (pl (treePath inc v)) (pl p) }.

Lemma inv_accept inc q d h q1 q2 : Inv inc q -> popMin W q = Some ((d, h), q1) -> discovered s inc (tip h) = false ->
  (forall x, In x q2 <-> In x q1 \/ exists h', liveH m h' /\ ve m h' = tip h /\ discovered s ((tip h, h) :: inc) (tip h') = false /\ x = (wadd d (len (edge h')), h')) ->
  Inv ((tip h, h) :: inc) q2.
Proof.
  intros [T LV FR QU BE] PM ND Q2. destruct (popMin_ok _ _ _ PM) as (P & MIN).
  assert (In (d, h) q) as IQ by (rewrite P; now left). destruct (QU _ _ IQ) as (Lh & Dh & Ed).
  assert (tree ((tip h, h) :: inc)) as T' by (cbn; auto).
  assert (treePath ((tip h, h) :: inc) (tip h) = treePath inc (ve m h) ++ [h]) as TP. { cbn. rewrite Z.eqb_refl. auto. }
  split; auto.
  - intros v. rewrite disc_cons. destruct (v =? tip h) eqn:E; cbn; auto. intros _. assert (v = tip h) as -> by lia. apply tip_live; auto.
  - intros h' Lh' D1 D2. apply Q2. rewrite disc_cons in D1. destruct (ve m h' =? tip h) eqn:E.
    + right. exists h'. assert (ve m h' = tip h) as E' by lia. split; auto. split; auto. split; auto. rewrite E', TP, len_snoc, <- Ed. reflexivity.
    + left. cbn in D1. rewrite disc_cons in D2. apply orb_false_iff in D2. destruct D2 as (D2 & D3). rewrite treePath_old by auto.
      pose proof (FR _ Lh' D1 D3) as IN. rewrite P in IN. destruct IN as [IN|IN]; auto. injection IN as _ E2. subst h'. lia.
  - intros d' h' IN. apply Q2 in IN. destruct IN as [IN|(h1 & L1 & V1 & D1 & E1)].
    + assert (In (d', h') q) as IN' by (rewrite P; now right). destruct (QU _ _ IN') as (A & B & C). split; auto. rewrite disc_cons, B, orb_true_r. split; auto.
      rewrite treePath_old by auto. auto.
    + injection E1 as -> ->. split; auto. rewrite V1. split; [rewrite disc_cons, Z.eqb_refl; auto|]. rewrite TP, len_snoc, <- Ed. reflexivity.
  - intros v p. rewrite disc_cons. destruct (v =? tip h) eqn:E.
    + intros _ IP. assert (v = tip h) by lia. subst v. rewrite TP, len_snoc, <- Ed.
      destruct (crossing (discovered s inc) s p (tip h) IP (disc_s inc) ND) as (p1 & h1 & p2 & -> & P1 & P2 & P3 & P4 & P5).
      pose proof (MIN _ (FR _ P2 P3 P4)) as M. cbn in M.
      eapply (wl_trans _ L); [exact M|]. replace (p1 ++ h1 :: p2) with ((p1 ++ [h1]) ++ p2) by now rewrite <- app_assoc.
      eapply (wl_trans _ L); [|eapply len_app_le; [apply path_snoc; eauto|eauto]]. rewrite len_snoc. apply (wl_mono _ L). auto.
    + cbn [orb]. intros D IP. rewrite treePath_old; auto.
Qed.

Lemma pathLoop_ok g : forall fuel inc q, Inv inc q -> discovered s inc g = false -> (length q + remaining (discovered s inc) < fuel)%nat ->
  exists p, pathLoop W fuel m len s g inc q = Ok p /\ (p <> [] -> shortest m W len s p g) /\ (p = [] -> forall p', ~ isPath m s p' g).
Proof.
  induction fuel as [|k IH]; intros inc q I DG F; [lia|]. cbn [pathLoop]. destruct (popMin W q) as [[[d h] q1]|] eqn:PM.
  - destruct (popMin_ok _ _ _ PM) as (P & MIN). assert (In (d, h) q) as IQ by (rewrite P; now left). destruct (iv_queue _ _ I _ _ IQ) as (Lh & Dh & Ed).
    apply Permutation_length in P as PL. cbn in PL. rewrite tip_ok by auto. cbn [bind]. destruct (discovered s inc (tip h)) eqn:D.
    + apply IH; auto; [|lia]. destruct I as [T LV FR QU BE]. split; auto.
      * intros h' A B C. pose proof (FR _ A B C) as X. rewrite P in X. destruct X as [X|X]; auto. injection X as _ ->. congruence.
      * intros d' h' X. apply QU. rewrite P. now right.
    + assert (forall q2, (forall x, In x q2 <-> In x q1 \/ exists h', liveH m h' /\ ve m h' = tip h /\ discovered s ((tip h, h) :: inc) (tip h') = false /\ x = (wadd d (len (edge h')), h')) -> Inv ((tip h, h) :: inc) q2) as STEP
        by (intros q2; apply (inv_accept inc q d h q1 q2); auto).
      destruct (enqueue_ok ((tip h, h) :: inc) q1 (tip h) d (tip_live h Lh)) as (hs & _ & N1 & N2 & q2 & E2 & N3 & N4).
      pose proof (STEP q2 N4) as I2. destruct (tip h =? g) eqn:EG.
      * assert (tip h = g) by lia. subst g. rewrite walkBack_ok.
        -- rewrite app_nil_r. eexists. split; [reflexivity|]. split.
           ++ intros _. split.
              ** apply treePath_ok; [apply (iv_tree _ _ I2)|]. rewrite disc_cons, Z.eqb_refl. auto.
              ** intros q' X. apply (iv_best _ _ I2); auto. rewrite disc_cons, Z.eqb_refl. auto.
           ++ cbn. rewrite Z.eqb_refl. intros X. destruct (treePath inc (ve m h)); discriminate.
        -- apply (iv_tree _ _ I2).
        -- rewrite disc_cons, Z.eqb_refl. auto.
        -- pose proof (treePath_length ((tip h, h) :: inc) (tip h)). lia.
      * rewrite E2. cbn [bind]. apply IH; auto.
        -- rewrite disc_cons, DG, orb_false_r. rewrite Z.eqb_sym. auto.
        -- pose proof (remaining_split (discovered s inc) (discovered s ((tip h, h) :: inc)) (tip h) hs D (disc_cons inc (tip h) h) N1 N2). lia.
  - apply popMin_nil in PM. subst q. exists []. split; auto. split; [congruence|]. intros _ p' X.
    destruct (crossing (discovered s inc) s p' g X (disc_s inc) DG) as (p1 & h1 & p2 & _ & P1 & P2 & P3 & P4 & P5).
    destruct (iv_front _ _ I _ P2 P3 P4).
Qed.

Lemma shortestEdgePath_ok c g : exists p, shortestEdgePath W m len c s g = Ok (p, c) /\
  (s = g -> p = []) /\ (p <> [] -> shortest m W len s p g) /\ (p = [] -> s = g \/ forall p', ~ isPath m s p' g).
Proof.
  unfold shortestEdgePath. destruct (s =? g) eqn:E.
  - exists []. split; auto. split; auto. split; [congruence|]. intros _. left. lia.
  - destruct (enqueue_ok [] [] s (w0 W) Ls) as (hs & _ & N1 & N2 & q & E2 & N3 & N4). rewrite E2. cbn [bind].
    assert (discovered s [] g = false) as DG. { unfold discovered. cbn. rewrite orb_false_r, Z.eqb_sym. auto. }
    destruct (pathLoop_ok g (S (Z.to_nat (heFill m))) [] q) as (p & E3 & A & B).
    + split.
      * exact I.
      * intros v D. unfold discovered in D. cbn in D. rewrite orb_false_r in D. assert (v = s) as -> by lia. auto.
      * intros h Lh D1 D2. apply N4. right. exists h. unfold discovered in D1. cbn in D1. rewrite orb_false_r in D1. repeat split; auto; try apply Lh. lia.
      * intros d h X. apply N4 in X. destruct X as [[]|(h' & A & B & C & D)]. injection D as -> ->. split; auto. split; [rewrite B; apply disc_s|]. reflexivity.
      * intros v p D X. unfold discovered in D. cbn in D. rewrite orb_false_r in D. assert (v = s) as -> by lia. cbn.
        change (le (pl []) (pl ([] ++ p))). eapply len_app_le; [|exact X]. reflexivity.
    + auto.
    + assert (remaining (fun _ => false) = (length hs + remaining (discovered s []))%nat) as R
        by (apply (remaining_split _ _ s); auto; intros u; unfold discovered; cbn; auto).
      pose proof (remaining_le (fun _ => false)) as R'. cbn in N3. lia.
    + rewrite E3. cbn [bind]. exists p. split; [f_equal; f_equal; lia|]. split; [lia|]. split; auto.
Qed.
End Path.

(** ** vertexDijkstraDistanceWithinRadius *)
Lemma other_ok h : liveH m h -> otherVertex m (edge h) (ve m h) = Ok (tip h).
Proof.
  intros H. unfold otherVertex.
  assert (eHe (edge h) = h \/ eHe (edge h) = tw h) as E by (apply edge_eq; apply edge_eHe).
  assert (liveH m (eHe (edge h))) as H0 by (destruct E as [->| ->]; auto; apply (cn_tw _ CN); auto).
  rewrite vertexOf_ok by (apply (liveH_bnd m V) in H0; lia). cbn [bind].
  rewrite next_live by auto. cbn [bind]. rewrite vertexOf_ok by (apply (cn_nx _ CN) in H0; apply (liveH_bnd m V) in H0; lia).
  rewrite (cn_vnx _ CN) by auto. destruct E as [->| ->].
  - rewrite Z.eqb_refl. auto.
  - rewrite tw_tw. destruct (ve m (tw h) =? ve m h) eqn:X; auto. f_equal. lia.
Qed.

Section Ball.
Context (s : Z) (Ls : liveV m s) (rad : wt W).
Notation pl p := (pathLen W len p).

Definition reached (dist : list (Z * wt W)) v d := In (v, d) dist.
Record BInv (dist : list (Z * wt W)) (q : list (item W)) : Prop := {
  bi_nodup : NoDup (map fst dist);
  bi_src : In s (map fst dist) \/ In (w0 W, s) q;
  bi_path : forall v d, In (v, d) dist \/ In (d, v) q -> exists p, isPath m s p v /\ d = pl p /\ (v = s \/ le d rad);
  bi_front : forall h d, liveH m h -> In (ve m h, d) dist -> ~ In (tip h) (map fst dist) -> le (wadd d (len (edge h))) rad ->
    In (wadd d (len (edge h)), tip h) q;
  bi_best : forall v d p, In (v, d) dist -> isPath m s p v -> le d (pl p) }.

Lemma ball_push (dist : list (Z * wt W)) (q : list (item W)) v d : liveV m v -> exists hs, vertHalfedges m v = Ok hs /\ NoDup hs /\ (forall h, In h hs <-> liveH m h /\ ve m h = v) /\
  exists q', foldM (fun q h => let* t := otherVertex m (edge h) v in let td := wadd d (len (edge h)) in
     if wle W td rad && negb (present dist t) then Ok ((td, t) :: q) else Ok q) hs q = Ok q' /\ (length q' <= length hs + length q)%nat /\
  forall x, In x q' <-> In x q \/ exists h, liveH m h /\ ve m h = v /\ le (wadd d (len (edge h))) rad /\ ~ In (tip h) (map fst dist) /\ x = (wadd d (len (edge h)), tip h).
Proof.
  intros Lv. destruct (vertHalfedges_ok m V v Lv) as (hs & E & _ & _ & ND & IN). exists hs. split; auto. split; auto. split; auto.
  assert (forall l q, (forall h, In h l -> liveH m h /\ ve m h = v) -> exists q', foldM (fun q h => let* t := otherVertex m (edge h) v in let td := wadd d (len (edge h)) in
     if wle W td rad && negb (present dist t) then Ok ((td, t) :: q) else Ok q) l q = Ok q' /\ (length q' <= length l + length q)%nat /\
     forall x, In x q' <-> In x q \/ exists h, In h l /\ le (wadd d (len (edge h))) rad /\ ~ In (tip h) (map fst dist) /\ x = (wadd d (len (edge h)), tip h)) as G.
  { clear E IN ND hs q. induction l as [|h l IH]; intros q HL; cbn [foldM].
    - exists q. split; auto. split; [cbn; lia|]. intros x. split; auto. intros [A|(h & [] & _)]; auto.
    - destruct (HL h (or_introl eq_refl)) as (Lh & Vh). assert (otherVertex m (edge h) v = Ok (tip h)) as OV by (rewrite <- Vh; apply other_ok; auto). rewrite OV. cbn [bind].
      destruct (wle W (wadd d (len (edge h))) rad && negb (present dist (tip h))) eqn:D.
      + apply andb_true_iff in D. destruct D as (D1 & D2). apply negb_true_iff, present_false in D2. cbn [bind].
        destruct (IH ((wadd d (len (edge h)), tip h) :: q)) as (q' & A & B & C). { intros; apply HL; now right. }
        exists q'. split; auto. split; [cbn in *; lia|]. intros x. rewrite C. cbn. split.
        * intros [[<-|H]|(h' & H1 & H2 & H3)]; auto; right; [exists h; auto|exists h'; auto].
        * intros [H|(h' & [<-|H1] & H2 & H3 & H4)]; auto. right. exists h'. auto.
      + destruct (IH q) as (q' & A & B & C). { intros; apply HL; now right. } cbn [bind].
        exists q'. split; auto. split; [cbn; lia|]. intros x. rewrite C. split.
        * intros [H|(h' & H1 & H2 & H3)]; auto. right. exists h'. cbn. auto.
        * intros [H|(h' & [<-|H1] & H2 & H3 & H4)]; auto; [|right; exists h'; auto].
          apply present_false in H3. rewrite H2, H3 in D. discriminate. }
  destruct (G hs q) as (q' & A & B & C). { intros h H. now apply IN in H. }
  exists q'. split; auto. split; auto. intros x. rewrite C. split; (intros [H|(h & H1 & H2)]; [auto|]); right; exists h; [apply IN in H1; tauto|].
  destruct H2 as (? & ? & ?). split; [apply IN|]; auto.
Qed.

Lemma ballLoop_ok : forall fuel dist q, BInv dist q -> (length q + remaining (present dist) < fuel)%nat ->
  exists dist', ballLoop W fuel m len rad dist q = Ok dist' /\ BInv dist' [].
Proof.
  induction fuel as [|k IH]; intros dist q I F; [lia|]. cbn [ballLoop]. destruct (popMin W q) as [[[d v] q1]|] eqn:PM.
  - destruct (popMin_ok _ _ _ PM) as (P & MIN). assert (In (d, v) q) as IQ by (rewrite P; now left).
    apply Permutation_length in P as PL. cbn in PL. destruct (present dist v) eqn:D.
    + apply IH; [|lia]. apply present_true in D. destruct I as [ND SR PA FR BE]. split; auto.
      * destruct SR as [A|A]; auto. rewrite P in A. destruct A as [A|A]; auto. injection A as _ ->. auto.
      * intros u d' [X|X]; apply PA; auto. right. rewrite P. now right.
      * intros h d' A B C E. pose proof (FR _ _ A B C E) as X. rewrite P in X. destruct X as [X|X]; auto. injection X as _ X. rewrite X in D. tauto.
    + destruct (bi_path _ _ I v d (or_intror IQ)) as (p0 & P0 & Ed & Er).
      assert (liveV m v) as Lv by (eapply path_live; [|exact P0]; auto).
      destruct (ball_push ((v, d) :: dist) q1 v d Lv) as (hs & E1 & N1 & N2 & q2 & E2 & N3 & N4). rewrite E1. cbn [bind]. match goal with |- context [bind ?e _] => replace e with (@Ok (list (item W)) q2) by (symmetry; exact E2) end. cbn [bind].
      pose proof D as D'. apply present_false in D'. apply IH.
      * destruct I as [ND SR PA FR BE]. split.
        -- cbn. constructor; auto.
        -- destruct SR as [A|A]; [left; now right|]. rewrite P in A. destruct A as [A|A]; [left; left; cbn; congruence|]. right. apply N4. auto.
        -- intros u d' [[X|X]|X].
           ++ injection X as -> ->. apply PA. auto.
           ++ apply PA. auto.
           ++ apply N4 in X. destruct X as [X|(h & L1 & V1 & R1 & D1 & X)]; [apply PA; right; rewrite P; now right|].
              injection X as -> ->. exists (p0 ++ [h]). split; [apply path_snoc; auto; congruence|]. rewrite len_snoc, <- Ed. auto.
        -- intros h d' Lh X NI R. apply N4. destruct X as [X|X].
           ++ injection X as X1 X2. subst d'. right. exists h. split; auto.
           ++ left. assert (In (wadd d' (len (edge h)), tip h) q) as X' by (apply FR; auto; intros Y; apply NI; now right).
              rewrite P in X'. destruct X' as [X'|X']; auto. injection X' as _ X'. exfalso. apply NI. left. auto.
        -- intros u d' p [X|X] IP; [|eapply BE; eauto]. injection X as <- <-.
           destruct (present dist s) eqn:Es.
           ++ destruct (crossing (present dist) s p v IP Es D) as (p1 & h1 & p2 & -> & P1 & P2 & P3 & P4 & P5).
              unfold present in P3. destruct (lookup dist (ve m h1)) as [d1|] eqn:L1; [|discriminate]. apply lookup_In in L1. apply present_false in P4.
              replace (p1 ++ h1 :: p2) with ((p1 ++ [h1]) ++ p2) by now rewrite <- app_assoc.
              assert (le (wadd d1 (len (edge h1))) (pl ((p1 ++ [h1]) ++ p2))) as Z0.
              { eapply (wl_trans _ L); [|eapply len_app_le; [apply path_snoc; eauto|eauto]]. rewrite len_snoc. apply (wl_mono _ L). eapply BE; eauto. }
              destruct (wle W (wadd d1 (len (edge h1))) rad) eqn:ER.
              ** pose proof (MIN _ (FR _ _ P2 L1 P4 ER)) as M. cbn in M. eapply (wl_trans _ L); eauto.
              ** destruct Er as [->|Er]; [exfalso; apply D'; apply present_true; auto|].
                 destruct (wl_total _ L d (wadd d1 (len (edge h1)))) as [Y|Y]; [eapply (wl_trans _ L); eauto|].
                 assert (le (wadd d1 (len (edge h1))) rad) by (eapply (wl_trans _ L); eauto). congruence.
           ++ apply present_false in Es. destruct SR as [A|A]; [tauto|]. pose proof (MIN _ A) as M. cbn in M. eapply (wl_trans _ L); [exact M|].
              change (le (pl []) (pl ([] ++ p))). eapply len_app_le; [|exact IP]. reflexivity.
      * pose proof (remaining_split (present dist) (present ((v, d) :: dist)) v hs D) as R.
        rewrite R in F; auto; [unfold item in *; lia|]. intros u. unfold present. cbn. rewrite (Z.eqb_sym v u). destruct (u =? v); auto.
  - apply popMin_nil in PM. subst q. eauto.
Qed.

Lemma present_lookup {A} (l : list (Z * A)) v : In v (map fst l) -> exists a, lookup l v = Some a.
Proof. intros H. apply present_true in H. unfold present in H. destruct (lookup l v); eauto. discriminate. Qed.

Lemma ball_ok c : exists dist, vertexDijkstraDistanceWithinRadius W m len c s rad = Ok (dist, c + 1) /\ NoDup (map fst dist) /\
  (forall v d, In (v, d) dist -> exists p, shortest m W len s p v /\ d = pl p /\ (v = s \/ le d rad)) /\
  (forall v p, isPath m s p v -> le (pl p) rad -> In v (map fst dist)) /\ In s (map fst dist).
Proof.
  unfold vertexDijkstraDistanceWithinRadius.
  destruct (ballLoop_ok (S (S (Z.to_nat (heFill m)))) [] [(w0 W, s)]) as (dist & E & I).
  - split; cbn.
    + constructor.
    + auto.
    + intros v d [[]|[X|[]]]. injection X as <- <-. exists []. cbn. auto.
    + intros h d _ [].
    + intros v d p [].
  - pose proof (remaining_le (@present (wt W) [])). cbn [length] in *. lia.
  - rewrite E. cbn [bind]. exists dist. split; auto. split; [apply (bi_nodup _ _ I)|]. split; [|split].
    + intros v d X. destruct (bi_path _ _ I v d (or_introl X)) as (p & A & B & C). exists p. split; [|auto]. split; auto. intros q Y. rewrite <- B. eapply (bi_best _ _ I); eauto.
    + intros v p IP R. destruct (bi_src _ _ I) as [S0|[]].
      destruct (present dist v) eqn:D; [apply present_true; auto|].
      destruct (crossing (present dist) s p v IP) as (p1 & h1 & p2 & -> & P1 & P2 & P3 & P4 & P5); auto. { apply present_true; auto. }
      unfold present in P3. destruct (lookup dist (ve m h1)) as [d1|] eqn:L1; [|discriminate]. apply lookup_In in L1. apply present_false in P4.
      destruct (bi_front _ _ I h1 d1 P2 L1 P4).
      eapply (wl_trans _ L); [|exact R]. replace (p1 ++ h1 :: p2) with ((p1 ++ [h1]) ++ p2) by now rewrite <- app_assoc.
      eapply (wl_trans _ L); [|eapply len_app_le; [apply path_snoc; eauto|eauto]]. rewrite len_snoc. apply (wl_mono _ L). eapply (bi_best _ _ I); eauto.
    + destruct (bi_src _ _ I) as [S0|[]]; auto.
Qed.
End Ball.
End Proofs.
