(** initializeHalfedgeNeighbors: the cycles of halfedges out of and into a vertex *)
From Verif Require Import Base MeshModel MeshSpec MeshBase GenModel GenSpec GenBase GenBuild1.
Open Scope Z_scope.

(** the prefix sums *)
Lemma zlen_prefixSums l acc : zlen (prefixSums l acc) = zlen l + 1.
Proof. revert acc. induction l as [|d l IH]; intros acc; [reflexivity|]. cbn [prefixSums]. rewrite !zlen_cons, IH. reflexivity. Qed.
Lemma getZ_cons_0 x l : getZ (x :: l) 0 = x. Proof. reflexivity. Qed.
Lemma getZ_cons_S x l i : 0 <= i -> getZ (x :: l) (i + 1) = getZ l i.
Proof. intros H. unfold getZ. destruct (i + 1 <? 0) eqn:E; [lia|]. destruct (i <? 0) eqn:E'; [lia|]. replace (Z.to_nat (i + 1)) with (S (Z.to_nat i)) by lia. reflexivity. Qed.

Section Cache.
Context (N nV : Z) (HN : 0 <= N) (HV : 0 <= nV) (ka : Z -> Z) (Hka : forall h, 0 <= h < N -> 0 <= ka h < nV).
Definition cnt (n v : Z) : Z := countb (fun h => ka h =? v) n.
Definition st (v : Z) : Z := countb (fun h => ka h <? v) N.
Definition rank (h : Z) : Z := cnt h (ka h).
Definition pos (h : Z) : Z := st (ka h) + rank h.

Lemma cnt_S n v : 0 <= n -> cnt (n + 1) v = cnt n v + (if ka n =? v then 1 else 0).
Proof. intros H. unfold cnt. rewrite countb_S by auto. unfold b2z. reflexivity. Qed.
Lemma cnt_0 v : cnt 0 v = 0. Proof. apply countb_0. lia. Qed.
Lemma cnt_nonneg n v : 0 <= cnt n v. Proof. apply countb_nonneg. Qed.
Lemma cnt_mono n : 0 <= n -> forall k, 0 <= k <= n -> forall v, cnt k v <= cnt n v.
Proof.
  revert n. apply (Z_ind_nonneg (fun n => forall k, 0 <= k <= n -> forall v, cnt k v <= cnt n v)).
  - intros k Hk v. replace k with 0 by lia. lia.
  - intros n Hn IH k Hk v. destruct (Z.eq_dec k (n + 1)) as [->|]; [lia|]. specialize (IH k ltac:(lia) v). rewrite cnt_S by auto. destruct (_ =? _); lia.
Qed.
Lemma st_S v : st (v + 1) = st v + cnt N v.
Proof.
  unfold st, cnt. clear Hka. revert HN. generalize N. apply (Z_ind_nonneg (fun n => countb (fun h => ka h <? v + 1) n = countb (fun h => ka h <? v) n + countb (fun h => ka h =? v) n)).
  - rewrite !countb_0 by lia. reflexivity.
  - intros n Hn IH. rewrite !countb_S by auto. rewrite IH. unfold b2z. destruct (ka n <? v + 1) eqn:A, (ka n <? v) eqn:B, (ka n =? v) eqn:C; lia.
Qed.
Lemma st_0 : st 0 = 0.
Proof.
  unfold st. rewrite (countb_ext _ (fun _ => false)); [|intros i Hi; specialize (Hka i Hi); lia].
  generalize N, HN. apply (Z_ind_nonneg (fun n => countb (fun _ => false) n = 0)); [apply countb_0; lia|]. intros n Hn IH. rewrite countb_S, IH by auto. reflexivity.
Qed.
Lemma st_le v : 0 <= st v <= N. Proof. split; [apply countb_nonneg|apply countb_le; auto]. Qed.
Lemma st_mono v w : v <= w -> st v <= st w.
Proof.
  intros H. replace w with (v + (w - v)) by lia. assert (0 <= w - v) as P by lia. revert P. generalize (w - v).
  apply (Z_ind_nonneg (fun k => st v <= st (v + k))); [rewrite Z.add_0_r; lia|]. intros n Hn IH. rewrite Z.add_assoc, st_S. pose proof (cnt_nonneg N (v + n)). lia.
Qed.
Lemma rank_lt h : 0 <= h < N -> 0 <= rank h < cnt N (ka h).
Proof.
  intros H. unfold rank. split; [apply cnt_nonneg|]. pose proof (cnt_mono N HN (h + 1) ltac:(lia) (ka h)) as M. rewrite cnt_S in M by lia.
  rewrite Z.eqb_refl in M. lia.
Qed.
Lemma rank_inj a b : 0 <= a < N -> 0 <= b < N -> ka a = ka b -> rank a = rank b -> a = b.
Proof.
  intros Ha Hb K R. unfold rank in R. rewrite K in R. destruct (Z.lt_trichotomy a b) as [C|[C|C]]; auto; exfalso.
  - pose proof (cnt_mono b ltac:(lia) (a + 1) ltac:(lia) (ka b)) as M. rewrite cnt_S in M by lia. rewrite K, Z.eqb_refl in M. lia.
  - pose proof (cnt_mono a ltac:(lia) (b + 1) ltac:(lia) (ka b)) as M. rewrite cnt_S in M by lia. rewrite Z.eqb_refl in M. lia.
Qed.
Lemma rank_surj v : forall n, 0 <= n -> forall t, 0 <= t < cnt n v -> exists h, 0 <= h < n /\ ka h = v /\ rank h = t.
Proof.
  apply (Z_ind_nonneg (fun n => forall t, 0 <= t < cnt n v -> exists h, 0 <= h < n /\ ka h = v /\ rank h = t)).
  - intros t Ht. rewrite cnt_0 in Ht. lia.
  - intros n Hn IH t Ht. rewrite cnt_S in Ht by auto. destruct (Z_lt_le_dec t (cnt n v)) as [C|C].
    + destruct (IH t ltac:(lia)) as (h & H1 & H2). exists h. split; [lia|auto].
    + destruct (ka n =? v) eqn:E; [|lia]. exists n. split; [lia|]. split; [lia|]. unfold rank. replace (ka n) with v by lia. lia.
Qed.
Lemma pos_range h : 0 <= h < N -> 0 <= pos h < N.
Proof.
  intros H. pose proof (rank_lt h H) as R. pose proof (st_le (ka h + 1)) as S1. rewrite st_S in S1. pose proof (st_le (ka h)). unfold pos. lia.
Qed.
Lemma pos_inj a b : 0 <= a < N -> 0 <= b < N -> pos a = pos b -> a = b.
Proof.
  intros Ha Hb E. pose proof (rank_lt a Ha) as Ra. pose proof (rank_lt b Hb) as Rb. unfold pos in E.
  destruct (Z.lt_trichotomy (ka a) (ka b)) as [C|[C|C]].
  - pose proof (st_mono (ka a + 1) (ka b) ltac:(lia)) as M. rewrite st_S in M. lia.
  - apply rank_inj; auto. rewrite C in E. lia.
  - pose proof (st_mono (ka b + 1) (ka a) ltac:(lia)) as M. rewrite st_S in M. lia.
Qed.

Lemma prefixSums_step l : forall acc v, 0 <= v < zlen l -> getZ (prefixSums l acc) (v + 1) = getZ (prefixSums l acc) v + getZ l v.
Proof.
  induction l as [|d l IH]; intros acc v Hv; [change (zlen []) with 0 in Hv; lia|]. cbn [prefixSums]. rewrite zlen_cons in Hv. rewrite getZ_cons_S by lia.
  destruct (Z.eq_dec v 0) as [->|Nv]; [destruct l; reflexivity|]. replace v with ((v - 1) + 1) at 2 3 by lia. rewrite !getZ_cons_S by lia.
  rewrite <- IH by lia. f_equal. lia.
Qed.
Lemma prefixSums_st deg : zlen deg = nV -> (forall v, 0 <= v < nV -> getZ deg v = cnt N v) -> forall v, 0 <= v -> v <= nV -> getZ (prefixSums deg 0) v = st v.
Proof.
  intros L D. apply (Z_ind_nonneg (fun v => v <= nV -> getZ (prefixSums deg 0) v = st v)).
  - intros _. rewrite st_0. destruct deg; reflexivity.
  - intros v Hv IH Lv. rewrite prefixSums_step by lia. rewrite IH, D, st_S by lia. reflexivity.
Qed.

(** ** the cache *)
Lemma cache_ok m inc : gVFill m = nV -> gHeFill m = N -> gLiveHes m = zseq N -> (forall h, 0 <= h < N -> gKey m inc h = Ok (ka h)) ->
  exists index start, gCache m inc = Ok (index, start) /\ zlen index = N /\ zlen start = nV + 1 /\
    (forall v, 0 <= v <= nV -> getZ start v = st v) /\ (forall h, 0 <= h < N -> getZ index (pos h) = h).
Proof.
  intros E1 E2 E3 KY. unfold gCache. rewrite E1, E2, E3.
  assert (LR : forall x k, zlen (repeat x k) = Z.of_nat k) by (intros x k; unfold zlen; rewrite repeat_length; reflexivity).
  assert (D : forall n, 0 <= n -> n <= N -> exists deg, foldM (fun d h => let* v := gKey m inc h in let* x := rdZ d v in wrZ d v (x + 1)) (zseq n) (repeat 0 (Z.to_nat nV)) = Ok deg /\
     zlen deg = nV /\ forall v, 0 <= v < nV -> getZ deg v = cnt n v).
  { apply (Z_ind_nonneg (fun n => n <= N -> exists deg, foldM (fun d h => let* v := gKey m inc h in let* x := rdZ d v in wrZ d v (x + 1)) (zseq n) (repeat 0 (Z.to_nat nV)) = Ok deg /\
     zlen deg = nV /\ forall v, 0 <= v < nV -> getZ deg v = cnt n v)).
    - intros _. eexists. split; [reflexivity|]. rewrite LR. split; [lia|]. intros v Hv. rewrite cnt_0. unfold getZ. destruct (v <? 0) eqn:Ev; [lia|].
      transitivity (nth (Z.to_nat v) (repeat 0 (Z.to_nat nV)) 0); [apply nth_indep; rewrite repeat_length; lia|apply nth_repeat].
    - intros n Hn IH L. destruct (IH ltac:(lia)) as (deg & F & L1 & D1). rewrite zseq_S by auto. rewrite foldM_app, F. cbn [bind foldM].
      pose proof (Hka n ltac:(lia)) as B. rewrite KY by lia. cbn [bind]. rewrite rdZ_ok by lia. cbn [bind]. rewrite wrZ_ok by lia. cbn [bind].
      eexists. split; [reflexivity|]. rewrite zlen_updZ. split; auto. intros v Hv. rewrite getZ_updZ by lia. rewrite cnt_S by auto.
      destruct (v =? ka n) eqn:E; [replace (ka n =? v) with true by lia; rewrite D1 by auto; replace (ka n) with v by lia; auto|].
      replace (ka n =? v) with false by lia. rewrite D1 by auto. lia. }
  destruct (D N HN ltac:(lia)) as (deg & -> & L1 & D1). cbn [bind].
  pose proof (prefixSums_st deg L1 D1) as PS. pose proof (zlen_prefixSums deg 0) as PL.
  set (start := prefixSums deg 0) in *.
  assert (I : forall n, 0 <= n -> n <= N -> exists index cur, foldM (fun (st : list Z * list Z) h =>
      let (index, cur) := st in let* v := gKey m inc h in let* i := rdZ cur v in let* index := wrZ index i h in let* cur := wrZ cur v (i + 1) in Ok (index, cur))
      (zseq n) (repeat 0 (Z.to_nat N), start) = Ok (index, cur) /\ zlen index = N /\ zlen cur = nV + 1 /\
      (forall v, 0 <= v < nV -> getZ cur v = st v + cnt n v) /\ (forall h, 0 <= h < n -> getZ index (pos h) = h)).
  { apply (Z_ind_nonneg (fun n => n <= N -> exists index cur, foldM (fun (st : list Z * list Z) h =>
      let (index, cur) := st in let* v := gKey m inc h in let* i := rdZ cur v in let* index := wrZ index i h in let* cur := wrZ cur v (i + 1) in Ok (index, cur))
      (zseq n) (repeat 0 (Z.to_nat N), start) = Ok (index, cur) /\ zlen index = N /\ zlen cur = nV + 1 /\
      (forall v, 0 <= v < nV -> getZ cur v = st v + cnt n v) /\ (forall h, 0 <= h < n -> getZ index (pos h) = h))).
    - intros _. do 2 eexists. split; [reflexivity|]. rewrite LR. split; [lia|]. split; [lia|]. split; [|lia]. intros v Hv. rewrite cnt_0, PS by lia. lia.
    - intros n Hn IH L. destruct (IH ltac:(lia)) as (index & cur & F & I1 & I2 & I3 & I4). rewrite zseq_S by auto. rewrite foldM_app, F. cbn [bind foldM].
      pose proof (Hka n ltac:(lia)) as B. rewrite KY by lia. cbn [bind]. rewrite rdZ_ok by lia. cbn [bind]. rewrite I3 by auto. fold (rank n). fold (pos n).
      pose proof (pos_range n ltac:(lia)) as PR. rewrite wrZ_ok by lia. cbn [bind]. rewrite wrZ_ok by lia. cbn [bind].
      do 2 eexists. split; [reflexivity|]. rewrite !zlen_updZ. split; auto. split; auto. split.
      + intros v Hv. rewrite getZ_updZ by lia. rewrite cnt_S by auto. destruct (v =? ka n) eqn:E.
        * replace (ka n =? v) with true by lia. unfold pos, rank. replace (ka n) with v by lia. lia.
        * replace (ka n =? v) with false by lia. rewrite I3 by auto. lia.
      + intros h Hh. rewrite getZ_updZ by lia. destruct (pos h =? pos n) eqn:E; [apply pos_inj; lia|]. apply I4.
        destruct (Z.eq_dec h n) as [->|]; [lia|lia]. }
  destruct (I N HN ltac:(lia)) as (index & cur & F & I1 & I2 & I3 & I4).
  match goal with |- context [foldM ?f ?l ?s] => replace (foldM f l s) with (Ok (index, cur)) by (symmetry; exact F) end. cbn [bind].
  exists index, start. split; [reflexivity|]. split; auto. split; [lia|]. split; [intros v Hv; apply PS; lia|]. auto.
Qed.

(** ** linking *)
Context (index start : list Z) (LI : zlen index = N) (LS : zlen start = nV + 1)
  (SV : forall v, 0 <= v <= nV -> getZ start v = st v) (IV : forall h, 0 <= h < N -> getZ index (pos h) = h).
Definition hAt (v t : Z) : Z := getZ index (st v + t).
Definition nxt (h : Z) : Z := hAt (ka h) ((rank h + 1) mod cnt N (ka h)).
Definition prv (h : Z) : Z := hAt (ka h) ((rank h - 1) mod cnt N (ka h)).
Lemma hAt_ok v t : 0 <= t < cnt N v -> 0 <= hAt v t < N /\ ka (hAt v t) = v /\ rank (hAt v t) = t /\ 0 <= st v + t < N.
Proof.
  intros Ht. destruct (rank_surj v N HN t Ht) as (h & H1 & H2 & H3). unfold hAt.
  replace (st v + t) with (pos h) by (unfold pos; rewrite H2, H3; reflexivity). rewrite IV by auto. split; auto. split; auto. split; auto. apply pos_range; auto.
Qed.
Lemma hAt_rank h : 0 <= h < N -> hAt (ka h) (rank h) = h. Proof. intros H. unfold hAt. apply IV; auto. Qed.
Lemma nxt_ok h : 0 <= h < N -> 0 <= nxt h < N /\ ka (nxt h) = ka h /\ rank (nxt h) = (rank h + 1) mod cnt N (ka h).
Proof. intros H. pose proof (rank_lt h H) as R. pose proof (Z.mod_pos_bound (rank h + 1) (cnt N (ka h)) ltac:(lia)) as M. destruct (hAt_ok _ _ M) as (A & B & C & _). auto. Qed.
Lemma prv_ok h : 0 <= h < N -> 0 <= prv h < N /\ ka (prv h) = ka h /\ rank (prv h) = (rank h - 1) mod cnt N (ka h).
Proof. intros H. pose proof (rank_lt h H) as R. pose proof (Z.mod_pos_bound (rank h - 1) (cnt N (ka h)) ltac:(lia)) as M. destruct (hAt_ok _ _ M) as (A & B & C & _). auto. Qed.
Lemma mod_pred_succ j n : 0 <= j < n -> ((j + 1) mod n - 1) mod n = j.
Proof. intros H. rewrite Zminus_mod_idemp_l. replace (j + 1 - 1) with j by lia. apply Z.mod_small; auto. Qed.
Lemma mod_succ_pred j n : 0 <= j < n -> ((j - 1) mod n + 1) mod n = j.
Proof. intros H. rewrite Zplus_mod_idemp_l. replace (j - 1 + 1) with j by lia. apply Z.mod_small; auto. Qed.
Lemma prv_nxt h : 0 <= h < N -> prv (nxt h) = h.
Proof.
  intros H. destruct (nxt_ok h H) as (A & B & C). unfold prv. rewrite B, C, mod_pred_succ by (apply rank_lt; auto). apply hAt_rank; auto.
Qed.
Lemma nxt_prv h : 0 <= h < N -> nxt (prv h) = h.
Proof.
  intros H. destruct (prv_ok h H) as (A & B & C). unfold nxt. rewrite B, C, mod_succ_pred by (apply rank_lt; auto). apply hAt_rank; auto.
Qed.
Lemma nxt_iter k h : 0 <= h < N -> 0 <= Nat.iter k nxt h < N /\ ka (Nat.iter k nxt h) = ka h /\ rank (Nat.iter k nxt h) = (rank h + Z.of_nat k) mod cnt N (ka h).
Proof.
  intros H. pose proof (rank_lt h H) as R. induction k as [|k (I1 & I2 & I3)].
  - simpl. split; auto. split; auto. rewrite Z.add_0_r, Z.mod_small; lia.
  - change (Nat.iter (Datatypes.S k) nxt h) with (nxt (Nat.iter k nxt h)). destruct (nxt_ok _ I1) as (J1 & J2 & J3). split; auto. split; [congruence|].
    rewrite J3, I2, I3, Zplus_mod_idemp_l. f_equal. lia.
Qed.
Lemma nxt_ring : Ring N nxt ka.
Proof.
  split; [intros h H; destruct (nxt_ok h H) as (A & B & _); auto|]. intros a b Ha Hb K. pose proof (rank_lt a Ha) as Ra. pose proof (rank_lt b Hb) as Rb.
  set (c := cnt N (ka a)) in *. exists (Z.to_nat (rank b + c - rank a)). destruct (nxt_iter (Z.to_nat (rank b + c - rank a)) a Ha) as (I1 & I2 & I3).
  apply rank_inj; auto; [congruence|]. rewrite I3. fold c. rewrite <- K in Rb. fold c in Rb. rewrite Z2Nat.id by lia. replace (rank a + (rank b + c - rank a)) with (rank b + 1 * c) by lia.
  rewrite Z_mod_plus_full. apply Z.mod_small. lia.
Qed.

Context (S Nx Pv : arr) (D1 : S <> Nx) (D2 : S <> Pv) (D3 : Nx <> Pv) (D4 : S <> AVert) (D5 : Nx <> AVert) (D6 : Pv <> AVert).
Definition Linked (v : Z) (m m' : gmesh) : Prop :=
  (forall a, zlen (ga m' a) = zlen (ga m a)) /\ frame m' = frame m /\ (forall a, a <> S -> a <> Nx -> a <> Pv -> ga m' a = ga m a) /\
  (forall w, ev m' S w = if w =? v then hAt v 0 else ev m S w) /\
  (forall h, 0 <= h < N -> ev m' Nx h = if ka h =? v then nxt h else ev m Nx h) /\
  (forall h, 0 <= h < N -> ev m' Pv h = if ka h =? v then prv h else ev m Pv h).
Lemma link_ok checked m v : 0 <= v < nV -> 0 < cnt N v -> nV <= zlen (ga m S) -> N <= zlen (ga m Nx) -> N <= zlen (ga m Pv) ->
  (checked = true -> N <= zlen (ga m AVert) /\ forall h, 0 <= h < N -> ev m AVert h = ka h) ->
  exists m', gLinkVertex index start S Nx Pv checked m v = Ok m' /\ Linked v m m'.
Proof.
  intros Hv Hc L1 L2 L3 CH. unfold gLinkVertex. rewrite (rdZ_ok start v) by lia. rewrite (rdZ_ok start (v + 1)) by lia. rewrite !SV by lia. cbn [bind]. cbn zeta.
  rewrite st_S. replace (st v + cnt N v - st v) with (cnt N v) by lia. set (c := cnt N v) in *.
  destruct (hAt_ok v 0 ltac:(fold c; lia)) as (A1 & A2 & A3 & A4). rewrite (rdZ_ok index (st v)) by lia. cbn [bind].
  replace (getZ index (st v)) with (hAt v 0) by (unfold hAt; f_equal; lia). rewrite wrA_ok by lia. cbn [bind].
  set (m1 := wA m S v (hAt v 0)).
  assert (G : forall n, 0 <= n -> n <= c -> exists m', foldM (fun m t =>
      let* x := rdZ index (st v + t) in let* y := rdZ index ((t + 1) mod c + st v) in
      let* _ := (if checked then let* u := rdA m AVert x in let* _ := guard (u =? v) in let* w := rdA m AVert y in guard (w =? v) else Ok tt) in
      let* m := wrA m Nx x y in wrA m Pv y x) (zseq n) m1 = Ok m' /\
      (forall a, zlen (ga m' a) = zlen (ga m a)) /\ frame m' = frame m /\ (forall a, a <> Nx -> a <> Pv -> ga m' a = ga m1 a) /\
      (forall h, 0 <= h < N -> ev m' Nx h = if (ka h =? v) && (rank h <? n) then nxt h else ev m Nx h) /\
      (forall h, 0 <= h < N -> ev m' Pv h = if (ka h =? v) && ((rank h - 1) mod c <? n) then prv h else ev m Pv h)).
  { apply (Z_ind_nonneg (fun n => n <= c -> exists m', foldM (fun m t =>
      let* x := rdZ index (st v + t) in let* y := rdZ index ((t + 1) mod c + st v) in
      let* _ := (if checked then let* u := rdA m AVert x in let* _ := guard (u =? v) in let* w := rdA m AVert y in guard (w =? v) else Ok tt) in
      let* m := wrA m Nx x y in wrA m Pv y x) (zseq n) m1 = Ok m' /\
      (forall a, zlen (ga m' a) = zlen (ga m a)) /\ frame m' = frame m /\ (forall a, a <> Nx -> a <> Pv -> ga m' a = ga m1 a) /\
      (forall h, 0 <= h < N -> ev m' Nx h = if (ka h =? v) && (rank h <? n) then nxt h else ev m Nx h) /\
      (forall h, 0 <= h < N -> ev m' Pv h = if (ka h =? v) && ((rank h - 1) mod c <? n) then prv h else ev m Pv h))).
    - intros _. exists m1. split; [reflexivity|]. split; [intros a; apply len_wA|]. split; [reflexivity|]. split; [auto|]. split.
      + intros h Hh. destruct (rank h <? 0) eqn:E; [pose proof (rank_lt h Hh); lia|]. rewrite andb_false_r. apply ev_other. auto.
      + intros h Hh. destruct (_ <? 0) eqn:E; [pose proof (Z.mod_pos_bound (rank h - 1) c); lia|]. rewrite andb_false_r. apply ev_other. auto.
    - intros n Hn IH L. destruct (IH ltac:(lia)) as (m' & F & B1 & B2 & B3 & B4 & B5). rewrite zseq_S by auto. rewrite foldM_app, F. cbn [bind foldM].
      pose proof (Z.mod_pos_bound (n + 1) c ltac:(lia)) as MB.
      destruct (hAt_ok v n ltac:(fold c; lia)) as (X1 & X2 & X3 & X4). destruct (hAt_ok v ((n + 1) mod c) MB) as (Y1 & Y2 & Y3 & Y4).
      rewrite (rdZ_ok index (st v + n)) by lia. cbn [bind]. rewrite (rdZ_ok index ((n + 1) mod c + st v)) by lia. cbn [bind].
      replace (getZ index ((n + 1) mod c + st v)) with (hAt v ((n + 1) mod c)) by (unfold hAt; f_equal; lia).
      change (getZ index (st v + n)) with (hAt v n). set (x := hAt v n) in *. set (y := hAt v ((n + 1) mod c)) in *.
      match goal with |- context [let* _ := (if checked then ?e else Ok tt) in _] => assert (CK : (if checked then e else Ok tt) = Ok tt) end.
      { destruct checked; auto. destruct (CH eq_refl) as [C1 C2].
        assert (C3 : forall h, 0 <= h < N -> ev m' AVert h = ka h).
        { intros h Hh. unfold ev. rewrite B3 by auto. rewrite <- C2 by auto. apply ev_other. auto. }
        rewrite rdA_ok by (rewrite B1; lia). cbn [bind]. rewrite C3, X2 by auto. rewrite Z.eqb_refl. cbn [guard bind].
        rewrite rdA_ok by (rewrite B1; lia). cbn [bind]. rewrite C3, Y2 by auto. rewrite Z.eqb_refl. reflexivity. }
      rewrite CK. cbn [bind]. rewrite wrA_ok by (rewrite B1; lia). cbn [bind]. rewrite wrA_ok by (rewrite len_wA, B1; lia). cbn [bind].
      eexists. split; [reflexivity|]. split; [intros a; rewrite !len_wA; auto|]. split; [rewrite !frame_wA; auto|].
      split; [intros a Na Pa; rewrite <- B3 by auto; unfold wA, setA, put; cbn [ga]; rewrite !arr_eqb_neq by auto; reflexivity|]. split.
      + intros h Hh. rewrite ev_other by auto. rewrite ev_same by (rewrite B1; lia). destruct (h =? x) eqn:E.
        * replace h with x by lia. rewrite X2, X3, Z.eqb_refl. replace (n <? n + 1) with true by lia. simpl. unfold nxt. rewrite X2, X3. reflexivity.
        * rewrite B4 by auto. destruct (ka h =? v) eqn:Ek; cbn [andb]; auto. destruct (rank h <? n) eqn:E1; [replace (rank h <? n + 1) with true by lia; auto|].
          destruct (rank h <? n + 1) eqn:E2; auto. exfalso. assert (h = x); [|lia]. apply rank_inj; auto; lia.
      + intros h Hh. rewrite ev_same by (rewrite len_wA, B1; lia). destruct (h =? y) eqn:E.
        * replace h with y by lia. rewrite Y2, Y3, Z.eqb_refl, mod_pred_succ by lia. replace (n <? n + 1) with true by lia. simpl. unfold prv. rewrite Y2, Y3. fold c.
          rewrite mod_pred_succ by lia. reflexivity.
        * rewrite ev_other by auto. rewrite B5 by auto. destruct (ka h =? v) eqn:Ek; cbn [andb]; auto.
          destruct ((rank h - 1) mod c <? n) eqn:E1; [replace (_ <? n + 1) with true by lia; auto|].
          destruct (_ <? n + 1) eqn:E2; auto. exfalso. assert (h = y); [|lia]. pose proof (rank_lt h Hh) as RL. replace (ka h) with v in RL by lia. fold c in RL.
          apply rank_inj; auto; [lia|]. rewrite Y3. replace n with ((rank h - 1) mod c) by lia. rewrite mod_succ_pred by auto. reflexivity. }
  destruct (G c ltac:(lia) ltac:(lia)) as (m' & F & B1 & B2 & B3 & B4 & B5). exists m'. split; [exact F|]. split; [exact B1|]. split; [exact B2|].
  split; [|split; [|split]].
  - intros a A5 A6 A7. rewrite B3 by auto. unfold m1, wA, setA, put. cbn [ga]. rewrite arr_eqb_neq by auto. reflexivity.
  - intros w. unfold ev. rewrite B3 by auto. apply ev_same. lia.
  - intros h Hh. rewrite B4 by auto. destruct (ka h =? v) eqn:E; auto. pose proof (rank_lt h Hh) as RL. replace (ka h) with v in RL by lia. fold c in RL.
    replace (rank h <? c) with true by lia. reflexivity.
  - intros h Hh. rewrite B5 by auto. destruct (ka h =? v) eqn:E; auto. pose proof (Z.mod_pos_bound (rank h - 1) c ltac:(lia)).
    replace (_ <? c) with true by lia. reflexivity.
Qed.
End Cache.
