(** Proofs: products, checks and files of MatrixModel *)
From Verif Require Import Base MatrixModel MatrixSpec MatrixProofs MatrixBlock.
Open Scope nat_scope.
Section Product.
Context {T : Type} (zero : T) (add mul : T -> T -> T).
Hypothesis add_comm : forall x y, add x y = add y x.
Hypothesis add_assoc : forall x y z, add x (add y z) = add (add x y) z.
Hypothesis add_0 : forall x, add x zero = x.
Lemma sumTo_ext n f g : (forall i, i < n -> f i = g i) -> sumTo zero add n f = sumTo zero add n g.
Proof. induction n; cbn; intros H; auto. rewrite IHn, H; auto. Qed.
Lemma sum_split q n f : add (sumTo zero add (rk q n) (fun x => f (nth x (sel q n) 0))) (sumTo zero add (rk (fun i => negb (q i)) n) (fun x => f (nth x (sel (fun i => negb (q i)) n) 0))) = sumTo zero add n f.
Proof.
  induction n as [|n IH]; [cbn; apply add_0|]. cbn [sumTo]. rewrite !rk_S, !sel_S.
  assert (forall q' (b : bool), sumTo zero add (rk q' n) (fun x => f (nth x (sel q' n ++ (if b then [n] else [])) 0)) = sumTo zero add (rk q' n) (fun x => f (nth x (sel q' n) 0))) as E.
  { intros q' b. apply sumTo_ext. intros i L. rewrite app_nth1 by exact L. reflexivity. }
  assert (forall q', f (nth (rk q' n) (sel q' n ++ [n]) 0) = f n) as E'.
  { intros q'. rewrite app_nth2 by (unfold rk; lia). unfold rk. rewrite Nat.sub_diag. reflexivity. }
  pose proof (E q (q n)) as E1. pose proof (E (fun i => negb (q i)) (negb (q n))) as E2. pose proof (E' q) as F1. pose proof (E' (fun i => negb (q i))) as F2.
  destruct (q n); cbn [negb] in *; rewrite ?Nat.add_1_r, ?Nat.add_0_r; cbn [sumTo]; rewrite E1, E2, ?F1, ?F2, <- IH.
  - rewrite <- !add_assoc. f_equal. apply add_comm.
  - rewrite <- !add_assoc. reflexivity.
Qed.
(** one row of blocks *)
Lemma block_row m (b1 b2 : smat T) I q n x : cols m = n -> isBlock m b1 I (sel q n) -> isBlock m b2 I (sel (fun i => negb (q i)) n) ->
  forall v vA vB, length vA = rk q n -> length vB = rk (fun i => negb (q i)) n -> (forall y, y < length vA -> nth y vA zero = nth (nth y (sel q n) 0) v zero) -> (forall y, y < length vB -> nth y vB zero = nth (nth y (sel (fun i => negb (q i)) n) 0) v zero) -> x < length I ->
  add (product zero add mul b1 vA x) (product zero add mul b2 vB x) = product zero add mul m v (nth x I 0).
Proof.
  intros C (W1 & R1 & C1 & E1) (W2 & R2 & C2 & E2) v vA vB LA LB HA HB L. unfold product. rewrite C, C1, C2. fold (rk q n). fold (rk (fun i => negb (q i)) n).
  rewrite <- (sum_split q n). f_equal; apply sumTo_ext; intros i K; unfold coeff.
  - rewrite E1, HA by (auto; lia). reflexivity.
  - rewrite E2, HB by (auto; lia). reflexivity.
Qed.
End Product.
Section Checks.
Context {T : Type}.
Lemma foldM_unit {A} (f : A -> res unit) l : (forall a, In a l -> f a = Ok tt \/ f a = Throw) ->
  (foldM (fun _ a => f a) l tt = Ok tt /\ forall a, In a l -> f a = Ok tt) \/ (foldM (fun _ a => f a) l tt = Throw /\ exists a, In a l /\ f a = Throw).
Proof.
  induction l as [|a l IH]; cbn; intros H; [left; split; auto; tauto|]. destruct (H a (or_introl eq_refl)) as [E|E]; rewrite E; cbn.
  - destruct IH as [(K1 & K2)|(K1 & b & K2 & K3)]; [auto| |]. + left. split; auto. intros x [<-|X]; auto. + right. split; auto. exists b. auto.
  - right. split; auto. exists a. auto.
Qed.
Lemma coeffAt_ok zero (m : smat T) i j : i < rows m -> j < cols m -> coeffAt zero m i j = Ok (coeff zero m i j).
Proof. intros A B. unfold coeffAt, coeff, entry. apply Nat.ltb_lt in A, B. rewrite A, B. cbn [andb]. destruct (find _ _) as [[? ?]|]; reflexivity. Qed.
Lemma symmetric_main (zero : T) far m : Wf m -> rows m = cols m -> (forall x y, far x y = far y x) -> far zero zero = false ->
  (checkSymmetric zero far m = Ok tt /\ forall i j, far (coeff zero m i j) (coeff zero m j i) = false) \/
  (checkSymmetric zero far m = Throw /\ exists i j, i < rows m /\ j < cols m /\ far (coeff zero m i j) (coeff zero m j i) = true).
Proof.
  intros W SQ FS F0. unfold checkSymmetric.
  assert (forall e, In e (entries m) -> (let '(r, c, v) := e in let* w := coeffAt zero m c r in guard (negb (far v w))) = guard (negb (far (coeff zero m (fst (fst e)) (snd (fst e))) (coeff zero m (snd (fst e)) (fst (fst e))))) /\ fst (fst e) < rows m /\ snd (fst e) < cols m) as K.
  { intros [[r c] v] I. apply in_entries in I; auto. destruct (entry_range _ _ _ _ W I). cbn [fst snd]. rewrite coeffAt_ok by lia. cbn [bind]. split; auto. unfold coeff at 2. rewrite I. reflexivity. }
  destruct (foldM_unit (fun e => let '(r, c, v) := e in let* w := coeffAt zero m c r in guard (negb (far v w))) (entries m)) as [(A & B)|(A & e & I & B)].
  - intros e I. destruct (K e I) as (-> & _). destruct (negb _); auto.
  - left. split; auto.
    assert (forall i j v, entry m i j = Some v -> far (coeff zero m i j) (coeff zero m j i) = false) as G.
    { intros i j v E. apply in_entries in E; auto. pose proof (B _ E) as B'. destruct (K _ E) as (K' & _). rewrite B' in K'. cbn [fst snd] in K'. destruct (far (coeff zero m i j) (coeff zero m j i)); [discriminate K'|reflexivity]. }
    intros i j. destruct (entry m i j) as [v|] eqn:E; [eapply G; eauto|]. destruct (entry m j i) as [v|] eqn:E'; [rewrite FS; eapply G; eauto|]. unfold coeff. rewrite E, E'. auto.
  - right. split; auto. exists (fst (fst e)), (snd (fst e)). destruct (K e I) as (K1 & K2 & K3). split; auto. split; auto. rewrite B in K1. destruct (far (coeff zero m (fst (fst e)) (snd (fst e))) _); [reflexivity|discriminate K1].
Qed.
Lemma finite_main (finite : T -> bool) m : Wf m ->
  (checkFinite finite m = Ok tt /\ forall i j v, entry m i j = Some v -> finite v = true) \/
  (checkFinite finite m = Throw /\ exists i j v, entry m i j = Some v /\ finite v = false).
Proof.
  intros W. unfold checkFinite. destruct (foldM_unit (fun e : nat * nat * T => guard (finite (snd e))) (entries m)) as [(A & B)|(A & e & I & B)].
  - intros e _. destruct (finite (snd e)); auto.
  - left. split; auto. intros i j v E. apply in_entries in E; auto. pose proof (B _ E) as K. cbn in K. destruct (finite v); [auto|discriminate].
  - right. split; auto. destruct e as [[i j] v]. exists i, j, v. apply in_entries in I; auto. split; auto. cbn in B. destruct (finite v); [discriminate|auto].
Qed.
Lemma finite_column_main (finite : T -> bool) v :
  (checkFiniteColumn finite v = Ok tt /\ forall x, In x v -> finite x = true) \/ (checkFiniteColumn finite v = Throw /\ exists x, In x v /\ finite x = false).
Proof.
  unfold checkFiniteColumn. destruct (foldM_unit (fun i => let* x := rd v i in guard (finite x)) (seq 0 (length v))) as [(A & B)|(A & i & I & B)].
  - intros i I. apply in_seq in I. destruct (rd_Ok v i ltac:(lia)) as (x & -> & _). cbn. destruct (finite x); auto.
  - left. split; auto. intros x I. apply In_nth_error in I as (i & E). assert (i < length v) as L by (apply nth_error_Some; congruence).
    specialize (B i). unfold rd in B. rewrite E in B. cbn in B. destruct (finite x); auto. discriminate B. apply in_seq. lia.
  - right. split; auto. apply in_seq in I. destruct (rd_Ok v i ltac:(lia)) as (x & E & F). rewrite E in B. cbn in B. exists x. split; [eapply nth_error_In; eauto|]. destruct (finite x); [discriminate|auto].
Qed.
End Checks.
Section Files.
Context {T tok : Type} (print : T -> tok) (parse : tok -> T).
Lemma loadSteps (m : smat T) l s : fold_left (loadStep parse) (map (fun e : nat * nat * T => SEntry (Z.of_nat (fst (fst e)) + 1) (Z.of_nat (snd (fst e)) + 1) (print (snd e))) l) (Z.of_nat (rows m), Z.of_nat (cols m), fst (fst s), snd (fst s), snd s) =
  (Z.of_nat (rows m), Z.of_nat (cols m), fold_left (fun a (e : nat * nat * T) => Z.max a (Z.of_nat (fst (fst e)))) l (fst (fst s)), fold_left (fun a (e : nat * nat * T) => Z.max a (Z.of_nat (snd (fst e)))) l (snd (fst s)),
   snd s ++ map (fun e => (Z.of_nat (fst (fst e)), Z.of_nat (snd (fst e)), parse (print (snd e)))) l).
Proof.
  revert s. induction l as [|[[i j] v] l IH]; intros [[a b] t]; cbn [map fold_left fst snd]; [rewrite app_nil_r; reflexivity|].
  cbn [loadStep fst snd] in *. rewrite !Z.add_simpl_r. change (Z.max a (Z.of_nat i)) with (fst (fst (Z.max a (Z.of_nat i), Z.max b (Z.of_nat j), t ++ [(Z.of_nat i, Z.of_nat j, parse (print v))]))).
  etransitivity; [exact (IH (Z.max a (Z.of_nat i), Z.max b (Z.of_nat j), t ++ [(Z.of_nat i, Z.of_nat j, parse (print v))]))|]. cbn [fst snd]. rewrite <- app_assoc. reflexivity.
Qed.
Lemma max_bound {A} (f : A -> Z) l a n : (a < n -> (forall x, In x l -> f x < n) -> fold_left (fun a e => Z.max a (f e)) l a < n)%Z.
Proof. revert a. induction l; cbn; intros b H K; auto. apply IHl; auto. specialize (K a (or_introl eq_refl)). lia. Qed.
Lemma sparse_roundtrip add m : Wf m -> exists m', loadSparse parse add (saveSparse print m) = Ok m' /\ Wf m' /\ rows m' = rows m /\ cols m' = cols m /\
  forall i j, entry m' i j = option_map (fun v => parse (print v)) (entry m i j).
Proof.
  intros W. unfold loadSparse, saveSparse. cbn [fold_left]. change (loadStep parse _ (SHeader _ _)) with (Z.of_nat (rows m), Z.of_nat (cols m), -1, -1, @nil (Z * Z * T))%Z.
  pose proof (loadSteps m (entries m) (-1, -1, [])%Z) as L. cbn [fst snd app] in L. rewrite L. clear L.
  assert (forall e, In e (entries m) -> fst (fst e) < rows m /\ snd (fst e) < cols m) as R.
  { intros [[i j] v] I. apply in_entries in I; auto. apply entry_range in I; auto. }
  set (mr := fold_left (fun a (e : nat * nat * T) => Z.max a (Z.of_nat (fst (fst e)))) (entries m) (-1)%Z). set (mc := fold_left (fun a (e : nat * nat * T) => Z.max a (Z.of_nat (snd (fst e)))) (entries m) (-1)%Z).
  assert ((0 <? Z.of_nat (cols m))%Z && ((Z.of_nat (cols m) <=? mc)%Z || (Z.of_nat (rows m) <=? mr)%Z) = false) as ->.
  { destruct (Z.ltb_spec 0 (Z.of_nat (cols m))) as [C|C]; [|reflexivity]. cbn [andb]. apply orb_false_iff. rewrite !Z.leb_gt. split.
    - apply (max_bound (fun e : nat * nat * T => Z.of_nat (snd (fst e)))); [lia|]. intros e I. specialize (R e I). lia.
    - apply (max_bound (fun e : nat * nat * T => Z.of_nat (fst (fst e)))); [lia|]. intros e I. specialize (R e I). lia. }
  cbn [negb guard bind]. replace (Z.of_nat (cols m) <? 0)%Z with false by (symmetry; apply Z.ltb_ge; lia).
  unfold fromIntTriplets. rewrite (proj2 (forallb_forall _ _)).
  2:{ intros t I. apply in_map_iff in I as (e & <- & I). cbn. lia. }
  replace ((0 <=? Z.of_nat (rows m)) && (0 <=? Z.of_nat (cols m)))%Z with true by lia. cbn [andb]. rewrite !Nat2Z.id, map_map. cbn [fst snd].
  set (trips := map _ (entries m)).
  assert (trips = map (fun e => (fst e, parse (print (snd e)))) (entries m)) as ET.
  { unfold trips. apply map_ext. intros [[i j] v]. cbn. rewrite !Nat2Z.id. reflexivity. }
  destruct (fromTriplets_ok add (rows m) (cols m) trips) as (m' & A & B & C & D & E).
  - rewrite ET. intros t I. apply in_map_iff in I as (e & <- & I). cbn. apply R; auto.
  - rewrite ET, map_map. cbn. apply (NoDup_entries m W).
  - exists m'. split; auto. split; auto. split; auto. split; auto. intros i j. apply option_ext. intros v. rewrite E, ET, in_map_iff. split.
    + intros ([[i' j'] w] & X & I). cbn in X. injection X as -> -> <-. apply in_entries in I; auto. rewrite I. reflexivity.
    + intros H. destruct (entry m i j) as [w|] eqn:En; [|discriminate]. cbn in H. injection H as <-. exists (i, j, w). split; auto. apply in_entries; auto.
Qed.
Lemma mapM_rd_map {A B} (g : A -> B) l2 : forall l1, mapM (fun j => let* t := rd (l1 ++ l2) j in Ok (g t)) (seq (length l1) (length l2)) = Ok (map g l2).
Proof.
  induction l2 as [|a l2 IH]; intros l1; cbn [length seq mapM map]; auto. unfold rd at 1. rewrite nth_error_app2, Nat.sub_diag by auto. cbn [nth_error bind].
  specialize (IH (l1 ++ [a])). rewrite <- app_assoc, app_length, Nat.add_1_r in IH. cbn [app length] in IH. rewrite IH. reflexivity.
Qed.
Lemma loadRow_ok c (row : list T) : length row = c -> loadRow parse c (map print row) = Ok (map (fun v => parse (print v)) row).
Proof. intros <-. unfold loadRow. rewrite <- (map_length print row), <- (map_map print parse). exact (mapM_rd_map parse (map print row) []). Qed.
Lemma dense_roundtrip junk m : length (data m) = drows m -> (forall r, In r (data m) -> length r = dcols m) ->
  loadDense parse junk (saveDense print m) = Ok (mkDense (drows m) (dcols m) (map (map (fun v => parse (print v))) (data m))).
Proof.
  intros LR LC. unfold loadDense, saveDense. cbn [hrows hcols body]. replace (negb ((Z.of_nat (drows m) <? 0)%Z || (Z.of_nat (dcols m) <? 0)%Z)) with true by lia. cbn [guard bind]. rewrite !Nat2Z.id.
  set (c := dcols m) in *. set (q := fun v => parse (print v)).
  assert (forall d2 d1, (forall r, In r d2 -> length r = c) -> foldM (fun s line => let '(d, i) := s in let* row := loadRow parse c line in let* d := (if c =? 0 then Ok d else wr d i row) in Ok (d, S i)) (map (map print) d2) (d1 ++ repeat (repeat junk c) (length d2), length d1) =
     Ok (d1 ++ map (map q) d2, length d1 + length d2)) as G.
  { induction d2 as [|r d2 IH]; intros d1 L; cbn [map foldM length repeat].
    - rewrite Nat.add_0_r. reflexivity.
    - rewrite loadRow_ok by (apply L; left; auto). cbn [bind]. fold q.
      assert ((if c =? 0 then Ok (d1 ++ repeat junk c :: repeat (repeat junk c) (length d2)) else wr (d1 ++ repeat junk c :: repeat (repeat junk c) (length d2)) (length d1) (map q r)) = Ok ((d1 ++ [map q r]) ++ repeat (repeat junk c) (length d2))) as ->.
      { destruct (Nat.eqb_spec c 0) as [E|E].
        - assert (length r = c) as Lr by (apply L; left; auto). rewrite E in Lr. destruct r; [|discriminate]. rewrite E. cbn. rewrite <- app_assoc. reflexivity.
        - rewrite wr_Ok by (rewrite app_length; cbn; lia). rewrite upd_app, <- app_assoc. reflexivity. }
      cbn [bind]. specialize (IH (d1 ++ [map q r])). rewrite app_length, Nat.add_1_r in IH. rewrite IH by (intros; apply L; right; auto). rewrite <- app_assoc. cbn [app]. rewrite Nat.add_succ_r. reflexivity. }
  specialize (G (data m) [] LC). cbn [app length Nat.add] in G. rewrite <- LR, G. reflexivity.
Qed.
End Files.
Section Main.
Context {T : Type}.
Lemma sel_ext q q' n : (forall i, q i = q' i) -> sel q n = sel q' n.
Proof. intros H. apply filter_ext. auto. Qed.
Lemma indices_ext P Q n l : (forall i, P i <-> Q i) -> indices P n l -> indices Q n l.
Proof. intros H (A & B). split; auto. intros i. rewrite A, H. tauto. Qed.
Lemma blocks_main (add : T -> T -> T) junk m Aset bside : Wf m -> rows m = cols m -> length Aset = rows m -> fits (rows m) ->
  exists d, blockDecomposeSquare add junk m Aset bside = Ok d /\ isA d = Aset /\
    indices (fun i => nth i Aset false = true) (rows m) (origIndsA d) /\ indices (fun i => nth i Aset false = false) (rows m) (origIndsB d) /\
    length (newInds d) = rows m /\ (forall i, i < rows m -> nth (nth i (newInds d) 0) (if nth i Aset false then origIndsA d else origIndsB d) 0 = i) /\
    isBlock m (AA d) (origIndsA d) (origIndsA d) /\ isBlock m (AB d) (origIndsA d) (origIndsB d) /\
    (bside = true -> isBlock m (BA d) (origIndsB d) (origIndsA d) /\ isBlock m (BB d) (origIndsB d) (origIndsB d)) /\
    (bside = false -> rows (BA d) = 0 /\ cols (BA d) = 0 /\ rows (BB d) = 0 /\ cols (BB d) = 0).
Proof.
  intros W SQ L F. destruct (decompose_main Aset add junk m bside W SQ L F) as (d & A & B & C & D & E & G & H & K). exists d. split; auto. split; auto.
  split; [rewrite C; apply sel_indices|]. split; [rewrite D; eapply indices_ext; [|apply sel_indices]; intros i; cbn; destruct (nth i Aset false); cbn; intuition discriminate|].
  split; [rewrite E, map_length, seq_length; auto|]. split.
  { intros i I. assert (nth i (newInds d) 0 = rank Aset i) as ->.
    { rewrite E, (nth_indep _ 0 (rank Aset 0)) by (rewrite map_length, seq_length; auto). rewrite map_nth, seq_nth by auto. reflexivity. }
    rewrite C, D. unfold rank.
    destruct (nth i Aset false) eqn:P; apply nth_rk; auto. rewrite P. reflexivity. }
  split; auto. split; auto. destruct bside; (split; [|discriminate || (intros _)]).
  - intros _. exact K.
  - discriminate.
  - destruct K as [-> ->]. auto.
Qed.
Lemma vector_main (add : T -> T -> T) junk junk' z m Aset bside d : Wf m -> rows m = cols m -> length Aset = rows m -> fits (rows m) -> blockDecomposeSquare add junk m Aset bside = Ok d ->
  (forall x, length x = rows m -> exists a b, decomposeVector d x = Ok (a, b) /\ length a = length (origIndsA d) /\ length b = length (origIndsB d) /\
     (forall k, k < length a -> nth k a z = nth (nth k (origIndsA d) 0) x z) /\ (forall k, k < length b -> nth k b z = nth (nth k (origIndsB d) 0) x z) /\
     reassembleVector junk' d a b = Ok x) /\
  (forall a b, length a = length (origIndsA d) -> length b = length (origIndsB d) -> exists x, reassembleVector junk' d a b = Ok x /\ length x = rows m /\ decomposeVector d x = Ok (a, b)).
Proof.
  intros W SQ L F A. destruct (decompose_main Aset add junk m bside W SQ L F) as (d' & A' & _ & C & D & E & _). rewrite A in A'. injection A' as <-.
  assert (length (newInds d) = rows m) as LN by (rewrite E, map_length, seq_length; auto). set (n := rows m) in *.
  set (p := fun i => nth i Aset false) in *. set (nq := fun i => negb (p i)) in *. change (sel (fun i => nth i Aset false) n) with (sel p n) in C. change (sel (fun i => negb (nth i Aset false)) n) with (sel nq n) in D.
  assert (forall i, In i (origIndsA d) -> i < n) as RA by (intros i I; rewrite C in I; apply in_sel in I; tauto).
  assert (forall i, In i (origIndsB d) -> i < n) as RB by (intros i I; rewrite D in I; apply in_sel in I; tauto).
  assert (forall (x : list T) I k, k < length I -> nth k (map (fun i => nth i x z) I) z = nth (nth k I 0) x z) as NM.
  { intros x I k K. rewrite (nth_indep _ z (nth 0 x z)) by (rewrite map_length; auto). apply (map_nth (fun i => nth i x z)). }
  split.
  - intros x Lx. unfold decomposeVector. rewrite (gather_ok x z), (gather_ok x z) by (intros; rewrite Lx; auto). cbn [bind]. do 2 eexists. split; [reflexivity|]. rewrite !map_length. split; auto. split; auto.
    split; [intros; apply NM; auto|]. split; [intros; apply NM; auto|].
    destruct (reassemble_main Aset d n junk' (map (fun i => nth i x z) (origIndsA d)) (map (fun i => nth i x z) (origIndsB d)) z) as (o & O1 & O2 & O3 & O4); auto; try (rewrite map_length; auto).
    rewrite O1. f_equal. apply (list_eq_nth z); [congruence|]. intros i I. rewrite O2 in I. rewrite map_length in O3, O4. destruct (p i) eqn:P.
    + assert (nth (rk p i) (origIndsA d) 0 = i) as Q by (rewrite C; apply nth_rk; auto). assert (rk p i < length (origIndsA d)) as K by (rewrite C; apply rk_lt; auto).
      rewrite <- Q at 1. rewrite O3, NM, Q by auto. reflexivity.
    + assert (nq i = true) as P' by (unfold nq; rewrite P; auto). assert (nth (rk nq i) (origIndsB d) 0 = i) as Q by (rewrite D; apply nth_rk; auto). assert (rk nq i < length (origIndsB d)) as K by (rewrite D; apply rk_lt; auto).
      rewrite <- Q at 1. rewrite O4, NM, Q by auto. reflexivity.
  - intros a b La Lb. destruct (reassemble_main Aset d n junk' a b z) as (o & O1 & O2 & O3 & O4); auto. exists o. split; auto. split; auto.
    unfold decomposeVector. rewrite (gather_ok o z), (gather_ok o z) by (intros; rewrite O2; auto). cbn [bind]. f_equal. f_equal.
    + apply (list_eq_nth z); [rewrite map_length; auto|]. intros k K. rewrite map_length in K. rewrite NM by auto. apply O3. lia.
    + apply (list_eq_nth z); [rewrite map_length; auto|]. intros k K. rewrite map_length in K. rewrite NM by auto. apply O4. lia.
Qed.
Lemma product_main (zero : T) (add mul : T -> T -> T) junk junk' m Aset d x xA xB y : (forall a b, add a b = add b a) -> (forall a b c, add a (add b c) = add (add a b) c) -> (forall a, add a zero = a) ->
  Wf m -> rows m = cols m -> length Aset = rows m -> fits (rows m) -> blockDecomposeSquare add junk m Aset true = Ok d -> length x = rows m -> decomposeVector d x = Ok (xA, xB) ->
  reassembleVector junk' d (map (fun i => add (product zero add mul (AA d) xA i) (product zero add mul (AB d) xB i)) (seq 0 (rows (AA d))))
                           (map (fun i => add (product zero add mul (BA d) xA i) (product zero add mul (BB d) xB i)) (seq 0 (rows (BB d)))) = Ok y ->
  y = map (product zero add mul m x) (seq 0 (rows m)).
Proof.
  intros AC AS A0 W SQ L F A Lx Dx R. destruct (decompose_main Aset add junk m true W SQ L F) as (d' & A' & _ & C & D & E & B1 & B2 & B3 & B4). rewrite A in A'. injection A' as <-.
  destruct (vector_main add junk junk' zero m Aset true d W SQ L F A) as (V & _). destruct (V x Lx) as (a & b & V1 & V2 & V3 & V4 & V5 & _). rewrite Dx in V1. injection V1 as <- <-.
  assert (length (newInds d) = rows m) as LN by (rewrite E, map_length, seq_length; auto). set (n := rows m) in *.
  set (ya := map _ (seq 0 (rows (AA d)))) in R. set (yb := map _ (seq 0 (rows (BB d)))) in R.
  destruct B1 as (W1 & R1 & B1). destruct B4 as (W4 & R4 & B4).
  destruct (reassemble_main Aset d n junk' ya yb zero C D LN) as (o & O1 & O2 & O3 & O4); [unfold ya; rewrite map_length, seq_length; auto|unfold yb; rewrite map_length, seq_length; auto|].
  rewrite O1 in R. injection R as <-. apply (list_eq_nth zero); [rewrite map_length, seq_length; auto|]. intros i I. rewrite O2 in I.
  assert (forall f k, k < n -> nth k (map f (seq 0 n)) zero = f k) as NS.
  { intros f k K. rewrite (nth_indep _ zero (f 0)) by (rewrite map_length, seq_length; auto). rewrite map_nth, seq_nth; auto. }
  assert (forall (f : nat -> T) N k, k < N -> nth k (map f (seq 0 N)) zero = f k) as NS'.
  { intros f N k K. rewrite (nth_indep _ zero (f 0)) by (rewrite map_length, seq_length; auto). rewrite map_nth, seq_nth; auto. }
  rewrite NS by auto. pose (p := fun i => nth i Aset false). pose (nq := fun i => negb (p i)).
  change (origIndsA d = sel p n) in C. change (origIndsB d = sel (fun i => negb (p i)) n) in D.
  assert (length xA = rk p n) as LA by (rewrite V2, C; reflexivity). assert (length xB = rk nq n) as LB by (rewrite V3, D; reflexivity).
  destruct (p i) eqn:P.
  - assert (nth (rk p i) (origIndsA d) 0 = i) as Q by (rewrite C; apply nth_rk; auto). assert (rk p i < length (origIndsA d)) as K by (rewrite C; apply rk_lt; auto).
    rewrite <- Q. rewrite O3 by (unfold ya; rewrite map_length, seq_length; lia). unfold ya. rewrite NS' by lia.
    apply (block_row zero add mul AC AS A0 m (AA d) (AB d) (origIndsA d) p n); auto.
    + split; auto. split; auto. rewrite <- C. exact B1.
    + rewrite <- D. exact B2.
    + intros k Kk. rewrite V4, C by auto. reflexivity.
    + intros k Kk. rewrite V5, D by auto. reflexivity.
  - assert (nq i = true) as P' by (unfold nq; rewrite P; auto). assert (nth (rk nq i) (origIndsB d) 0 = i) as Q by (rewrite D; apply nth_rk; auto). assert (rk nq i < length (origIndsB d)) as K by (rewrite D; apply rk_lt; auto).
    rewrite <- Q. rewrite O4 by (unfold yb; rewrite map_length, seq_length; lia). unfold yb. rewrite NS' by lia.
    apply (block_row zero add mul AC AS A0 m (BA d) (BB d) (origIndsB d) p n); auto.
    + rewrite <- C. exact B3.
    + rewrite <- D. split; auto.
    + intros k Kk. rewrite V4, C by auto. reflexivity.
    + intros k Kk. rewrite V5, D by auto. reflexivity.
Qed.
End Main.
