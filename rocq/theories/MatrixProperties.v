(** C43, C44, C62, C63: matrices *)
From Verif Require Import Base MatrixModel MatrixSpec MatrixProofs MatrixBlock MatrixMore.
Open Scope nat_scope.

(** a 3 x 3 matrix with six stored entries *)
Definition ex3 : smat Z := mkS 3 3 [[(0, 1%Z); (2, 7%Z)]; [(1, 5%Z)]; [(0, 2%Z); (1, 3%Z); (2, 4%Z)]].
Definition ex23 : smat Z := mkS 2 3 [[(1, 6%Z)]; []; [(0, 8%Z); (1, 9%Z)]].
Lemma ex3_wf : Wf ex3.
Proof.
  split; [reflexivity| |]; intros [|[|[|j]]] c H; cbn in H; try (injection H as <-); try (destruct j; discriminate).
  1-3: intros p I; cbn in I; repeat (destruct I as [<-|I]; [cbn; lia|]); destruct I.
  all: cbn; repeat constructor; cbn; lia.
Qed.
Lemma ex23_wf : Wf ex23.
Proof.
  split; [reflexivity| |]; intros [|[|[|j]]] c H; cbn in H; try (injection H as <-); try (destruct j; discriminate).
  1-3: intros p I; cbn in I; repeat (destruct I as [<-|I]; [cbn; lia|]); destruct I.
  all: cbn; repeat constructor; cbn; lia.
Qed.

(** C43. The decomposition lists the indices of each set in increasing order, newInds inverts these lists, and each block
    holds exactly the stored entries of its rows and columns. *)
Theorem C43_blocks T (add : T -> T -> T) junk m Aset bside : Wf m -> rows m = cols m -> length Aset = rows m -> fits (rows m) ->
  exists d, blockDecomposeSquare add junk m Aset bside = Ok d /\ isA d = Aset /\
    indices (fun i => nth i Aset false = true) (rows m) (origIndsA d) /\ indices (fun i => nth i Aset false = false) (rows m) (origIndsB d) /\
    length (newInds d) = rows m /\ (forall i, i < rows m -> nth (nth i (newInds d) 0) (if nth i Aset false then origIndsA d else origIndsB d) 0 = i) /\
    isBlock m (AA d) (origIndsA d) (origIndsA d) /\ isBlock m (AB d) (origIndsA d) (origIndsB d) /\
    (bside = true -> isBlock m (BA d) (origIndsB d) (origIndsA d) /\ isBlock m (BB d) (origIndsB d) (origIndsB d)) /\
    (bside = false -> rows (BA d) = 0 /\ cols (BA d) = 0 /\ rows (BB d) = 0 /\ cols (BB d) = 0).
Proof. exact (blocks_main add junk m Aset bside). Qed.
Print Assumptions C43_blocks.
Theorem C43_square T (add : T -> T -> T) junk m Aset bside : rows m <> cols m -> blockDecomposeSquare add junk m Aset bside = Throw.
Proof. intros H. unfold blockDecomposeSquare. apply Nat.eqb_neq in H. rewrite H. reflexivity. Qed.
Print Assumptions C43_square.
(** Splitting a vector and putting it back together, in both orders *)
Theorem C43_vector T (add : T -> T -> T) junk junk' z m Aset bside d : Wf m -> rows m = cols m -> length Aset = rows m -> fits (rows m) -> blockDecomposeSquare add junk m Aset bside = Ok d ->
  (forall x, length x = rows m -> exists a b, decomposeVector d x = Ok (a, b) /\ length a = length (origIndsA d) /\ length b = length (origIndsB d) /\
     (forall k, k < length a -> nth k a z = nth (nth k (origIndsA d) 0) x z) /\ (forall k, k < length b -> nth k b z = nth (nth k (origIndsB d) 0) x z) /\
     reassembleVector junk' d a b = Ok x) /\
  (forall a b, length a = length (origIndsA d) -> length b = length (origIndsB d) -> exists x, reassembleVector junk' d a b = Ok x /\ length x = rows m /\ decomposeVector d x = Ok (a, b)).
Proof. exact (vector_main add junk junk' z m Aset bside d). Qed.
Print Assumptions C43_vector.
(** The blockwise product is the product, for any addition that is associative and commutative with unit zero *)
Theorem C43_product T (zero : T) (add mul : T -> T -> T) junk junk' m Aset d x xA xB y : (forall a b, add a b = add b a) -> (forall a b c, add a (add b c) = add (add a b) c) -> (forall a, add a zero = a) ->
  Wf m -> rows m = cols m -> length Aset = rows m -> fits (rows m) -> blockDecomposeSquare add junk m Aset true = Ok d -> length x = rows m -> decomposeVector d x = Ok (xA, xB) ->
  reassembleVector junk' d (map (fun i => add (product zero add mul (AA d) xA i) (product zero add mul (AB d) xB i)) (seq 0 (rows (AA d))))
                           (map (fun i => add (product zero add mul (BA d) xA i) (product zero add mul (BB d) xB i)) (seq 0 (rows (BB d)))) = Ok y ->
  y = map (product zero add mul m x) (seq 0 (rows m)).
Proof. exact (product_main zero add mul junk junk' m Aset d x xA xB y). Qed.
Print Assumptions C43_product.
Example C43_witness : Wf ex3 /\ exists d, blockDecomposeSquare Z.add 99 ex3 [true; false; true] true = Ok d /\ origIndsA d = [0; 2] /\ origIndsB d = [1] /\
  AA d = mkS 2 2 [[(0, 1%Z); (1, 7%Z)]; [(0, 2%Z); (1, 4%Z)]] /\ AB d = mkS 2 1 [[]] /\ BA d = mkS 1 2 [[]; [(0, 3%Z)]] /\ BB d = mkS 1 1 [[(0, 5%Z)]] /\
  decomposeVector d [10; 20; 30]%Z = Ok ([10; 30], [20])%Z /\ reassembleVector 0%Z d [10; 30]%Z [20]%Z = Ok [10; 20; 30]%Z.
Proof. split; [exact ex3_wf|]. eexists. split; [reflexivity|]. repeat (split; [reflexivity|]). reflexivity. Qed.

(** C44. Either the call throws and the list is empty or two shared dimensions differ, or each matrix is found at its
    offset. *)
Theorem C44_vertical T (add : T -> T -> T) mats : (forall m, In m mats -> Wf m /\ fits (rows m) /\ fits (cols m)) -> fits (sum (map rows mats)) ->
  (stackV add mats = Throw /\ (mats = [] \/ exists m m', In m mats /\ In m' mats /\ cols m <> cols m')) \/
  exists r, stackV add mats = Ok r /\ mats <> [] /\ (forall m, In m mats -> cols m = cols r) /\ Wf r /\ rows r = sum (map rows mats) /\
    forall l1 m l2 i j, mats = l1 ++ m :: l2 -> i < rows m -> entry r (sum (map rows l1) + i) j = entry m i j.
Proof. exact (stackV_main add mats). Qed.
Print Assumptions C44_vertical.
Theorem C44_horizontal T (add : T -> T -> T) mats : (forall m, In m mats -> Wf m /\ fits (rows m) /\ fits (cols m)) -> fits (sum (map cols mats)) ->
  (stackH add mats = Throw /\ (mats = [] \/ exists m m', In m mats /\ In m' mats /\ rows m <> rows m')) \/
  exists r, stackH add mats = Ok r /\ mats <> [] /\ (forall m, In m mats -> rows m = rows r) /\ Wf r /\ cols r = sum (map cols mats) /\
    forall l1 m l2 i j, mats = l1 ++ m :: l2 -> j < cols m -> entry r i (sum (map cols l1) + j) = entry m i j.
Proof. exact (stackH_main add mats). Qed.
Print Assumptions C44_horizontal.
Example C44_witness : Wf ex3 /\ Wf ex23 /\ fits (sum (map rows [ex23; ex3])) /\
  stackV Z.add [ex23; ex3] = Ok (mkS 5 3 [[(1, 6%Z); (2, 1%Z); (4, 7%Z)]; [(3, 5%Z)]; [(0, 8%Z); (1, 9%Z); (2, 2%Z); (3, 3%Z); (4, 4%Z)]]) /\
  stackH Z.add [ex23; ex3] = Throw /\ stackH Z.add [ex23; ex23] = Ok (mkS 2 6 [[(1, 6%Z)]; []; [(0, 8%Z); (1, 9%Z)]; [(1, 6%Z)]; []; [(0, 8%Z); (1, 9%Z)]]).
Proof. split; [exact ex3_wf|]. split; [exact ex23_wf|]. split; [unfold fits; cbn; lia|]. split; [reflexivity|]. split; reflexivity. Qed.

(** C62. [far x y]: |x - y| > eps. The symmetry check passes exactly when no two mirrored coefficients, stored or not, are
    far apart. *)
Theorem C62_symmetric T (zero : T) far m : Wf m -> rows m = cols m -> (forall x y, far x y = far y x) -> far zero zero = false ->
  (checkSymmetric zero far m = Ok tt /\ forall i j, far (coeff zero m i j) (coeff zero m j i) = false) \/
  (checkSymmetric zero far m = Throw /\ exists i j, i < rows m /\ j < cols m /\ far (coeff zero m i j) (coeff zero m j i) = true).
Proof. exact (symmetric_main zero far m). Qed.
Print Assumptions C62_symmetric.
Theorem C62_finite T (finite : T -> bool) m : Wf m ->
  (checkFinite finite m = Ok tt /\ forall i j v, entry m i j = Some v -> finite v = true) \/
  (checkFinite finite m = Throw /\ exists i j v, entry m i j = Some v /\ finite v = false).
Proof. exact (finite_main finite m). Qed.
Print Assumptions C62_finite.
Theorem C62_finite_column T (finite : T -> bool) v :
  (checkFiniteColumn finite v = Ok tt /\ forall x, In x v -> finite x = true) \/ (checkFiniteColumn finite v = Throw /\ exists x, In x v /\ finite x = false).
Proof. exact (finite_column_main finite v). Qed.
Print Assumptions C62_finite_column.
(** the check of a row vector reads outside it, whatever the vector holds *)
Theorem C62_row_refuted T (finite : T -> bool) x v : checkFiniteRow finite (x :: v) = UB.
Proof. reflexivity. Qed.
Print Assumptions C62_row_refuted.
(** and a matrix that is not square is read outside its range instead of being reported *)
Theorem C62_square_refuted : exists m : smat Z, Wf m /\ rows m <> cols m /\ checkSymmetric 0%Z (fun x y => (9 <? Z.abs (x - y))%Z) m = UB.
Proof. exists ex23. split; [exact ex23_wf|]. split; [discriminate|reflexivity]. Qed.
Print Assumptions C62_square_refuted.
Example C62_witness : Wf ex3 /\ checkSymmetric 0%Z (fun x y => (9 <? Z.abs (x - y))%Z) ex3 = Ok tt /\ checkSymmetric 0%Z (fun x y => (2 <? Z.abs (x - y))%Z) ex3 = Throw.
Proof. split; [exact ex3_wf|]. split; reflexivity. Qed.

(** C63. Writing a matrix and reading the file back gives the same dimensions, the same stored positions, and each value
    as printed and read back. *)
Theorem C63_sparse T tok (print : T -> tok) (parse : tok -> T) add m : Wf m -> exists m', loadSparse parse add (saveSparse print m) = Ok m' /\ Wf m' /\ rows m' = rows m /\ cols m' = cols m /\
  forall i j, entry m' i j = option_map (fun v => parse (print v)) (entry m i j).
Proof. exact (sparse_roundtrip print parse add m). Qed.
Print Assumptions C63_sparse.
Theorem C63_dense T tok (print : T -> tok) (parse : tok -> T) junk m : length (data m) = drows m -> (forall r, In r (data m) -> length r = dcols m) ->
  loadDense parse junk (saveDense print m) = Ok (mkDense (drows m) (dcols m) (map (map (fun v => parse (print v))) (data m))).
Proof. exact (dense_roundtrip print parse junk m). Qed.
Print Assumptions C63_dense.
(** Files with entries outside the stated size are meant to be rejected. A row index 0, entries in a file that states no
    columns, and a dense file with a line too many are not: memory outside the matrix is written. *)
Theorem C63_reject_refuted : loadSparse (fun t : Z => t) Z.add [SHeader 2 2; SEntry 0 1 5%Z] = UB /\ loadSparse (fun t : Z => t) Z.add [SHeader 2 0; SEntry 1 1 5%Z] = UB /\
  loadDense (fun t : Z => t) 0%Z (mkDFile 1 2 [[1; 2]; [3; 4]])%Z = UB /\ loadSparse (fun t : Z => t) Z.add [SHeader 2 2; SEntry 3 1 5%Z] = Throw.
Proof. repeat split; reflexivity. Qed.
Print Assumptions C63_reject_refuted.
Example C63_witness : Wf ex23 /\ loadSparse (fun t : Z => t) Z.add (saveSparse (fun t => t) ex23) = Ok ex23.
Proof. split; [exact ex23_wf|reflexivity]. Qed.
