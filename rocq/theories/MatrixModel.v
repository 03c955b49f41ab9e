(** Sparse matrix utilities, include/geometrycentral/numerical/linear_algebra_utilities.ipp. The scalar type T is a
    parameter, with the operations a function needs. Eigen itself is not modelled beyond the interface used here:
    - an Eigen::SparseMatrix<T> (column major, as geometrycentral declares it) is its list of columns, each the list of its
      stored (row, value) pairs, in the order in which InnerIterator visits them;
    - setFromTriplets sums the values given for one position in the order given and stores a column by increasing row, and
      its behaviour is undefined when a position is out of range;
    - a dense Vector<T> is a list. *)
From Verif Require Import Base.
Open Scope nat_scope.

Section Scalar.
Context {T : Type}.

Record smat := mkS { rows : nat; cols : nat; columns : list (list (nat * T)) }.
(** all stored entries, in the order of the loops
    for k < outerSize() { for InnerIterator it(mat, k) ... } *)
Definition entries (m : smat) : list (nat * nat * T) :=
  concat (map (fun kc => map (fun rv => (fst rv, fst kc, snd rv)) (snd kc)) (combine (seq 0 (length (columns m))) (columns m))).

(** conversion of an index computed in size_t to Eigen's StorageIndex = int when a Triplet is constructed; a value that does
    not fit would be changed: reported as UB *)
Definition toStorage (n : nat) : res nat := if (Z.of_nat n <=? 2147483647)%Z then Ok n else UB.

(** the values given for position (i, j) *)
Definition valuesAt (trips : list (nat * nat * T)) (i j : nat) : list T :=
  map snd (filter (fun t => (fst (fst t) =? i) && (snd (fst t) =? j)) trips).
(** SparseMatrix<T>(r, c) followed by setFromTriplets(trips) *)
Definition fromTriplets (add : T -> T -> T) (r c : nat) (trips : list (nat * nat * T)) : res smat :=
  if forallb (fun t => (fst (fst t) <? r) && (snd (fst t) <? c)) trips
  then Ok (mkS r c (map (fun j => concat (map (fun i => match valuesAt trips i j with [] => [] | v :: vs => [(i, fold_left add vs v)] end) (seq 0 r))) (seq 0 c)))
  else UB.

(** verticalStack, :22-55 *)
Definition stackV (add : T -> T -> T) (mats : list smat) : res smat :=
  match mats with
  | [] => Throw
  | m0 :: _ =>
    let* (trips, n) := foldM (fun acc m =>
        let '(trips, n) := acc in
        let* _ := guard (cols m =? cols m0) in
        let* ts := mapM (fun e => let '(i, j, v) := e in let* i := toStorage (i + n) in let* j := toStorage j in Ok (i, j, v)) (entries m) in
        Ok (trips ++ ts, n + rows m)) mats ([], 0) in
    fromTriplets add n (cols m0) trips
  end.
(** horizontalStack, :57-90 *)
Definition stackH (add : T -> T -> T) (mats : list smat) : res smat :=
  match mats with
  | [] => Throw
  | m0 :: _ =>
    let* (trips, n) := foldM (fun acc m =>
        let '(trips, n) := acc in
        let* _ := guard (rows m =? rows m0) in
        let* ts := mapM (fun e => let '(i, j, v) := e in let* i := toStorage i in let* j := toStorage (j + n) in Ok (i, j, v)) (entries m) in
        Ok (trips ++ ts, n + cols m)) mats ([], 0) in
    fromTriplets add (rows m0) n trips
  end.

(** BlockDecompositionResult, linear_algebra_utilities.h:74-90 *)
Record decomp := mkD { isA : list bool; newInds : list nat; origIndsA : list nat; origIndsB : list nat; AA : smat; AB : smat; BA : smat; BB : smat }.

(** blockDecomposeSquare, :246-337 *)
(** the counting loop, :254-264 *)
Definition countSizes (Aset : list bool) (n : nat) : res (nat * nat) :=
  foldM (fun s i => let '(a, b) := s in let* x := rd Aset i in Ok (if x then (S a, b) else (a, S b))) (seq 0 n) (0, 0).
(** the indexing loop, :281-293. Entries of a fresh Vector<size_t> are unspecified: [junk] *)
Definition indexStep (Aset : list bool) (s : list nat * list nat * list nat * nat * nat) (i : nat) : res (list nat * list nat * list nat * nat * nat) :=
  let '(newI, oA, oB, a, b) := s in
  let* x := rd Aset i in
  if x then let* oA := wr oA a i in let* newI := wr newI i a in Ok (newI, oA, oB, S a, b)
  else let* oB := wr oB b i in let* newI := wr newI i b in Ok (newI, oA, oB, a, S b).
(** the loop over stored entries, :300-326: four lists of triplets. (The code converts an index only when it emits a triplet; here it is
    converted in any case, which differs only for indices that do not fit int.) *)
Definition splitStep (Aset : list bool) (newI : list nat) (bside : bool)
  (s : list (nat * nat * T) * list (nat * nat * T) * list (nat * nat * T) * list (nat * nat * T)) (e : nat * nat * T) :=
  let '(tAA, tAB, tBA, tBB) := s in
  let '(r, c, v) := e in
  let* rowA := rd Aset r in
  let* colA := rd Aset c in
  let* r' := (let* x := rd newI r in toStorage x) in
  let* c' := (let* x := rd newI c in toStorage x) in
  let tAA := if rowA && colA then tAA ++ [(r', c', v)] else tAA in
  let tAB := if rowA && negb colA then tAB ++ [(r', c', v)] else tAB in
  let tBA := if bside && (negb rowA && colA) then tBA ++ [(r', c', v)] else tBA in
  let tBB := if bside && (negb rowA && negb colA) then tBB ++ [(r', c', v)] else tBB in
  Ok (tAA, tAB, tBA, tBB).
Definition blockDecomposeSquare (add : T -> T -> T) (junk : nat) (m : smat) (Aset : list bool) (bside : bool) : res decomp :=
  let* _ := guard (rows m =? cols m) in
  let n := rows m in
  let* (nA, nB) := countSizes Aset n in
  let* (newI, oA, oB, _, _) := foldM (indexStep Aset) (seq 0 n) (repeat junk n, repeat junk nA, repeat junk nB, 0, 0) in
  let* (tAA, tAB, tBA, tBB) := foldM (splitStep Aset newI bside) (entries m) ([], [], [], []) in
  let* mAA := fromTriplets add nA nA tAA in
  let* mAB := fromTriplets add nA nB tAB in
  let* mBA := (if bside then fromTriplets add nB nA tBA else Ok (mkS 0 0 [])) in
  let* mBB := (if bside then fromTriplets add nB nB tBB else Ok (mkS 0 0 [])) in
  Ok (mkD Aset newI oA oB mAA mAB mBA mBB).

(** decomposeVector, :340-353 *)
Definition decomposeVector (d : decomp) (vec : list T) : res (list T * list T) :=
  let* a := mapM (rd vec) (origIndsA d) in
  let* b := mapM (rd vec) (origIndsB d) in
  Ok (a, b).
(** reassembleVector, :356-369; [junk] fills the fresh Vector *)
Definition scatter (out : list T) (inds : list nat) (vec : list T) : res (list T) :=
  foldM (fun out i => let* k := rd inds i in let* v := rd vec i in wr out k v) (seq 0 (length vec)) out.
Definition reassembleVector (junk : T) (d : decomp) (vecA vecB : list T) : res (list T) :=
  let* out := scatter (repeat junk (length (newInds d))) (origIndsA d) vecA in
  scatter out (origIndsB d) vecB.

(** the value at (i, j): m.coeff(i, j) *)
Definition coeffAt (zero : T) (m : smat) (i j : nat) : res T :=
  if (i <? rows m) && (j <? cols m)
  then Ok (match find (fun p => fst p =? i) (nth j (columns m) []) with Some p => snd p | None => zero end)
  else UB.
(** checkSymmetric (:170-205) with an explicit tolerance; [far x y] is std::abs(x - y) > eps. checkHermitian (:208-243)
    is the same code with [far x y] = std::abs(x - conj(y)) > eps. *)
Definition checkSymmetric (zero : T) (far : T -> T -> bool) (m : smat) : res unit :=
  foldM (fun _ e => let '(r, c, v) := e in let* w := coeffAt zero m c r in guard (negb (far v w))) (entries m) tt.
(** checkFinite for sparse matrices, :110-122 *)
Definition checkFinite (finite : T -> bool) (m : smat) : res unit :=
  foldM (fun _ e => guard (finite (snd e))) (entries m) tt.
(** checkFinite for dense vectors: column (:157-167) and row (:143-153). A row vector has one row; it is read at m(1, j). *)
Definition checkFiniteColumn (finite : T -> bool) (v : list T) : res unit :=
  foldM (fun _ i => let* x := rd v i in guard (finite x)) (seq 0 (length v)) tt.
Definition checkFiniteRow (finite : T -> bool) (v : list T) : res unit :=
  foldM (fun _ j => let* row := rd [v] 1 in let* x := rd row j in guard (finite x)) (seq 0 (length v)) tt.
End Scalar.
Arguments smat T : clear implicits.
Arguments decomp T : clear implicits.

(** ** matrix files, as lists of lines already split at blanks; [tok] is the text of a number, written by operator<< with 16
    digits ([print]) and read by operator>> ([parse]). Lines that are neither a comment nor three numbers are not
    modelled. *)
Section File.
Context {T tok : Type} (print : T -> tok) (parse : tok -> T).
(** "# sparse rows cols" / "row col value" *)
Inductive sline := SHeader (r c : Z) | SEntry (i j : Z) (t : tok).
(** saveSparseMatrix, :383-401 *)
Definition saveSparse (m : smat T) : list sline :=
  SHeader (Z.of_nat (rows m)) (Z.of_nat (cols m)) :: map (fun e => SEntry (Z.of_nat (fst (fst e)) + 1) (Z.of_nat (snd (fst e)) + 1) (print (snd e))) (entries m).
(** loadSparseMatrix, :451-499: state rows, cols, maxRow, maxCol, triplets *)
Definition loadStep (s : Z * Z * Z * Z * list (Z * Z * T)) (l : sline) : Z * Z * Z * Z * list (Z * Z * T) :=
  let '(rows, cols, maxRow, maxCol, trips) := s in
  match l with
  | SHeader r c => (r, c, maxRow, maxCol, trips)
  | SEntry i j t => (rows, cols, Z.max maxRow (i - 1), Z.max maxCol (j - 1), trips ++ [(i - 1, j - 1, parse t)%Z])
  end.
(** SparseMatrix(rows, cols) and setFromTriplets with int indices *)
Definition fromIntTriplets (add : T -> T -> T) (r c : Z) (trips : list (Z * Z * T)) : res (smat T) :=
  if ((0 <=? r) && (0 <=? c))%Z && forallb (fun t => (0 <=? fst (fst t))%Z && (0 <=? snd (fst t))%Z) trips
  then fromTriplets add (Z.to_nat r) (Z.to_nat c) (map (fun t => (Z.to_nat (fst (fst t)), Z.to_nat (snd (fst t)), snd t)) trips)
  else UB.
Definition loadSparse (add : T -> T -> T) (f : list sline) : res (smat T) :=
  let '(rows, cols, maxRow, maxCol, trips) := fold_left loadStep f (-1, -1, -1, -1, [])%Z in
  let* _ := guard (negb ((0 <? cols)%Z && ((cols <=? maxCol)%Z || (rows <=? maxRow)%Z))) in
  let '(rows, cols) := if (cols <? 0)%Z then (maxRow + 1, maxCol + 1)%Z else (rows, cols) in
  fromIntTriplets add rows cols trips.

(** a dense matrix by rows *)
Record dmat := mkDense { drows : nat; dcols : nat; data : list (list T) }.
Record dfile := mkDFile { hrows : Z; hcols : Z; body : list (list tok) }.
(** saveDenseMatrix, :412-429 *)
Definition saveDense (m : dmat) : dfile := mkDFile (Z.of_nat (drows m)) (Z.of_nat (dcols m)) (map (map print) (data m)).
(** loadDenseMatrix, :519-549, from the first line "# dense rows cols" on. A line with fewer than cols numbers leaves
    unspecified values in the matrix: reported as UB; further numbers on a line are ignored. Matrix entries not written
    are [junk]. *)
Definition loadRow (c : nat) (line : list tok) : res (list T) := mapM (fun j => let* t := rd line j in Ok (parse t)) (seq 0 c).
Definition loadDense (junk : T) (f : dfile) : res dmat :=
  let* _ := guard (negb ((hrows f <? 0)%Z || (hcols f <? 0)%Z)) in
  let r := Z.to_nat (hrows f) in
  let c := Z.to_nat (hcols f) in
  let* (d, _) := foldM (fun s line => let '(d, i) := s in
      let* row := loadRow c line in
      let* d := (if c =? 0 then Ok d else wr d i row) in
      Ok (d, S i)) (body f) (repeat (repeat junk c) r, 0) in
  Ok (mkDense r c d).
End File.
Arguments sline tok : clear implicits.
Arguments dmat T : clear implicits.
Arguments dfile tok : clear implicits.
