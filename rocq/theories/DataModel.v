(** Model of element iteration (element_iterators.ipp), of the MeshData container (mesh_data.{h,ipp}) and of
    PointCloud (src/pointcloud/point_cloud.cpp), the simplest mesh type a MeshData can live on. *)
From Verif Require Import Base.

(** ** Range iteration *)
(** The [while] loop of RangeIteratorBase::operator++, element_iterators.ipp:17-21. The loop tests
    [iCurr != iEnd], not [<]; started past the end it would run forever (until wrap-around): UB. *)
Fixpoint it_skip (fuel : nat) (okay : nat -> bool) (i iEnd : nat) : res nat :=
  match fuel with
  | O => UB
  | S fuel' => if Nat.eqb i iEnd then Ok i else if okay i then Ok i else it_skip fuel' okay (S i) iEnd
  end.
(** operator++, element_iterators.ipp:16-22 *)
Definition it_next (fuel : nat) (okay : nat -> bool) (i iEnd : nat) : res nat := it_skip fuel okay (S i) iEnd.
(** constructor, element_iterators.ipp:8-13 *)
Definition it_begin (fuel : nat) (okay : nat -> bool) (iStart iEnd : nat) : res nat :=
  if negb (Nat.eqb iStart iEnd) && negb (okay iStart) then it_next fuel okay iStart iEnd else Ok iStart.
(** a range-based for loop: the list of indices visited; end() is the iterator at iEnd *)
Fixpoint it_loop (fuel : nat) (okay : nat -> bool) (i iEnd : nat) : res (list nat) :=
  match fuel with
  | O => UB
  | S fuel' =>
      if Nat.eqb i iEnd then Ok []
      else let* i' := it_next fuel okay i iEnd in
           let* t := it_loop fuel' okay i' iEnd in Ok (i :: t)
  end.
(** for (E e : RangeSet(mesh, 0, fill)) *)
Definition iterate (okay : nat -> bool) (fill : nat) : res (list nat) :=
  let* i := it_begin (S fill) okay 0 fill in it_loop (S fill) okay i fill.

(** ** MeshData<E,T> *)
(** [dflt] = defaultValue, [dat] = data. The mesh pointer is implicit. *)
Record mdata (T : Type) := mkMD { dflt : T; dat : list T }.
Arguments mkMD {T}. Arguments dflt {T}. Arguments dat {T}.

(** constructor MeshData(mesh, initVal), mesh_data.ipp:21-26; [cap] = elementCapacity<E>(mesh) *)
Definition md_new {T} (cap : nat) (d : T) : mdata T := {| dflt := d; dat := repeat d cap |}.

(** operator[], mesh_data.ipp:196-215 (release mode: unchecked access) *)
Definition md_get {T} (m : mdata T) (i : nat) : res T := rd (dat m) i.
Definition md_put {T} (m : mdata T) (i : nat) (v : T) : res (mdata T) :=
  let* l := wr (dat m) i v in Ok {| dflt := dflt m; dat := l |}.

(** expandFunc, mesh_data.ipp:89-99: the copy loop writes oldSize entries into a buffer of newSize entries *)
Definition md_expand {T} (newSize : nat) (m : mdata T) : res (mdata T) :=
  if Nat.leb (length (dat m)) newSize
  then Ok {| dflt := dflt m; dat := dat m ++ repeat (dflt m) (newSize - length (dat m)) |}
  else UB.

(** permuteFunc, mesh_data.ipp:103-110 *)
Definition md_permute {T} (perm : list nat) (m : mdata T) : res (mdata T) :=
  let* l := mapM (rd (dat m)) perm in Ok {| dflt := dflt m; dat := l |}.

(** toVector(), mesh_data.ipp:151-159: [n] = nElements<E>(mesh) sizes the result, [els] = elements in iteration order.
    Writing past the end of the result is UB. The entries never written (uninitialised memory) are UB as well. *)
Definition md_toVector {T} (n : nat) (els : list nat) (m : mdata T) : res (list T) :=
  if Nat.eqb (length els) n then mapM (md_get m) els else UB.

(** fromVector(v), mesh_data.ipp:177-184 *)
Fixpoint put_all {T} (els : list nat) (v : list T) (i : nat) (m : mdata T) : res (mdata T) :=
  match els with
  | [] => Ok m
  | e :: t => let* x := rd v i in let* m' := md_put m e x in put_all t v (S i) m'
  end.
Definition md_fromVector {T} (n : nat) (els : list nat) (v : list T) (m : mdata T) : res (mdata T) :=
  let* _ := guard (Nat.eqb (length v) n) in put_all els v 0 m.

(** fill, mesh_data.ipp:136-140 *)
Definition md_fill {T} (els : list nat) (x : T) (m : mdata T) : res (mdata T) :=
  foldM (fun m e => md_put m e x) els m.

(** toVector(indexer) and fromVector(vector, indexer), mesh_data.ipp:162-174 and 187-193.
    [None] stands for the index std::numeric_limits<size_t>::max(). The result vector of toVector starts uninitialised:
    slots hold None until written and reading such a slot later would be UB. *)
Definition md_toVector_ind {T} (els : list nat) (indexer : list (option nat)) (m : mdata T) : res (list (option T)) :=
  let* outSize := foldM (fun k e => let* o := rd indexer e in Ok (match o with Some _ => S k | None => k end)) els 0 in
  foldM (fun (r : list (option T)) e =>
           let* o := rd indexer e in
           match o with Some j => let* x := md_get m e in wr r j (Some x) | None => Ok r end) els (repeat None outSize).
Definition md_fromVector_ind {T} (els : list nat) (indexer : list (option nat)) (v : list T) (m : mdata T) : res (mdata T) :=
  foldM (fun m e =>
           let* o := rd indexer e in
           match o with Some j => let* x := rd v j in md_put m e x | None => Ok m end) els m.

(** setDefault, mesh_data.ipp:264-281. [els] are the indices of the live elements (e.getIndex()). *)
Definition md_setDefault {T} (els : list nat) (d : T) (m : mdata T) : mdata T :=
  let maxInd := fold_left Nat.max els 0 in
  {| dflt := d; dat := firstn (S maxInd) (dat m) ++ repeat d (length (dat m) - S maxInd) |}.

(** binary operators, mesh_data.h:142-150: a fresh container with elementCapacity<E>(mesh) entries, then a loop over
    the raw rows of the left operand writing result.raw()[i] = lhs.raw()[i] OP rhs.raw()[i] *)
Definition md_binop {A B C} (op : A -> B -> C) (d : C) (cap : nat) (l : mdata A) (r : mdata B) : res (mdata C) :=
  foldM (fun acc i => let* x := rd (dat l) i in let* y := rd (dat r) i in md_put acc i (op x y))
        (seq 0 (length (dat l))) (md_new cap d).
(** unary operators, mesh_data.h:132-138 *)
Definition md_unop {A C} (op : A -> C) (d : C) (cap : nat) (l : mdata A) : res (mdata C) :=
  foldM (fun acc i => let* x := rd (dat l) i in md_put acc i (op x)) (seq 0 (length (dat l))) (md_new cap d).
(** compound assignment OP=, mesh_data.h:169-176 *)
Definition md_assignop {A B} (op : A -> B -> A) (l : mdata A) (r : mdata B) : res (mdata A) :=
  foldM (fun acc i => let* x := rd (dat acc) i in let* y := rd (dat r) i in md_put acc i (op x y))
        (seq 0 (length (dat l))) l.

(** getXxxIndices(), surface_mesh.cpp:466-539, point_cloud.cpp:37-45: a fresh container, consecutive numbers to the
    elements in iteration order *)
Definition md_indices (cap : nat) (els : list nat) : res (mdata nat) :=
  let* (m, _) := foldM (fun (mi : mdata nat * nat) e => let (m, i) := mi in let* m' := md_put m e i in Ok (m', S i))
                       els (md_new cap 0, 0) in Ok m.

(** ** PointCloud *)
(** point_cloud.h:85-110. The containers registered with the cloud (of value type T) are part of the state. *)
Record pcloud (T : Type) := mkPC {
  pointValid : list bool; nPointsCount : nat; nPointsFillCount : nat; nPointsCapacityCount : nat;
  isCompressedFlag : bool; pdata : list (mdata T) }.
Arguments mkPC {T}. Arguments pointValid {T}. Arguments nPointsCount {T}. Arguments nPointsFillCount {T}.
Arguments nPointsCapacityCount {T}. Arguments isCompressedFlag {T}. Arguments pdata {T}.

(** constructor, point_cloud.cpp:13-24 *)
Definition pc_new {T} (n : nat) : pcloud T :=
  {| pointValid := repeat true n; nPointsCount := n; nPointsFillCount := n; nPointsCapacityCount := n;
     isCompressedFlag := true; pdata := [] |}.

(** pointIsDead, point_cloud.ipp:16; out of range is UB in C++, here it reads as dead (points() never asks it) *)
Definition pc_live {T} (c : pcloud T) (i : nat) : bool := nth i (pointValid c) false.

(** points(), point_cloud.ipp:19 *)
Definition pc_points {T} (c : pcloud T) : res (list nat) := iterate (pc_live c) (nPointsFillCount c).

(** getNewPoint, point_cloud.cpp:94-127; the growth step (lines 97-116) first: resize, mark the new points as dead, run
    the expand callbacks *)
Definition pc_grow {T} (c : pcloud T) : res (pcloud T) :=
  if Nat.ltb (nPointsFillCount c) (nPointsCapacityCount c) then Ok c
  else
    let newCapacity := nPointsCapacityCount c * 2 in
    let* pd := mapM (md_expand newCapacity) (pdata c) in
    Ok {| pointValid := pointValid c ++ repeat false (newCapacity - length (pointValid c));
          nPointsCount := nPointsCount c; nPointsFillCount := nPointsFillCount c;
          nPointsCapacityCount := newCapacity; isCompressedFlag := isCompressedFlag c; pdata := pd |}.
Definition pc_getNewPoint {T} (c : pcloud T) : res (pcloud T * nat) :=
  let* c1 := pc_grow c in
  let* pv := wr (pointValid c1) (nPointsFillCount c1) true in
  Ok ({| pointValid := pv; nPointsCount := S (nPointsCount c1); nPointsFillCount := S (nPointsFillCount c1);
         nPointsCapacityCount := nPointsCapacityCount c1; isCompressedFlag := false; pdata := pdata c1 |},
      nPointsFillCount c1).

(** deleteElement, point_cloud.cpp:129-137 *)
Definition pc_delete {T} (c : pcloud T) (i : nat) : res (pcloud T) :=
  let* pv := wr (pointValid c) i false in
  Ok {| pointValid := pv; nPointsCount := nPointsCount c - 1; nPointsFillCount := nPointsFillCount c;
        nPointsCapacityCount := nPointsCapacityCount c; isCompressedFlag := false; pdata := pdata c |}.

(** compressPoints and compress, point_cloud.cpp:139-174. applyPermutation is utilities.h:96-104 (the permutation has
    no INVALID entries here). oldIndMap is not used by the C++ code after being filled. *)
Definition pc_compress {T} (c : pcloud T) : res (pcloud T) :=
  if isCompressedFlag c then Ok c
  else
    let newIndMap := filter (pc_live c) (seq 0 (nPointsFillCount c)) in
    let* pv := mapM (rd (pointValid c)) newIndMap in
    let* pd := mapM (md_permute newIndMap) (pdata c) in
    Ok {| pointValid := pv; nPointsCount := nPointsCount c; nPointsFillCount := nPointsCount c;
          nPointsCapacityCount := nPointsCount c; isCompressedFlag := true; pdata := pd |}.

(** client-side container operations on the k-th registered container *)
Definition pc_addData {T} (c : pcloud T) (d : T) : pcloud T :=
  {| pointValid := pointValid c; nPointsCount := nPointsCount c; nPointsFillCount := nPointsFillCount c;
     nPointsCapacityCount := nPointsCapacityCount c; isCompressedFlag := isCompressedFlag c;
     pdata := pdata c ++ [md_new (nPointsCapacityCount c) d] |}.
Definition pc_setData {T} (c : pcloud T) (k i : nat) (v : T) : res (pcloud T) :=
  let* m := rd (pdata c) k in let* m' := md_put m i v in let* pd := wr (pdata c) k m' in
  Ok {| pointValid := pointValid c; nPointsCount := nPointsCount c; nPointsFillCount := nPointsFillCount c;
        nPointsCapacityCount := nPointsCapacityCount c; isCompressedFlag := isCompressedFlag c; pdata := pd |}.
Definition pc_setDefault {T} (c : pcloud T) (k : nat) (d : T) : res (pcloud T) :=
  let* els := pc_points c in
  let* m := rd (pdata c) k in let* pd := wr (pdata c) k (md_setDefault els d m) in
  Ok {| pointValid := pointValid c; nPointsCount := nPointsCount c; nPointsFillCount := nPointsFillCount c;
        nPointsCapacityCount := nPointsCapacityCount c; isCompressedFlag := isCompressedFlag c; pdata := pd |}.

(** Histories. A client names a point by its rank among the live points (in iteration order): handles themselves are
    renumbered by compress(). *)
Inductive pc_op (T : Type) :=
| PNew | PDelete (rank : nat) | PCompress | PAddData (d : T) | PSetData (k rank : nat) (v : T) | PSetDefault (k : nat) (d : T).
Arguments PNew {T}. Arguments PDelete {T}. Arguments PCompress {T}. Arguments PAddData {T}.
Arguments PSetData {T}. Arguments PSetDefault {T}.

Definition pc_step {T} (c : pcloud T) (o : pc_op T) : res (pcloud T) :=
  match o with
  | PNew => let* (c', _) := pc_getNewPoint c in Ok c'
  | PDelete r => let* els := pc_points c in let* i := rd els r in pc_delete c i
  | PCompress => pc_compress c
  | PAddData d => Ok (pc_addData c d)
  | PSetData k r v => let* els := pc_points c in let* i := rd els r in pc_setData c k i v
  | PSetDefault k d => pc_setDefault c k d
  end.
Definition pc_run {T} (ops : list (pc_op T)) (c : pcloud T) : res (pcloud T) := foldM pc_step ops c.

(** what a client sees: for every registered container the values of the live points in iteration order *)
Definition pc_view {T} (c : pcloud T) : res (list (list T)) :=
  let* els := pc_points c in mapM (md_toVector (nPointsCount c) els) (pdata c).
