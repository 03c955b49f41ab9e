(** C05, C07, C08, C48, C55, C58: containers, iteration and point clouds. *)
From Coq Require Import Sorted.
From Verif Require Import Base DataModel DataSpec DataProofs.

(** C08. A range-for over elements terminates and visits exactly the live indices, in increasing order. *)
Theorem C08_iteration okay fill : exists l, iterate okay fill = Ok l /\ StronglySorted lt l /\ NoDup l /\
  forall i, In i l <-> i < fill /\ okay i = true.
Proof. exact (iteration_correct okay fill). Qed.
Print Assumptions C08_iteration.
Example C08_witness : iterate (fun i => Nat.odd i) 6 = Ok [1; 3; 5].
Proof. reflexivity. Qed.

(** C05. Growing the storage keeps every stored value and fills the rest with the default. *)
Theorem C05_expand T n (m : mdata T) : length (dat m) <= n ->
  exists m', md_expand n m = Ok m' /\ length (dat m') = n /\ dflt m' = dflt m /\
    (forall i, i < length (dat m) -> nth_error (dat m') i = nth_error (dat m) i) /\
    (forall i, length (dat m) <= i -> i < n -> nth_error (dat m') i = Some (dflt m)).
Proof. exact (md_expand_ok n m). Qed.
Print Assumptions C05_expand.
Example C05_witness : md_expand 4 {| dflt := 9; dat := [1; 2] |} = Ok {| dflt := 9; dat := [1; 2; 9; 9] |}.
Proof. reflexivity. Qed.

(** C06 (container part). The permute callback moves old entry perm[k] to entry k. *)
Theorem C06_permute T perm (m : mdata T) : (forall i, In i perm -> i < length (dat m)) ->
  exists m', md_permute perm m = Ok m' /\ length (dat m') = length perm /\ dflt m' = dflt m /\
    forall k i, nth_error perm k = Some i -> nth_error (dat m') k = nth_error (dat m) i.
Proof. exact (md_permute_ok perm m). Qed.
Print Assumptions C06_permute.
Example C06_permute_witness : md_permute [2; 0] {| dflt := 9; dat := [1; 2; 3] |} = Ok {| dflt := 9; dat := [3; 1] |}.
Proof. reflexivity. Qed.

(** C07. [els] are the live elements in iteration order (C08), their number is what nElements() reports (C19). *)
Theorem C07_from_to_vector T els (m : mdata T) : NoDup els -> (forall i, In i els -> i < length (dat m)) ->
  exists v, md_toVector (length els) els m = Ok v /\ length v = length els /\
  forall m0 : mdata T, (forall i, In i els -> i < length (dat m0)) ->
    exists m', md_fromVector (length els) els v m0 = Ok m' /\
      (forall i, In i els -> md_get m' i = md_get m i) /\
      (forall i, ~ In i els -> md_get m' i = md_get m0 i).
Proof. exact (fromVector_toVector els m). Qed.
Print Assumptions C07_from_to_vector.

Theorem C07_to_from_vector T els (m : mdata T) v : NoDup els -> (forall i, In i els -> i < length (dat m)) ->
  length v = length els ->
  exists m', md_fromVector (length els) els v m = Ok m' /\ md_toVector (length els) els m' = Ok v.
Proof. exact (toVector_fromVector els m v). Qed.
Print Assumptions C07_to_from_vector.

Theorem C07_wrong_size_throws T els (m : mdata T) v n : length v <> n -> md_fromVector n els v m = Throw.
Proof. exact (fromVector_wrong_size els m v n). Qed.
Print Assumptions C07_wrong_size_throws.

(** getXxxIndices numbers the live elements by their rank in iteration order *)
Theorem C07_indices cap els : NoDup els -> (forall e, In e els -> e < cap) ->
  exists m, md_indices cap els = Ok m /\ length (dat m) = cap /\
    forall j e, nth_error els j = Some e -> md_get m e = Ok j.
Proof. exact (indices_ok cap els). Qed.
Print Assumptions C07_indices.

(** the variants with an index map; [keyed] lists the (element, index) pairs whose index is not INVALID *)
Theorem C07_to_vector_indexed T els ind (m : mdata T) : (forall e, In e els -> e < length ind /\ e < length (dat m)) ->
  NoDup (map snd (keyed els ind)) -> (forall e j, In (e, j) (keyed els ind) -> j < length (keyed els ind)) ->
  exists r, md_toVector_ind els ind m = Ok r /\ length r = length (keyed els ind) /\
    forall e j, In e els -> nth e ind None = Some j -> nth_error r j = Some (nth_error (dat m) e).
Proof. exact (toVector_ind_ok els ind m). Qed.
Print Assumptions C07_to_vector_indexed.

Theorem C07_from_vector_indexed T els ind (v : list T) (m : mdata T) :
  NoDup els -> (forall e, In e els -> e < length ind /\ e < length (dat m)) ->
  (forall e j, In e els -> nth e ind None = Some j -> j < length v) ->
  exists m', md_fromVector_ind els ind v m = Ok m' /\ length (dat m') = length (dat m) /\ dflt m' = dflt m /\
    (forall e j, In e els -> nth e ind None = Some j -> nth_error (dat m') e = nth_error v j) /\
    (forall e, ~ In e els \/ nth e ind None = None -> nth_error (dat m') e = nth_error (dat m) e).
Proof. exact (fromVector_ind_ok els ind v m). Qed.
Print Assumptions C07_from_vector_indexed.

Example C07_witness :
  let els := [0; 2; 3] in let m := {| dflt := 0; dat := [10; 11; 12; 13] |} in
  NoDup els /\ (forall i, In i els -> i < length (dat m)) /\
  md_toVector 3 els m = Ok [10; 12; 13] /\ md_fromVector 3 els [7; 8; 9] m = Ok {| dflt := 0; dat := [7; 11; 8; 9] |} /\
  md_indices 4 els = Ok {| dflt := 0; dat := [0; 0; 1; 2] |} /\
  md_toVector_ind els [Some 1; None; None; Some 0] m = Ok [Some 13; Some 10] /\
  md_fromVector_ind els [Some 1; None; None; Some 0] [5; 6] m = Ok {| dflt := 0; dat := [6; 11; 12; 5] |}.
Proof.
  cbv zeta. split; [repeat constructor; simpl; intuition lia|]. split; [simpl; intuition lia|]. repeat split.
Qed.

(** C48 (and C05, C06, C07, C08, C55 on PointCloud). Any history of point creation, deletion, compress, container
    creation, writes and setDefault on PointCloud(n) behaves like the same history on a plain table: same number of
    points, same values in the same order in every container. *)
Theorem C48_point_cloud T n (ops : list (pc_op T)) :
  t_history_ok {| rows := n; cols := [] |} ops ->
  exists c, pc_run ops (pc_new n) = Ok c /\
    (let t := t_run ops {| rows := n; cols := [] |} in
     nPointsCount c = rows t /\ pc_view c = Ok (map cvals (cols t)) /\
     exists els, pc_points c = Ok els /\ length els = rows t /\ NoDup els /\
       (forall i, In i els <-> i < nPointsFillCount c /\ pc_live c i = true)).
Proof. exact (pointcloud_refines n ops). Qed.
Print Assumptions C48_point_cloud.

Theorem C48_compress T n (ops : list (pc_op T)) :
  t_history_ok {| rows := n; cols := [] |} ops ->
  exists c c', pc_run ops (pc_new n) = Ok c /\ pc_compress c = Ok c' /\ pc_view c' = pc_view c /\
    nPointsCount c' = nPointsCount c /\ nPointsCapacityCount c' = nPointsCount c' /\
    pc_points c' = Ok (seq 0 (nPointsCount c')).
Proof. exact (pointcloud_compress n ops). Qed.
Print Assumptions C48_compress.

Definition C48_history : list (pc_op nat) :=
  [PAddData 7; PSetData 0 1 5; PNew; PNew; PDelete 0; PSetDefault 0 8; PNew; PNew; PCompress; PSetData 0 4 1; PNew; PAddData 3].
Example C48_witness : t_history_ok {| rows := 2; cols := [] |} C48_history /\
  (let* c := pc_run C48_history (pc_new 2) in pc_view c) = Ok [[5; 7; 7; 8; 1; 8]; [3; 3; 3; 3; 3; 3]].
Proof. split; [simpl; intuition lia|vm_compute; reflexivity]. Qed.

(** Finding: the growth rule doubles the capacity, so a cloud of capacity 0 never grows and creating a point writes out
    of bounds. *)
Theorem C48_grow_from_empty_refuted : pc_run [PNew] (@pc_new nat 0) = UB /\
  pc_run [PDelete 0; PCompress; PNew] (@pc_new nat 1) = UB.
Proof. exact (conj eq_refl eq_refl). Qed.
Print Assumptions C48_grow_from_empty_refuted.

(** C55. setDefault keeps every entry up to the last live element and resets every later one. *)
Theorem C55_setDefault T els d (m : mdata T) :
  let m' := md_setDefault els d m in
  dflt m' = d /\ length (dat m') = length (dat m) /\
  (forall i, i <= fold_left Nat.max els 0 -> nth_error (dat m') i = nth_error (dat m) i) /\
  (forall i, fold_left Nat.max els 0 < i -> i < length (dat m) -> nth_error (dat m') i = Some d).
Proof. exact (setDefault_ok els d m). Qed.
Print Assumptions C55_setDefault.
Example C55_witness : md_setDefault [0; 2] 5 {| dflt := 1; dat := [1; 2; 3; 1; 1] |} = {| dflt := 5; dat := [1; 2; 3; 5; 5] |}.
Proof. reflexivity. Qed.

(** Finding: with no live element entry 0 keeps the old default; an element later created at index 0 reads it. *)
Theorem C55_no_element_refuted : exists (m : mdata nat) d,
  dat m = repeat (dflt m) 4 /\ md_get (md_setDefault [] d m) 0 <> Ok d.
Proof. exact setDefault_no_element. Qed.
Print Assumptions C55_no_element_refuted.

(** C58. Arithmetic on containers of the expected size is elementwise and in bounds... *)
Theorem C58_binary A B C (op : A -> B -> C) d cap (l : mdata A) (r : mdata B) :
  length (dat l) = cap -> length (dat r) = cap ->
  exists m, md_binop op d cap l r = Ok m /\ length (dat m) = cap /\
    forall i x y, md_get l i = Ok x -> md_get r i = Ok y -> md_get m i = Ok (op x y).
Proof. exact (binop_ok op d cap l r). Qed.
Print Assumptions C58_binary.
Theorem C58_unary A C (op : A -> C) d cap (l : mdata A) : length (dat l) = cap ->
  exists m, md_unop op d cap l = Ok m /\ length (dat m) = cap /\ forall i x, md_get l i = Ok x -> md_get m i = Ok (op x).
Proof. exact (unop_ok op d cap l). Qed.
Print Assumptions C58_unary.
Theorem C58_assign A B (op : A -> B -> A) (l : mdata A) (r : mdata B) :
  length (dat l) = length (dat r) ->
  exists m, md_assignop op l r = Ok m /\ length (dat m) = length (dat l) /\ dflt m = dflt l /\
    forall i x y, md_get l i = Ok x -> md_get r i = Ok y -> md_get m i = Ok (op x y).
Proof. exact (assignop_ok op l r). Qed.
Print Assumptions C58_assign.
(** ... which holds at any point of any history of a point cloud *)
Theorem C58_point_cloud T (op : T -> T -> T) (d : T) n (ops : list (pc_op T)) :
  t_history_ok {| rows := n; cols := [] |} ops ->
  exists c, pc_run ops (pc_new n) = Ok c /\ forall l r, In l (pdata c) -> In r (pdata c) ->
    exists m, md_binop op d (nPointsCapacityCount c) l r = Ok m /\
      exists els, pc_points c = Ok els /\ forall i, In i els -> exists x y, md_get l i = Ok x /\ md_get r i = Ok y /\ md_get m i = Ok (op x y).
Proof. exact (pointcloud_arith op d n ops). Qed.
Print Assumptions C58_point_cloud.
Example C58_witness : md_binop Nat.add 0 3 {| dflt := 0; dat := [1; 2; 3] |} {| dflt := 0; dat := [4; 5; 6] |} = Ok {| dflt := 0; dat := [5; 7; 9] |}.
Proof. reflexivity. Qed.

(** a left operand longer than the element capacity writes out of bounds; see DESIGN.md for how a FaceData gets there *)
Theorem C58_overflow A B C (op : A -> B -> C) d cap (l : mdata A) (r : mdata B) :
  cap < length (dat l) -> length (dat l) <= length (dat r) -> md_binop op d cap l r = UB.
Proof. exact (binop_overflow op d cap l r). Qed.
Print Assumptions C58_overflow.
Example C58_overflow_witness : md_binop Nat.add 0 1 {| dflt := 0; dat := [1; 2] |} {| dflt := 0; dat := [1; 2] |} = UB.
Proof. reflexivity. Qed.
