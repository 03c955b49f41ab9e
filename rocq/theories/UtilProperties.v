(** C01-C04: union-find and managed quantities. *)
From Verif Require Import Base DisjointSetsModel DisjointSetsSpec DisjointSetsProofs.
From Verif Require Import QuantityModel QuantitySpec QuantityProofs.

(** C01. Any history of merge/find calls on DisjointSets(n) succeeds, and afterwards find(x)==find(y) exactly when
    x and y are linked by the merges performed; find returns an element of x's own class. *)
Theorem C01_union_find n ops : Forall (ds_args_ok n) ops ->
  exists s outs, ds_run ops (ds_init n) = Ok (s, outs) /\
    forall x y, x <= n -> y <= n ->
      exists s1 r1 s2 r2, ds_find s x = Ok (s1, r1) /\ ds_find s1 y = Ok (s2, r2) /\
        (r1 = r2 <-> connected (merges ops) x y) /\ connected (merges ops) x r1 /\ r1 <= n.
Proof. exact (union_find_correct n ops). Qed.
Print Assumptions C01_union_find.

Example C01_witness :
  Forall (ds_args_ok 5) [DMerge 0 1; DFind 1; DMerge 2 3; DMerge 1 3; DMerge 0 3] /\
  (let* (s, _) := ds_run [DMerge 0 1; DFind 1; DMerge 2 3; DMerge 1 3; DMerge 0 3] (ds_init 5) in
   let* (_, a) := ds_find s 0 in let* (_, b) := ds_find s 2 in let* (_, c) := ds_find s 4 in Ok (a, b, c)) = Ok (3, 3, 4).
Proof. split; [repeat constructor | vm_compute; reflexivity]. Qed.

(** C02. isMarked(x) after any history of mark/unmark/merge/find/isMarked is what the history says about x's class. *)
Theorem C02_marked_sets n ops : Forall (md_args_ok n) ops ->
  exists s, md_run ops (md_init n) = Ok s /\
    forall x, x <= n -> exists s' b, md_isMarked s x = Ok (s', b) /\ (b = true <-> is_marked_after (rev ops) x).
Proof. exact (marked_sets_correct n ops). Qed.
Print Assumptions C02_marked_sets.

(** and its partition is the one generated by the merges *)
Theorem C02_marked_sets_partition n ops : Forall (md_args_ok n) ops ->
  exists s, md_run ops (md_init n) = Ok s /\
    forall x y, x <= n -> y <= n -> exists s1 r1 s2 r2, md_find s x = Ok (s1, r1) /\ md_find s1 y = Ok (s2, r2) /\
       (r1 = r2 <-> connected (md_merges (rev ops)) x y).
Proof. exact (marked_sets_partition n ops). Qed.
Print Assumptions C02_marked_sets_partition.

Example C02_witness :
  Forall (md_args_ok 4) [MMark 0; MMerge 0 1; MMerge 2 3; MUnmark 3; MMerge 1 2] /\
  (let* s := md_run [MMark 0; MMerge 0 1; MMerge 2 3; MUnmark 3; MMerge 1 2] (md_init 4) in
   let* (_, a) := md_isMarked s 3 in let* (_, b) := md_isMarked s 4 in Ok (a, b)) = Ok (true, false).
Proof. split; [repeat constructor | vm_compute; reflexivity]. Qed.

(** C03. After any history in which quantity i has more requires than unrequires its buffer is filled; and if the
    quantities were refreshed since the input was last replaced, it holds the value of quantity i for that input. *)
Theorem C03_required_available X V deps (F : nat -> X -> list V -> V) n x flags ops :
  acyclic deps n -> length flags = n -> Forall (q_args_ok X n) ops ->
  exists g, q_run X V deps F ops (q_init X V x flags) = Ok g /\ length (cells g) = n /\
    forall i, i < n -> (0 < outstanding X i ops)%Z ->
      exists v, (let* c := rd (cells g) i in Ok (buf c)) = Ok (Some v) /\
        (up_to_date X ops -> IsValue X V deps F (input_after X x ops) i v).
Proof. exact (required_available X V deps F n x flags ops). Qed.
Print Assumptions C03_required_available.

(** purgeQuantities leaves required quantities alone and clears the others (if clearable) *)
Theorem C03_purge X V deps (F : nat -> X -> list V -> V) n x flags ops :
  acyclic deps n -> length flags = n -> Forall (q_args_ok X n) ops ->
  exists g, q_run X V deps F ops (q_init X V x flags) = Ok g /\
    forall i c, nth_error (cells g) i = Some c ->
      exists c', nth_error (cells (purge X V g)) i = Some c' /\
       ((0 < outstanding X i ops)%Z -> c' = c) /\
       ((outstanding X i ops <= 0)%Z -> clearable c = true -> hasBuffer c = true -> computed c' = false).
Proof. exact (purge_frees X V deps F n x flags ops). Qed.
Print Assumptions C03_purge.

(** unrequire throws exactly when there is no outstanding require *)
Theorem C03_unrequire_throws X V deps (F : nat -> X -> list V -> V) n x flags ops i :
  acyclic deps n -> length flags = n -> Forall (q_args_ok X n) ops -> i < n ->
  exists g g' b, q_run X V deps F ops (q_init X V x flags) = Ok g /\ unrequire X V g i = Ok (g', b) /\
    (b = true <-> (outstanding X i ops <= 0)%Z).
Proof. exact (unrequire_throws X V deps F n x flags ops i). Qed.
Print Assumptions C03_unrequire_throws.

(** a diamond 3 -> {1,2} -> 0 with F summing the input and the dependencies *)
Definition ex_deps (i : nat) : list nat := match i with 1 => [0] | 2 => [0] | 3 => [1; 2] | _ => [] end.
Definition ex_F (i x : nat) (vs : list nat) : nat := x + fold_left plus vs 0.
Example C03_witness :
  acyclic ex_deps 4 /\
  Forall (q_args_ok nat 4) [Require_ 3; SetInput 7; Purge_; Refresh_; Purge_] /\
  outstanding nat 3 [Require_ 3; SetInput 7; Purge_; Refresh_; Purge_] = 1%Z /\
  up_to_date nat [Require_ 3; SetInput 7; Purge_; Refresh_; Purge_] /\
  (let* g := q_run nat nat ex_deps ex_F [Require_ 3; SetInput 7; Purge_; Refresh_; Purge_]
               (q_init nat nat 1 (repeat (true, true) 4)) in Ok (map buf (cells g))) = Ok [None; None; None; Some 35].
Proof.
  split; [|split; [repeat constructor|split; [reflexivity|split; [exact I|vm_compute; reflexivity]]]].
  exists (fun i => i). intros i Hi. split; [lia|].
  destruct i as [|[|[|[|i]]]]; simpl; intros d H; intuition lia.
Qed.

(** Finding: if an excess unrequire() throws and the caller goes on, the count stays at -1, so a later require() is
    not recognised: the quantity of a client that holds a requirement is cleared by purgeQuantities(). *)
Fixpoint honest_requires (i : nat) (ops : list (q_op nat)) (acc : Z) : Z :=
  match ops with
  | [] => acc
  | Require_ j :: t => honest_requires i t (if Nat.eqb i j then acc + 1 else acc)%Z
  | Unrequire_ j :: t => honest_requires i t (if Nat.eqb i j then Z.max 0 (acc - 1) else acc)%Z (* a throwing call takes nothing *)
  | _ :: t => honest_requires i t acc
  end.
Theorem C03_excess_unrequire_refuted :
  exists ops, Forall (q_args_ok nat 1) ops /\ (0 < honest_requires 0 ops 0)%Z /\
    (let* g := q_run nat nat (fun _ => []) ex_F ops (q_init nat nat 1 [(true, true)]) in
     let* c := rd (cells g) 0 in Ok (buf c)) = Ok None.
Proof.
  exists [Unrequire_ 0; Require_ 0; Purge_]. split; [repeat constructor|]. split; [reflexivity|]. vm_compute. reflexivity.
Qed.
Print Assumptions C03_excess_unrequire_refuted.

(** C04. Demanding a quantity runs exactly the needed compute callbacks, each once, dependencies first, and touches
    nothing else. *)
Theorem C04_evaluation_order X V deps (F : nat -> X -> list V -> V) n g i :
  acyclic deps n -> length (cells g) = n -> i < n ->
  (forall j c, nth_error (cells g) j = Some c -> computed c = true -> buf c <> None) ->
  exists g' log, ensureHave X V deps F (depth X V g) g i = Ok (g', log) /\
    NoDup log /\
    (forall j, In j log <-> Needed deps (have_of X V g) i j) /\
    (forall l1 j l2 d, log = l1 ++ j :: l2 -> In d (deps j) -> have_of X V g d = true \/ In d l1) /\
    have_of X V g' i = true /\
    (forall j, j < n -> (have_of X V g' j = true <-> have_of X V g j = true \/ In j log)) /\
    (forall j, ~ In j log -> nth_error (cells g') j = nth_error (cells g) j).
Proof. exact (evaluation_order X V deps F n g i). Qed.
Print Assumptions C04_evaluation_order.

Example C04_witness :
  acyclic ex_deps 4 /\
  (let* (_, log) := ensureHave nat nat ex_deps ex_F 5 (q_init nat nat 1 (repeat (true, true) 4)) 3 in Ok log) = Ok [0; 1; 2; 3].
Proof. split; [exact (proj1 C03_witness)|vm_compute; reflexivity]. Qed.
