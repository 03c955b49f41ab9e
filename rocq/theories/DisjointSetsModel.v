(** Model of src/utilities/disjoint_sets.cpp *)
From Verif Require Import Base.

(** class DisjointSets: disjoint_sets.h / disjoint_sets.cpp:8. [parent] and [rank] have n+1 entries.
    The counter [n] itself is not read after construction and is not modelled. *)
Record dsets := mkDS { parent : list nat; rank : list nat }.

(** DisjointSets::DisjointSets, disjoint_sets.cpp:8-14 *)
Definition ds_init (n : nat) : dsets :=
  {| parent := seq 0 (S n); rank := repeat 0 (S n) |}.

(** DisjointSets::find, disjoint_sets.cpp:17-20 (and MarkedDisjointSets::find, 61-64, the same text).
    The C++ recursion is unbounded; the model recurses on fuel and out-of-fuel is [UB]. *)
Fixpoint find_fuel (fuel : nat) (p : list nat) (x : nat) : res (list nat * nat) :=
  match fuel with
  | O => UB
  | S fuel' =>
      let* px := rd p x in
      if Nat.eqb x px then Ok (p, px)                    (* return parent[x] *)
      else
        let* (p1, r) := find_fuel fuel' p px in          (* parent[x] = find(parent[x]) *)
        let* p2 := wr p1 x r in
        let* r' := rd p2 x in                            (* return parent[x] *)
        Ok (p2, r')
  end.

(** fuel: one more than the number of elements *)
Definition ds_find (s : dsets) (x : nat) : res (dsets * nat) :=
  let* (p, r) := find_fuel (S (length (parent s))) (parent s) x in
  Ok ({| parent := p; rank := rank s |}, r).

(** DisjointSets::merge, disjoint_sets.cpp:23-34 *)
Definition ds_merge (s : dsets) (x0 y0 : nat) : res dsets :=
  let* (s1, x) := ds_find s x0 in
  let* (s2, y) := ds_find s1 y0 in
  let* rx := rd (rank s2) x in
  let* ry := rd (rank s2) y in
  let* p := (if Nat.ltb ry rx then wr (parent s2) y x else wr (parent s2) x y) in
  let* rk := (if Nat.eqb rx ry then wr (rank s2) y (S ry) else Ok (rank s2)) in
  Ok {| parent := p; rank := rk |}.

(** Calls a client can make *)
Inductive ds_op := DFind (x : nat) | DMerge (x y : nat).

(** A history of calls, collecting what the [find] calls returned *)
Fixpoint ds_run (ops : list ds_op) (s : dsets) : res (dsets * list nat) :=
  match ops with
  | [] => Ok (s, [])
  | DFind x :: t =>
      let* (s1, r) := ds_find s x in
      let* (s2, out) := ds_run t s1 in Ok (s2, r :: out)
  | DMerge x y :: t =>
      let* s1 := ds_merge s x y in ds_run t s1
  end.

(** class MarkedDisjointSets, disjoint_sets.cpp:37-88 *)
Record mdsets := mkMDS { ds : dsets; marked : list bool }.

(** constructor, disjoint_sets.cpp:37-44 *)
Definition md_init (n : nat) : mdsets := {| ds := ds_init n; marked := repeat false (S n) |}.

(** find, disjoint_sets.cpp:61-64 *)
Definition md_find (s : mdsets) (x : nat) : res (mdsets * nat) :=
  let* (d, r) := ds_find (ds s) x in Ok ({| ds := d; marked := marked s |}, r).

(** mark, disjoint_sets.cpp:46-49; unmark, 51-54 *)
Definition md_set (v : bool) (s : mdsets) (x : nat) : res mdsets :=
  let* (d, r) := ds_find (ds s) x in
  let* m := wr (marked s) r v in Ok {| ds := d; marked := m |}.
Definition md_mark := md_set true.
Definition md_unmark := md_set false.

(** isMarked, disjoint_sets.cpp:56-59 *)
Definition md_isMarked (s : mdsets) (x : nat) : res (mdsets * bool) :=
  let* (d, r) := ds_find (ds s) x in
  let* b := rd (marked s) r in Ok ({| ds := d; marked := marked s |}, b).

(** merge, disjoint_sets.cpp:67-85. The roots x,y computed at its start are used again for the marks. *)
Definition md_merge (s : mdsets) (x0 y0 : nat) : res mdsets :=
  let* (s1, x) := ds_find (ds s) x0 in
  let* (s2, y) := ds_find s1 y0 in
  let* rx := rd (rank s2) x in
  let* ry := rd (rank s2) y in
  let* p := (if Nat.ltb ry rx then wr (parent s2) y x else wr (parent s2) x y) in
  let* rk := (if Nat.eqb rx ry then wr (rank s2) y (S ry) else Ok (rank s2)) in
  let* mx := rd (marked s) x in
  let* my := rd (marked s) y in
  let* m := (if mx || my
             then let* m1 := wr (marked s) x true in wr m1 y true
             else Ok (marked s)) in
  Ok {| ds := {| parent := p; rank := rk |}; marked := m |}.

Inductive md_op := MFind (x : nat) | MMerge (x y : nat) | MMark (x : nat) | MUnmark (x : nat) | MIsMarked (x : nat).

Definition md_step (s : mdsets) (o : md_op) : res mdsets :=
  match o with
  | MFind x => let* (s', _) := md_find s x in Ok s'
  | MMerge x y => md_merge s x y
  | MMark x => md_mark s x
  | MUnmark x => md_unmark s x
  | MIsMarked x => let* (s', _) := md_isMarked s x in Ok s'
  end.

Definition md_run (ops : list md_op) (s : mdsets) : res mdsets := foldM md_step ops s.
