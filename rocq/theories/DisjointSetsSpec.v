(** Specification of union-find, independent of the data structure: equivalence closure of the merged pairs. *)
From Coq Require Export Relations.
From Verif Require Import Base DisjointSetsModel.

(** [connected ms x y]: x and y are linked by a chain of merged pairs *)
Definition connected (ms : list (nat * nat)) : nat -> nat -> Prop :=
  clos_refl_sym_trans nat (fun a b => In (a, b) ms).

(** the pairs merged in a history *)
Fixpoint merges (ops : list ds_op) : list (nat * nat) :=
  match ops with
  | [] => []
  | DMerge x y :: t => (x, y) :: merges t
  | DFind _ :: t => merges t
  end.

(** every argument is a valid element: the constructor DisjointSets(n) makes elements 0..n *)
Definition ds_args_ok (n : nat) (o : ds_op) : Prop :=
  match o with DFind x => x <= n | DMerge x y => x <= n /\ y <= n end.

(** marks: what a history of mark/unmark/merge calls means for each element.
    The history is given in reverse (latest call first). *)
Fixpoint md_merges (ops : list md_op) : list (nat * nat) :=
  match ops with
  | [] => []
  | MMerge x y :: t => (x, y) :: md_merges t
  | _ :: t => md_merges t
  end.

Fixpoint is_marked_after (rev_ops : list md_op) (z : nat) : Prop :=
  match rev_ops with
  | [] => False
  | MMark x :: t => is_marked_after t z \/ connected (md_merges t) z x
  | MUnmark x :: t => is_marked_after t z /\ ~ connected (md_merges t) z x
  | MMerge x y :: t =>
      is_marked_after t z \/
      (connected (md_merges t) z x /\ is_marked_after t y) \/
      (connected (md_merges t) z y /\ is_marked_after t x)
  | _ :: t => is_marked_after t z
  end.

Definition md_args_ok (n : nat) (o : md_op) : Prop :=
  match o with
  | MFind x | MMark x | MUnmark x | MIsMarked x => x <= n
  | MMerge x y => x <= n /\ y <= n
  end.
