(** Specification for containers: a table with one column per container and one row per live element. *)
From Verif Require Import Base DataModel.

(** live elements in index order *)
Definition live_list (okay : nat -> bool) (fill : nat) : list nat := filter okay (seq 0 fill).

(** column: default for future elements, values of the current elements *)
Record column (T : Type) := mkCol { cdef : T; cvals : list T }.
Arguments mkCol {T}. Arguments cdef {T}. Arguments cvals {T}.
Record table (T : Type) := mkTab { rows : nat; cols : list (column T) }.
Arguments mkTab {T}. Arguments rows {T}. Arguments cols {T}.

Fixpoint remove_nth {A} (r : nat) (l : list A) : list A :=
  match l, r with
  | [], _ => []
  | _ :: t, O => t
  | x :: t, S r' => x :: remove_nth r' t
  end.

Definition upd_col {T} (f : column T -> column T) (k : nat) (cs : list (column T)) : list (column T) :=
  match nth_error cs k with Some c => upd cs k (f c) | None => cs end.

Definition t_step {T} (t : table T) (o : pc_op T) : table T :=
  match o with
  | PNew => {| rows := S (rows t); cols := map (fun c => {| cdef := cdef c; cvals := cvals c ++ [cdef c] |}) (cols t) |}
  | PDelete r => {| rows := rows t - 1; cols := map (fun c => {| cdef := cdef c; cvals := remove_nth r (cvals c) |}) (cols t) |}
  | PCompress => t
  | PAddData d => {| rows := rows t; cols := cols t ++ [{| cdef := d; cvals := repeat d (rows t) |}] |}
  | PSetData k r v => {| rows := rows t; cols := upd_col (fun c => {| cdef := cdef c; cvals := upd (cvals c) r v |}) k (cols t) |}
  | PSetDefault k d => {| rows := rows t; cols := upd_col (fun c => {| cdef := d; cvals := cvals c |}) k (cols t) |}
  end.

(** arguments are in range; a point is only created while another one exists (see the refuted theorem for why) *)
Definition t_args_ok {T} (t : table T) (o : pc_op T) : Prop :=
  match o with
  | PNew => 0 < rows t
  | PDelete r => r < rows t
  | PSetData k r _ => k < length (cols t) /\ r < rows t
  | PSetDefault k _ => k < length (cols t)
  | _ => True
  end.

Fixpoint t_history_ok {T} (t : table T) (ops : list (pc_op T)) : Prop :=
  match ops with [] => True | o :: rest => t_args_ok t o /\ t_history_ok (t_step t o) rest end.

Definition t_run {T} (ops : list (pc_op T)) (t : table T) : table T := fold_left t_step ops t.
