(** Specification of managed quantities, independent of flags and counters. *)
From Verif Require Import Base QuantityModel.

Section Spec.
Variables (X V : Type) (deps : nat -> list nat) (F : nat -> X -> list V -> V).

(** the dependency graph on n quantities is acyclic: some numbering decreases along dependencies *)
Definition acyclic (n : nat) : Prop :=
  exists rk : nat -> nat, forall i, i < n -> rk i <= n /\ forall d, In d (deps i) -> d < n /\ rk d < rk i.

(** [IsValue x i v]: v is the value of quantity i for input x, dependencies being recursively the right values *)
Inductive IsValue (x : X) : nat -> V -> Prop :=
| IsValue_intro i vs : Forall2 (IsValue x) (deps i) vs -> IsValue x i (F i x vs).

(** number of require calls on i minus number of unrequire calls on i *)
Fixpoint outstanding (i : nat) (ops : list (q_op X)) : Z :=
  match ops with
  | [] => 0
  | Require_ j :: t => (if Nat.eqb i j then 1 else 0) + outstanding i t
  | Unrequire_ j :: t => (if Nat.eqb i j then -1 else 0) + outstanding i t
  | _ :: t => outstanding i t
  end.

(** no unrequire exceeds the requires made before it *)
Definition never_exceeds (ops : list (q_op X)) : Prop :=
  forall pre suf i, ops = pre ++ suf -> (0 <= outstanding i pre)%Z.

(** the input current after a history, and whether quantities were refreshed since it was last replaced *)
Definition input_after (x : X) (ops : list (q_op X)) : X :=
  fold_left (fun x o => match o with SetInput y => y | _ => x end) ops x.
Definition up_to_date (ops : list (q_op X)) : Prop :=
  fold_left (fun b o => match o with SetInput _ => False | Refresh_ => True | _ => b end) ops True.

Definition q_args_ok (n : nat) (o : q_op X) : Prop :=
  match o with Require_ i | Unrequire_ i => i < n | _ => True end.

(** quantities that must be evaluated to obtain i: those not yet computed, reachable from i through dependencies
    of quantities that are themselves not yet computed *)
Inductive Needed (have : nat -> bool) : nat -> nat -> Prop :=
| Needed_self i : have i = false -> Needed have i i
| Needed_dep i d j : have i = false -> In d (deps i) -> Needed have d j -> Needed have i j.

Definition have_of (g : iface X V) (i : nat) : bool :=
  match nth_error (cells g) i with Some c => computed c | None => false end.
End Spec.
