(** What the matrix functions are expected to do. Matrices are read through [entry] only. *)
From Verif Require Import Base MatrixModel.
Open Scope nat_scope.
Section Scalar.
Context {T : Type}.
(** the stored entry at row i, column j *)
Definition entry (m : smat T) (i j : nat) : option T := option_map snd (find (fun p => fst p =? i) (nth j (columns m) [])).
(** its value, zero if none is stored *)
Definition coeff (zero : T) (m : smat T) (i j : nat) : T := match entry m i j with Some v => v | None => zero end.
(** a matrix Eigen can hold: entries in range, one per position, indices fit int *)
Record Wf (m : smat T) : Prop := {
  wf_cols : length (columns m) = cols m;
  wf_rows : forall j c, nth_error (columns m) j = Some c -> forall p, In p c -> fst p < rows m;
  wf_nodup : forall j c, nth_error (columns m) j = Some c -> NoDup (map fst c) }.
Definition fits (n : nat) : Prop := (Z.of_nat n <= 2147483647)%Z.
Definition sum (l : list nat) : nat := fold_right Nat.add 0 l.
(** [l] lists, in increasing order, exactly the indices below n satisfying p *)
Definition indices (p : nat -> Prop) (n : nat) (l : list nat) : Prop :=
  (forall i, In i l <-> i < n /\ p i) /\ forall x y, x < y < length l -> nth x l 0 < nth y l 0.
(** the block with row indices I and column indices J of m *)
Definition isBlock (m b : smat T) (I J : list nat) : Prop :=
  Wf b /\ rows b = length I /\ cols b = length J /\ forall x y, x < length I -> y < length J -> entry b x y = entry m (nth x I 0) (nth y J 0).
(** sum over y < n and matrix-vector product *)
Fixpoint sumTo (zero : T) (add : T -> T -> T) (n : nat) (f : nat -> T) : T := match n with O => zero | S k => add (sumTo zero add k f) (f k) end.
Definition product (zero : T) (add mul : T -> T -> T) (m : smat T) (x : list T) (i : nat) : T :=
  sumTo zero add (cols m) (fun j => mul (coeff zero m i j) (nth j x zero)).
End Scalar.
