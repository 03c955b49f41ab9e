(** Base: the result type of modelled C++ code and bounds-checked arrays.
    Nothing here models a particular function of the repository. *)
From Coq Require Export List Arith ZArith Lia Bool.
From Coq Require Export ZifyBool ZifyNat ZifyN.
Export ListNotations.
Ltac Zify.zify_post_hook ::= Z.div_mod_to_equations.

(** Outcome of a piece of C++ code: a normal result, a thrown C++ exception, or undefined behaviour
    (out-of-range access, use of an invalid handle, a loop that does not end within its fuel). *)
Inductive res (A : Type) : Type :=
| Ok (a : A)
| Throw
| UB.
Arguments Ok {A} a.
Arguments Throw {A}.
Arguments UB {A}.

Definition bind {A B : Type} (x : res A) (f : A -> res B) : res B :=
  match x with
  | Ok a => f a
  | Throw => Throw
  | UB => UB
  end.

Notation "'let*' x ':=' e 'in' f" := (bind e (fun x => f))
  (at level 200, x pattern, e at level 100, f at level 200, right associativity).

Definition guard (b : bool) : res unit := if b then Ok tt else Throw.

(** Arrays indexed by [nat] *)
Definition rd {A} (l : list A) (i : nat) : res A :=
  match nth_error l i with Some a => Ok a | None => UB end.

Fixpoint upd {A} (l : list A) (i : nat) (v : A) : list A :=
  match l, i with
  | [], _ => []
  | _ :: t, O => v :: t
  | x :: t, S i' => x :: upd t i' v
  end.

Definition wr {A} (l : list A) (i : nat) (v : A) : res (list A) :=
  if Nat.ltb i (length l) then Ok (upd l i v) else UB.

Fixpoint mapM {A B} (f : A -> res B) (l : list A) : res (list B) :=
  match l with
  | [] => Ok []
  | a :: t => let* b := f a in let* t' := mapM f t in Ok (b :: t')
  end.

Fixpoint foldM {A S} (f : S -> A -> res S) (l : list A) (s : S) : res S :=
  match l with
  | [] => Ok s
  | a :: t => let* s' := f s a in foldM f t s'
  end.

(** Lemmas *)
Lemma bind_Ok_inv {A B} (x : res A) (f : A -> res B) b :
  bind x f = Ok b -> exists a, x = Ok a /\ f a = Ok b.
Proof. destruct x; simpl; intros H; try discriminate; eauto. Qed.

Lemma rd_Ok {A} (l : list A) i : i < length l -> exists a, rd l i = Ok a /\ nth_error l i = Some a.
Proof.
  intros H. unfold rd. destruct (nth_error l i) eqn:E; eauto.
  apply nth_error_None in E. lia.
Qed.

Lemma rd_nth {A} (l : list A) i d : i < length l -> rd l i = Ok (nth i l d).
Proof. intros H. unfold rd. rewrite (nth_error_nth' l d H). reflexivity. Qed.

Lemma rd_Ok_inv {A} (l : list A) i a : rd l i = Ok a -> nth_error l i = Some a /\ i < length l.
Proof.
  unfold rd. destruct (nth_error l i) eqn:E; intros H; inversion H; subst. split; auto.
  apply nth_error_Some. congruence.
Qed.

Lemma wr_Ok {A} (l : list A) i v : i < length l -> wr l i v = Ok (upd l i v).
Proof. intros H. unfold wr. destruct (Nat.ltb_spec i (length l)); auto; lia. Qed.

Lemma wr_Ok_inv {A} (l : list A) i v l' : wr l i v = Ok l' -> i < length l /\ l' = upd l i v.
Proof.
  unfold wr. destruct (Nat.ltb_spec i (length l)); intros H'; inversion H'; auto.
Qed.

Lemma length_upd {A} (l : list A) i v : length (upd l i v) = length l.
Proof. revert i; induction l as [|x l IH]; intros [|i]; simpl; auto. Qed.

Lemma nth_error_upd_eq {A} (l : list A) i v : i < length l -> nth_error (upd l i v) i = Some v.
Proof. revert i; induction l as [|x l IH]; intros [|i]; simpl; intros; try lia; auto. apply IH; lia. Qed.

Lemma nth_error_upd_neq {A} (l : list A) i j v : i <> j -> nth_error (upd l i v) j = nth_error l j.
Proof.
  revert i j; induction l as [|x l IH]; intros [|i] [|j]; simpl; intros; try lia; auto.
Qed.

Lemma nth_upd {A} (l : list A) i j v d :
  nth j (upd l i v) d = if Nat.eqb i j && Nat.ltb j (length l) then v else nth j l d.
Proof.
  destruct (Nat.eqb_spec i j) as [->|Hn]; simpl.
  - destruct (Nat.ltb_spec j (length l)).
    + apply nth_error_nth. apply nth_error_upd_eq; auto.
    + rewrite !nth_overflow; auto. rewrite length_upd; auto.
  - destruct (Nat.lt_ge_cases j (length l)) as [Hl|Hl].
    + assert (E := nth_error_upd_neq l i j v Hn).
      rewrite (nth_error_nth' l d Hl) in E. apply nth_error_nth; auto.
    + rewrite !nth_overflow; auto. rewrite length_upd; auto.
Qed.

Lemma nth_upd_eq {A} (l : list A) i v d : i < length l -> nth i (upd l i v) d = v.
Proof. intros. rewrite nth_upd, Nat.eqb_refl. destruct (Nat.ltb_spec i (length l)); auto; lia. Qed.

Lemma nth_upd_neq {A} (l : list A) i j v d : i <> j -> nth j (upd l i v) d = nth j l d.
Proof. intros H. rewrite nth_upd. destruct (Nat.eqb_spec i j); auto; contradiction. Qed.

Lemma list_eq_nth {A} (d : A) (l1 l2 : list A) :
  length l1 = length l2 -> (forall i, i < length l1 -> nth i l1 d = nth i l2 d) -> l1 = l2.
Proof. intros H1 H2. apply (nth_ext l1 l2 d d); auto. Qed.

Lemma mapM_length {A B} (f : A -> res B) l l' : mapM f l = Ok l' -> length l' = length l.
Proof.
  revert l'; induction l as [|a l IH]; simpl; intros l' H.
  - inversion H; auto.
  - apply bind_Ok_inv in H as (b & Hb & H). apply bind_Ok_inv in H as (t & Ht & H).
    inversion H; subst. simpl. f_equal. apply IH; auto.
Qed.

Lemma mapM_Forall2 {A B} (f : A -> res B) l l' :
  mapM f l = Ok l' <-> Forall2 (fun a b => f a = Ok b) l l'.
Proof.
  revert l'; induction l as [|a l IH]; simpl; intros l'; split; intros H.
  - inversion H; constructor.
  - inversion H; auto.
  - apply bind_Ok_inv in H as (b & Hb & H). apply bind_Ok_inv in H as (t & Ht & H).
    inversion H; subst. constructor; auto. apply IH; auto.
  - inversion H; subst. rewrite H2. simpl. apply IH in H4. rewrite H4. reflexivity.
Qed.
