(** Specification vocabulary for polygon meshes; depends only on the data type. *)
From Verif Require Import Base PolygonModel.
From Coq Require Import Permutation Sorted.

(** every polygon index names a vertex *)
Definition inRange {P U} (m : pmesh P U) : Prop := forall f i, In f (polys m) -> In i f -> i < length (verts m).

(** the position of every corner of every polygon *)
Definition geom {P U} (m : pmesh P U) : list (list (option P)) := map (map (nth_error (verts m))) (polys m).

(** [l'] consists of the entries of [l] at the positions [ks], in that order *)
Definition picks {A} (ks : list nat) (l l' : list A) : Prop := Forall2 (fun k x => nth_error l k = Some x) ks l'.
Definition increasing (ks : list nat) : Prop := StronglySorted lt ks.

(** [i] occurs in some polygon *)
Definition usedIn {P U} (m : pmesh P U) (i : nat) : Prop := exists f, In f (polys m) /\ In i f.

(** what stripInvalidFaces is documented to keep (simple_polygon_mesh.h:52-55) *)
Definition goodFace (nV : nat) (f : list nat) : Prop := 3 <= length f /\ (forall i, In i f -> i < nV) /\ NoDup f.

(** UV lists are absent or in correspondence with the polygon list *)
Definition uvsAligned {P U} (m : pmesh P U) : Prop := uvs m = [] \/ length (uvs m) = length (polys m).
Definition uvsMatch {P U} (m : pmesh P U) : Prop := uvs m = [] \/ map (@length U) (uvs m) = map (@length nat) (polys m).

(** ** signed boundary of faces: how often the directed side (a,b) occurs minus how often (b,a) does *)
Definition rot1 {A} (p : list A) : list A := match p with [] => [] | x :: t => t ++ [x] end.
Definition sidesOf (p : list nat) : list (nat * nat) := combine p (rot1 p).
Definition side_eqb (s t : nat * nat) : bool := (fst s =? fst t) && (snd s =? snd t).
Definition occ (s : nat * nat) (l : list (nat * nat)) : Z := Z.of_nat (length (filter (side_eqb s) l)).
Definition net (a b : nat) (p : list nat) : Z := (occ (a, b) (sidesOf p) - occ (b, a) (sidesOf p))%Z.
Definition netAll (a b : nat) (ps : list (list nat)) : Z := fold_right (fun p z => net a b p + z)%Z 0%Z ps.

Definition sumLen {A B} (f : A -> list B) (l : list A) : nat := fold_right (fun a n => length (f a) + n) 0 l.

(** ** what std::sort guarantees: a permutation of its input, in order; the order of equivalent entries is unspecified *)
Definition sorts {A} (le : A -> A -> Prop) (f : list A -> list A) : Prop := forall l, Permutation l (f l) /\ StronglySorted le (f l).
(** the lexicographic order of std::vector<size_t> *)
Inductive lexle : list nat -> list nat -> Prop :=
| lex_nil b : lexle [] b
| lex_lt x y a b : x < y -> lexle (x :: a) (y :: b)
| lex_eq x a b : lexle a b -> lexle (x :: a) (x :: b).

