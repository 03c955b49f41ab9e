(** Specification vocabulary for face orientation *)
From Verif Require Import Base PolygonModel PolygonSpec OrientModel.

(** reverse the lists at the positions selected by [s], counting positions from [n] *)
Fixpoint flipFrom {A} (n : nat) (s : nat -> bool) (l : list (list A)) : list (list A) :=
  match l with [] => [] | p :: t => (if s n then rev p else p) :: flipFrom (S n) s t end.
Definition flipBy {A} (s : nat -> bool) (l : list (list A)) : list (list A) := flipFrom 0 s l.

(** how often the directed side (a,b) occurs in a list of polygons *)
Definition occAll (a b : nat) (ps : list (list nat)) : Z := occ (a, b) (concat (map sidesOf ps)).
(** wherever exactly two polygon sides join the same two vertices, they run in opposite directions *)
Definition coherent (ps : list (list nat)) : Prop :=
  forall a b, a <> b -> (occAll a b ps + occAll b a ps = 2)%Z -> occAll a b ps = 1%Z.
Definition orientable (ps : list (list nat)) : Prop := exists s, coherent (flipBy s ps).
(** no polygon side joins a vertex to itself *)
Definition properSides (ps : list (list nat)) : Prop := forall p a b, In p ps -> In (a, b) (sidesOf p) -> a <> b.

(** the comparison handed to std::sort, simple_polygon_mesh.cpp:737-742 *)
Definition keyle (a b : entry) : Prop := indA a < indA b \/ (indA a = indA b /\ indB a <= indB b).
