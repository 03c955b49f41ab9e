(** Paths in the edge graph of a mesh and their lengths; what is assumed of weights. Independent of the searches. *)
From Coq Require Import QArith.
From Verif Require Import Base MeshModel MeshSpec GraphModel.
Open Scope Z_scope.

(** the comparison is a total preorder; adding the same weight keeps order; adding a weight that is not less than zero does
    not make a length smaller. Neither commutativity nor associativity is asked for, so correctly rounded floating point
    addition qualifies. *)
Record WLaws (W : weights) : Prop := {
  wl_total : forall a b, wle W a b = true \/ wle W b a = true;
  wl_trans : forall a b c, wle W a b = true -> wle W b c = true -> wle W a c = true;
  wl_mono : forall a b c, wle W a b = true -> wle W (wadd W a c) (wadd W b c) = true;
  wl_infl : forall a c, wle W (w0 W) c = true -> wle W a (wadd W a c) = true }.

(** a chain of consecutive live halfedges leading from a to b *)
Fixpoint isPath (m : mesh) (a : Z) (p : list Z) (b : Z) : Prop :=
  match p with [] => a = b | h :: r => liveH m h /\ ve m h = a /\ isPath m (ve m (tw h)) r b end.
(** its length, summed from the start *)
Definition pathLen (W : weights) (len : Z -> wt W) (p : list Z) : wt W := fold_left (fun d h => wadd W d (len (edge h))) p (w0 W).
(** p is a shortest path from a to b *)
Definition shortest m W len a p b := isPath m a p b /\ forall q, isPath m a q b -> wle W (pathLen W len p) (pathLen W len q) = true.

(** exact integer and rational weights *)
Definition wZ : weights := mkWeights Z 0 Z.leb Z.add.
Definition wQ : weights := mkWeights Q 0%Q Qle_bool Qplus.
(** the rationals in a format F (the finite doubles, say), added with rounding *)
Definition wF (F : Q -> Prop) (zero : F 0%Q) (rnd : Q -> Q) (into : forall x, F (rnd x)) : weights :=
  mkWeights {x | F x} (exist _ 0%Q zero) (fun a b => Qle_bool (proj1_sig a) (proj1_sig b))
    (fun a b => exist _ (rnd (proj1_sig a + proj1_sig b)%Q) (into _)).
