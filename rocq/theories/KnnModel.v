(** Nearest neighbour queries: utilities/knn.cpp. The kd-tree is nanoflann's: a parameter here. *)
From Coq Require Import Reals.
From Verif Require Import Base GeoModel.
Open Scope nat_scope.

(** KNNImpl::kNearest, knn.cpp:44-50. tree q k is what nanoflann's knnSearch writes to outInds for the query q and the number k. outInds[0] of an empty vector (k = 0) is undefined *)
Definition kNearest (tree : V3 -> nat -> list nat) (pts : list V3) (q : V3) (k : nat) : res (list nat) :=
  if length pts <? k then Throw else if k =? 0 then UB else Ok (tree q k).

(** erase of the first entry that is the source, knn.cpp:60-68: None if there is none *)
Fixpoint eraseFirst (s : nat) (l : list nat) : option (list nat) :=
  match l with
  | [] => None
  | i :: t => if i =? s then Some t else match eraseFirst s t with Some t' => Some (i :: t') | None => None end
  end.
(** KNNImpl::kNearestNeighbors, knn.cpp:52-77. Simplified: k + 1 is a natural number and does not wrap at 2^64 *)
Definition kNearestNeighbors (tree : V3 -> nat -> list nat) (pts : list V3) (s k : nat) : res (list nat) :=
  if length pts <? k + 1 then Throw else
  let* p := rd pts s in let l := tree p (k + 1) in
  Ok (match eraseFirst s l with Some l' => l' | None => removelast l end).

(** KNNImpl::radiusSearch, knn.cpp:78-96. ball q r is nanoflann's radiusSearch: pairs of an index and a squared distance, for the squared radius r *)
Definition radiusSearch (ball : V3 -> R -> list (nat * R)) (q : V3) (rad : R) : list nat := map fst (ball q (rad * rad)%R).

(** Neighborhoods::Neighborhoods, pointcloud/neighborhoods.cpp:9-30, for a compressed cloud, where the points are 0, 1, ...: the list of neighbours of each point. Simplified: the points of the
    cloud are given by the list of their positions *)
Fixpoint neighborsFrom (tree : V3 -> nat -> list nat) (pts : list V3) (k : nat) (is : list nat) : res (list (list nat)) :=
  match is with
  | [] => Ok []
  | i :: t => let* l := kNearestNeighbors tree pts i k in let* r := neighborsFrom tree pts k t in Ok (l :: r)
  end.
Definition neighborhoods (tree : V3 -> nat -> list nat) (pts : list V3) (k : nat) : res (list (list nat)) := neighborsFrom tree pts k (seq 0 (length pts)).
