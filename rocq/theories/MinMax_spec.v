(* Bottleneck costs of walks in a complete digraph given by its cost matrix *)
From Verif Require Import Base.
From Coq Require Import Permutation Sorted.
Definition cell (m : list (list Z)) (i j x : Z) : Prop := exists row, vget m i = Ok row /\ vget row j = Ok x.
Definition square (m : list (list Z)) : Prop := forall row, In row m -> zlen row = zlen m.
(* walk m u v x: some walk with at least one edge leads from u to v, and x is the greatest cost on it *)
Inductive walk (m : list (list Z)) : Z -> Z -> Z -> Prop :=
  | walk_edge u v c : cell m u v c -> walk m u v c
  | walk_step u w v c x : cell m u w c -> walk m w v x -> walk m u v (Z.max c x).
Definition bottleneck (m : list (list Z)) (u v x : Z) : Prop := walk m u v x /\ forall y, walk m u v y -> x <= y.
(* what is used of std::sort with the comparison of the first components *)
Definition sorts_by_cost (sort : list (Z * Z * Z) -> list (Z * Z * Z)) : Prop :=
  forall l, Permutation (sort l) l /\ StronglySorted (fun a b => fst (fst a) <= fst (fst b)) (sort l).
