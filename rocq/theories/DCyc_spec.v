(* Directed cycles in graphs given by adjacency lists *)
From Verif Require Import Base.
Definition edge (g : list (list Z)) (u v : Z) : Prop := exists row, vget g u = Ok row /\ In v row.
Definition in_range (g : list (list Z)) : Prop := forall u v, edge g u v -> 0 <= v < zlen g.
(* every element has an edge to the next one *)
Fixpoint chain (g : list (list Z)) (l : list Z) : Prop :=
  match l with x :: (y :: _) as t => edge g x y /\ chain g t | _ => True end.
(* the vertices of a cycle without repetition: from each an edge to the next one, from the last one to the first *)
Definition cycle (g : list (list Z)) (l : list Z) : Prop := l <> [] /\ NoDup l /\ chain g (last l 0 :: l).
Inductive reach (g : list (list Z)) : Z -> Z -> Prop :=
  | reach_edge u v : edge g u v -> reach g u v
  | reach_step u w v : edge g u w -> reach g w v -> reach g u v.
Definition acyclic (g : list (list Z)) : Prop := forall u, ~ reach g u u.
