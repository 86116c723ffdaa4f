(* The complement of a graph: an edge wherever the given graph has none. *)
From Verif Require Import Base Graph_spec.
From Coq Require Import Permutation.

Definition co_edge (g : list (list Z)) (u v : Z) : Prop := vertex g u /\ vertex g v /\ u <> v /\ ~ edge g u v.
Definition co_hop (g : list (list Z)) (u v c : Z) : Prop := co_edge g u v /\ c = 1.
(* std::partition: the elements satisfying p first, in no particular order *)
Definition partitions (part : (Z -> bool) -> list Z -> list Z * list Z) : Prop :=
  forall p l, Permutation (fst (part p l) ++ snd (part p l)) l /\
    (forall v, In v (fst (part p l)) -> p v = true) /\ (forall v, In v (snd (part p l)) -> p v = false).
