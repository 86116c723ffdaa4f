(* C116: derangements. *)
From Verif Require Import Base.
From Coq Require Export Permutation.
(* p lists the values at positions 0, 1, ..., n-1 of a permutation of 0, ..., n-1 without a fixed point *)
Definition derangement (n : Z) (p : list Z) : Prop := Permutation p (zrange n) /\ forall i, nth_error p i <> Some (Z.of_nat i).
(* c is the number of derangements of n elements *)
Definition derangements (n c : Z) : Prop := exists L, NoDup L /\ (forall p, In p L <-> derangement n p) /\ zlen L = c.
