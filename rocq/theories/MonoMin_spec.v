From Verif Require Import Base.

(* column [j] is the leftmost minimum of row [i] of a matrix with [m] columns *)
Definition leftmost_min (A : Z -> Z -> Z) (m i j : Z) : Prop :=
  0 <= j < m /\ (forall j', 0 <= j' < m -> A i j <= A i j') /\ (forall j', 0 <= j' < j -> A i j < A i j').
(* the leftmost minima move to the right from row to row *)
Definition monotone (A : Z -> Z -> Z) (n m : Z) : Prop :=
  forall i i' j j', 0 <= i <= i' -> i' < n -> leftmost_min A m i j -> leftmost_min A m i' j' -> j <= j'.

Definition at_ (a : list Z) (i : Z) : Z := nth (Z.to_nat i) a 0.
Definition convex (a : list Z) : Prop := forall i, 2 <= i < zlen a -> at_ a (i - 1) - at_ a (i - 2) <= at_ a i - at_ a (i - 1).
(* [c] is the least a_i + b_j with i + j = k *)
Definition min_sum (a b : list Z) (k c : Z) : Prop :=
  (exists i j, 0 <= i < zlen a /\ 0 <= j < zlen b /\ i + j = k /\ c = at_ a i + at_ b j) /\
  (forall i j, 0 <= i < zlen a -> 0 <= j < zlen b -> i + j = k -> c <= at_ a i + at_ b j).
Definition min_plus (a b c : list Z) : Prop :=
  zlen c = zlen a + zlen b - 1 /\ forall k, 0 <= k < zlen c -> min_sum a b k (at_ c k).
