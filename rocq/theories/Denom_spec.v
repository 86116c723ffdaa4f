(* A set of integers reported by its ends *)
From Verif Require Import Base.
(* o holds the least and the greatest element of S, and S is everything between them; o is empty exactly when S is *)
Definition the_range (S : Z -> Prop) (o : option (Z * Z)) : Prop :=
  match o with Some (l, r) => l <= r /\ forall x, S x <-> l <= x <= r | None => forall x, ~ S x end.
