(* Ranks and neighbours among the registered values; inversions. *)
From Verif Require Import Base.

(* how many distinct values of [xs] satisfy [p] *)
Definition distinct_with (p : Z -> bool) (xs : list Z) : Z := zlen (filter p (nodup Z.eq_dec xs)).

(* [r] is the least (greatest) registered value with property P, or [d] if there is none *)
Definition least_with (P : Z -> Prop) (xs : list Z) (d r : Z) : Prop :=
  (In r xs /\ P r /\ forall y, In y xs -> P y -> r <= y) \/ ((forall y, In y xs -> ~ P y) /\ r = d).
Definition greatest_with (P : Z -> Prop) (xs : list Z) (d r : Z) : Prop :=
  (In r xs /\ P r /\ forall y, In y xs -> P y -> y <= r) \/ ((forall y, In y xs -> ~ P y) /\ r = d).

(* the number of pairs i < j with a_i > a_j *)
Fixpoint inversions (a : list Z) : Z :=
  match a with [] => 0 | x :: a' => zlen (filter (fun y => y <? x) a') + inversions a' end.
