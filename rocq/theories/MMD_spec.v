(* Nearest other point in the Manhattan metric *)
From Verif Require Import Base.
From Coq Require Import Permutation Sorted.
Definition dist (a b : Z * Z) : Z := Z.abs (fst a - fst b) + Z.abs (snd a - snd b).
(* [r] is the least distance from the point i to another point; None (numeric_limits<T>::max() in the code) when there is no other point *)
Definition nearest (pts : list (Z * Z)) (i : Z) (r : option Z) : Prop :=
  match r with
  | None => forall j, 0 <= j < zlen pts -> j = i
  | Some d => forall p, vget pts i = Ok p -> (exists j q, j <> i /\ vget pts j = Ok q /\ d = dist p q) /\ forall j q, j <> i -> vget pts j = Ok q -> d <= dist p q
  end.
(* std::sort: a permutation in which nothing is preceded by something that the comparison puts after it, whenever the comparison is a strict weak ordering; the order of equivalent elements is unspecified *)
Definition strict_weak (lt : Z -> Z -> bool) : Prop :=
  (forall x, lt x x = false) /\ (forall x y z, lt x y = true -> lt y z = true -> lt x z = true) /\ forall x y z, lt x y = false -> lt y z = false -> lt x z = false.
Definition is_sort (srt : (Z -> Z -> bool) -> list Z -> list Z) : Prop :=
  forall lt l, strict_weak lt -> Permutation (srt lt l) l /\ StronglySorted (fun x y => lt y x = false) (srt lt l).
