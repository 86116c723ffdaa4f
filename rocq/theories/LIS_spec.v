(* Subsequences given by their indices. *)
From Verif Require Import Base.
From Coq Require Import Sorted.

(* idx lists increasing positions of a, and [lt] holds between the elements there, in order *)
Definition picks (lt : Z -> Z -> bool) (a idx : list Z) : Prop :=
  (forall i, In i idx -> 0 <= i < zlen a) /\
  StronglySorted (fun i j => i < j /\ exists x y, vget a i = Ok x /\ vget a j = Ok y /\ lt x y = true) idx.
(* and no longer such list exists *)
Definition longest (lt : Z -> Z -> bool) (a idx : list Z) : Prop :=
  picks lt a idx /\ forall idx', picks lt a idx' -> zlen idx' <= zlen idx.
