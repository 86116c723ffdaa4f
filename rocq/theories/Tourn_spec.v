(* Strongly connected components of tournaments. *)
From Coq Require Import Relation_Operators Permutation.
From Verif Require Import Base.

(* between two different vertices of [0, n) there is exactly one edge; no loops *)
Definition tournament (n : Z) (E : Z -> Z -> bool) : Prop :=
  (forall i, 0 <= i < n -> E i i = false) /\ forall i j, 0 <= i < n -> 0 <= j < n -> i <> j -> E i j = negb (E j i).
Definition indeg (n : Z) (E : Z -> Z -> bool) (j : Z) : Z := zlen (filter (fun i => E i j) (zrange n)).
Definition reach (n : Z) (E : Z -> Z -> bool) : Z -> Z -> Prop :=
  clos_refl_trans Z (fun a b => 0 <= a < n /\ 0 <= b < n /\ E a b = true).
(* gs lists every vertex once, in non-empty groups; u reaches v exactly if the group of u is not
   after that of v: so the groups are the strongly connected components, in topological order *)
Definition components (n : Z) (E : Z -> Z -> bool) (gs : list (list Z)) : Prop :=
  Permutation (concat gs) (zrange n) /\ (forall g, In g gs -> g <> []) /\
  forall i j gi gj u v, vget gs i = Ok gi -> vget gs j = Ok gj -> In u gi -> In v gj -> (reach n E u v <-> i <= j).
