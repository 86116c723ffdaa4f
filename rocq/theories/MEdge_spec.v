(* The list without the later occurrences of each value: the first element, then the rest without that value, and so on. *)
From Verif Require Import Base.
Fixpoint first_occurrences (l : list Z) : list Z :=
  match l with [] => [] | x :: l => x :: filter (fun y => negb (y =? x)) (first_occurrences l) end.
