(* Pairs of integers from two intervals *)
From Verif Require Import Base.
(* lo, lo+1, ..., hi (empty when hi < lo) *)
Definition interval (lo hi : Z) : list Z := map (fun i => lo + i) (zrange (hi - lo + 1)).
Definition pairs (min_a max_a min_b max_b : Z) : list (Z * Z) := list_prod (interval min_a max_a) (interval min_b max_b).
(* how many pairs (a, b) of the two intervals have P (a + b) *)
Definition how_many (P : Z -> bool) (min_a max_a min_b max_b : Z) : Z := zlen (filter (fun ab => P (fst ab + snd ab)) (pairs min_a max_a min_b max_b)).
