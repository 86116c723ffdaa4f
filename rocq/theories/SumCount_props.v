(* C100: counting pairs by their sum (library/util/sum_count.hpp) *)
From Verif Require Import Base SumCount_spec SumCount_model SumCount_proof.

(* For all integers, also with empty intervals: each function is the number of pairs (a, b) of the two intervals whose sum satisfies the comparison *)
Theorem sum_count_counts min_a max_a min_b max_b s :
  sum_count min_a max_a min_b max_b s = how_many (fun x => x =? s) min_a max_a min_b max_b /\
  sum_count_leq min_a max_a min_b max_b s = how_many (fun x => x <=? s) min_a max_a min_b max_b /\
  sum_count_lt min_a max_a min_b max_b s = how_many (fun x => x <? s) min_a max_a min_b max_b /\
  sum_count_geq min_a max_a min_b max_b s = how_many (fun x => s <=? x) min_a max_a min_b max_b /\
  sum_count_gt min_a max_a min_b max_b s = how_many (fun x => s <? x) min_a max_a min_b max_b.
Proof. split; [apply sum_count_ok|]. split; [apply sum_count_leq_ok|]. split; [apply sum_count_lt_ok|]. split; [apply sum_count_geq_ok|apply sum_count_gt_ok]. Qed.
Print Assumptions sum_count_counts.
Example sum_count_ex : sum_count (-2) 3 1 4 2 = 4 /\ sum_count_leq (-2) 3 1 4 2 = 10 /\ sum_count_geq (-2) 3 1 4 2 = 18 /\ sum_count_leq 3 1 0 5 9 = 0 /\
  pairs 0 1 5 6 = [(0, 5); (0, 6); (1, 5); (1, 6)].
Proof. repeat split; reflexivity. Qed.
