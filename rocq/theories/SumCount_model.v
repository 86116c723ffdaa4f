(* util/sum_count.hpp.  T and R are exact integers here (no overflow). *)
From Verif Require Import Base.
(* library/util/sum_count.hpp:7-10 *)
Definition sum_count (min_a max_a min_b max_b sum : Z) : Z := Z.max 0 (Z.min max_a (sum - min_b) - Z.max min_a (sum - max_b) + 1).
(* library/util/sum_count.hpp:14-26 *)
Definition sum_count_leq (min_a max_a min_b max_b max_sum : Z) : Z :=
  let ra := max_a - min_a in
  let rb := max_b - min_b in
  let rs := max_sum - (min_a + min_b) in
  if (ra <? 0) || (rb <? 0) || (rs <? 0) then 0 else
  let t := Z.max 0 (Z.min ra (rs - rb) + 1) in
  let fr := rs - Z.min ra rs + 1 in
  let to := rs - t + 2 in
  t * (rb + 1) + Z.quot ((to - fr) * (fr + to - 1)) 2.
(* library/util/sum_count.hpp:30-32 *)
Definition sum_count_lt (min_a max_a min_b max_b x : Z) : Z := sum_count_leq min_a max_a min_b max_b (x - 1).
(* library/util/sum_count.hpp:36-38 *)
Definition sum_count_geq (min_a max_a min_b max_b min_sum : Z) : Z :=
  Z.max 0 (max_a - min_a + 1) * Z.max 0 (max_b - min_b + 1) - sum_count_lt min_a max_a min_b max_b min_sum.
(* library/util/sum_count.hpp:42-44 *)
Definition sum_count_gt (min_a max_a min_b max_b x : Z) : Z :=
  Z.max 0 (max_a - min_a + 1) * Z.max 0 (max_b - min_b + 1) - sum_count_leq min_a max_a min_b max_b x.
