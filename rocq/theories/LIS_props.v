(* C40: longest increasing subsequence and its variants.  The functions return indices. *)
From Verif Require Import Base LIS_spec LIS_model LIS_proof.
From Coq Require Import Sorted.

Theorem lis_increasing_longest : forall a, exists idx, longest_increasing_subsequence a = Ok idx /\ longest Z.ltb a idx.
Proof. exact lis_less. Qed.
Print Assumptions lis_increasing_longest.
Theorem lis_nondecreasing_longest : forall a, exists idx, longest_nondecreasing_subsequence a = Ok idx /\ longest Z.leb a idx.
Proof. exact lis_leq. Qed.
Print Assumptions lis_nondecreasing_longest.
Theorem lis_nonincreasing_longest : forall a, exists idx, longest_nonincreasing_subsequence a = Ok idx /\ longest Z.geb a idx.
Proof. exact lis_geq. Qed.
Print Assumptions lis_nonincreasing_longest.
Theorem lis_decreasing_longest : forall a, exists idx, longest_decreasing_subsequence a = Ok idx /\ longest Z.gtb a idx.
Proof. exact lis_gt. Qed.
Print Assumptions lis_decreasing_longest.

Example lis_example :
  let a := [3; 1; 4; 1; 5; 9; 2; 6; 5] in
  longest_increasing_subsequence a = Ok [1; 2; 4; 7] /\ longest_nondecreasing_subsequence a = Ok [1; 3; 6; 8] /\
  longest_nonincreasing_subsequence a = Ok [5; 7; 8] /\ longest_decreasing_subsequence a = Ok [5; 7; 8] /\ picks Z.ltb a [1; 2; 4; 7].
Proof.
  cbv zeta. repeat (split; [vm_compute; reflexivity|]). destruct (lis_less [3; 1; 4; 1; 5; 9; 2; 6; 5]) as (idx & E & (P & _)).
  assert (E' : longest_increasing_subsequence [3; 1; 4; 1; 5; 9; 2; 6; 5] = Ok [1; 2; 4; 7]) by (vm_compute; reflexivity). rewrite E in E'. injection E' as ->. auto.
Qed.
