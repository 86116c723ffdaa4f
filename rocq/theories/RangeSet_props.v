(* C23: RangeSet *)
From Verif Require Import Base Hist Hist2 RangeSet_model RangeSet_spec RangeSet_proof.

(* every history answers as the finite set of integers does *)
Theorem range_set_history merge ops : snd (run (rs_spec merge) [] ops) <> UB -> run (rs_step merge) rs_empty ops = run (rs_spec merge) [] ops.
Proof. exact (range_set_history_ merge ops). Qed.
Print Assumptions range_set_history.
Example range_set_example :
  let ops := [RInsert 3 7; RInsert 10 12; RInsert 8 9; RErase 5 10; RSize; RRanges; RContains 4; RContains 5; RFind 12; RMex 3; RMaxex 12; RInsert 9 1] in
  run (rs_spec true) [] ops = ([RNum 5; RNum 3; RNum 2; RNum 6; RNum 4; RNum 2; RBool true; RBool false; RNode (Some (11, 12)); RNum 5; RNum 10; RNum 0], Ok tt) /\
  run (rs_step true) rs_empty ops = run (rs_spec true) [] ops.
Proof. vm_compute. split; reflexivity. Qed.

(* after every history the stored ranges are increasing, disjoint, cover exactly the set,
   and are maximal when adjacent ranges are merged *)
Theorem range_set_segments merge ops s : after (rs_spec merge) [] ops = Ok s ->
  exists t, after (rs_step merge) rs_empty ops = Ok t /\ segments merge s (rs_map t).
Proof. exact (range_set_segments_ merge ops s). Qed.
Print Assumptions range_set_segments.
Example range_set_segments_example : (let* t := after (rs_step false) rs_empty [RInsert 1 2; RInsert 3 4; RErase 4 9] in Ok (rs_map t)) = Ok [(1, 2); (3, 3)].
Proof. reflexivity. Qed.
