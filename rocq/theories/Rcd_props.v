(* C108: StaticRangeCountDistinctOffline *)
From Verif Require Import Base Rcd_spec Rcd_model Rcd_proof.
(* C108: for every array and every list of intervals, in any order and with repetitions, add_query hands out the ids 0, 1, ... and solve returns at each id the number of distinct values in that interval *)
Theorem range_count_distinct_correct : forall a qs, (forall p, In p qs -> query_ok a p) ->
  rc_run a qs = Ok (zrange (zlen qs), map (fun p => distinct a (fst p) (snd p)) qs).
Proof. exact run_ok. Qed.
Print Assumptions range_count_distinct_correct.
(* the first interval that is not inside the array stops at the assertion of add_query *)
Theorem range_count_distinct_rejects : forall a qs p qs', (forall p, In p qs -> query_ok a p) -> ~ query_ok a p -> rc_run a (qs ++ p :: qs') = Abort.
Proof. exact run_bad. Qed.
Print Assumptions range_count_distinct_rejects.
Example range_count_distinct_some : rc_run [7; 3; 7; 7; 5; 3] [(1, 4); (0, 6); (2, 2); (2, 4); (0, 6)] = Ok ([0; 1; 2; 3; 4], [2; 3; 0; 1; 3]).
Proof. reflexivity. Qed.
Example range_count_distinct_hyps : forall p, In p [(1, 4); (0, 6); (2, 2); (2, 4); (0, 6)] -> query_ok [7; 3; 7; 7; 5; 3] p.
Proof. intros p H. unfold query_ok, zlen. cbn [length]. cbn in H. repeat (destruct H as [<-|H]; [cbn; lia|]). destruct H. Qed.
