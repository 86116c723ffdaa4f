(* C107: get_cycle_directed *)
From Verif Require Import Base BaseLemmas DCyc_spec DCyc_model DCyc_proof.
(* C107: on every directed graph (self loops and parallel edges included) the call terminates inside its buffers; it returns a simple directed cycle of the graph, or nothing when no vertex can reach itself *)
Theorem get_cycle_directed_correct : forall g, in_range g ->
  exists r, get_cycle_directed g = Ok r /\ match r with Some l => cycle g l | None => acyclic g end.
Proof. exact main_ok. Qed.
Print Assumptions get_cycle_directed_correct.
(* so a cycle is reported exactly when one exists *)
Theorem get_cycle_directed_found_iff : forall g, in_range g ->
  ((exists l, get_cycle_directed g = Ok (Some l)) <-> exists l, cycle g l).
Proof. exact found_iff. Qed.
Print Assumptions get_cycle_directed_found_iff.
Example get_cycle_directed_some : get_cycle_directed [[1]; [2; 4]; [3; 3]; [4; 1]; []] = Ok (Some [2; 3; 1]) /\ get_cycle_directed [[1]; [2]; []] = Ok None /\ get_cycle_directed [[0]] = Ok (Some [0]).
Proof. repeat split; reflexivity. Qed.
Example get_cycle_directed_hyps : in_range [[1]; [2; 4]; [3; 3]; [4; 1]; []].
Proof. intros u v (row & E & I). apply vget_In in E. cbn in E. unfold zlen. cbn [length]. repeat (destruct E as [<-|E]; [cbn in I; lia|]). destruct E. Qed.
