(* C111: removal of parallel edges. *)
From Verif Require Import Base MEdge_spec MEdge_model MEdge_proof.
(* every adjacency list keeps exactly the first occurrence of each neighbour, in order, whatever the other lists contain *)
Theorem remove_multiedges_correct g : (forall vs v, In vs g -> In v vs -> 0 <= v < zlen g) -> remove_multiedges g = Ok (map first_occurrences g).
Proof. exact (remove_ok g). Qed.
Print Assumptions remove_multiedges_correct.
(* what that list is: the same neighbours, each once *)
Theorem first_occurrences_meaning l : NoDup (first_occurrences l) /\ (forall x, In x (first_occurrences l) <-> In x l).
Proof. exact (conj (fo_NoDup l) (fo_In l)). Qed.
Print Assumptions first_occurrences_meaning.
(* a neighbour that is not a vertex of the graph is an out of bounds access *)
Theorem remove_multiedges_out_of_range g : (exists vs v, In vs g /\ In v vs /\ ~ 0 <= v < zlen g) -> remove_multiedges g = UB.
Proof. exact (remove_bad g). Qed.
Print Assumptions remove_multiedges_out_of_range.
Example remove_multiedges_example : remove_multiedges [[2; 1; 2; 0; 1]; [1; 1]; []] = Ok [[2; 1; 0]; [1]; []] /\ remove_multiedges [[1]; [2]] = UB.
Proof. split; reflexivity. Qed.
