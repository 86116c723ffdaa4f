(* Property C84: offline dynamic connectivity. *)
From Verif Require Import Base Odc_spec Odc_model Odc_proof2.

(* For every history of insertions, deletions of present edges and questions, all over vertices 0..n-1, one call of
   answer() returns one answer per question, in order, and each is right for the edges present when it was asked
   (parallel edges are counted: an edge inserted twice must be deleted twice). *)
Theorem odc_correct n ops : 0 <= n -> valid n [] ops ->
  exists d bs d', odc_run n ops = Ok d /\ odc_answer d = Ok (bs, d') /\ right_answers [] ops bs.
Proof. exact (odc_ok n ops). Qed.
Print Assumptions odc_correct.

(* deleting an edge that is not present fails the assertion *)
Theorem odc_absent n ops u v d : 0 <= n -> valid n [] ops -> odc_run n ops = Ok d -> ~ In (edge u v) (fold_left dafter ops []) -> odc_step d (DDel u v) = Abort.
Proof. exact (odc_abort_ok n ops u v d). Qed.
Print Assumptions odc_absent.

(* Refuted: answer() may be called in the middle of a history.  It closes the interval of every edge that is still
   present, so later questions no longer see those edges (and deleting them fails the assertion). *)
Theorem odc_again_refuted : exists n ops1 ops2 d1 bs1 d1' d2 bs2 d2', valid n [] (ops1 ++ ops2) /\
  odc_run n ops1 = Ok d1 /\ odc_answer d1 = Ok (bs1, d1') /\ right_answers [] ops1 bs1 /\
  for_each ops2 (fun o d => odc_step d o) d1' = Ok d2 /\ odc_answer d2 = Ok (bs2, d2') /\ ~ right_answers [] (ops1 ++ ops2) bs2 /\
  odc_step d1' (DDel 0 1) = Abort.
Proof.
  exists 2, [DAdd 0 1; DAsk 0 1], [DAsk 0 1]. do 6 eexists. split; [cbn [app valid dafter]; lia|]. split; [reflexivity|]. split; [vm_compute; reflexivity|]. split.
  { cbn [right_answers dafter]. split; [|reflexivity]. split; [intros _|reflexivity]. apply Relations.Relation_Operators.rst_step. left. reflexivity. }
  split; [reflexivity|]. split; [vm_compute; reflexivity|]. split; [|reflexivity].
  cbn [app right_answers dafter]. intros (_ & (_ & H) & _). discriminate H. apply Relations.Relation_Operators.rst_step. left. reflexivity.
Qed.
Print Assumptions odc_again_refuted.

(* the hypotheses are met, by a history with a parallel edge *)
Example odc_example : let ops := [DAsk 0 1; DAdd 1 0; DAdd 0 1; DAsk 0 1; DDel 0 1; DAsk 0 1; DAdd 1 2; DAsk 0 2; DDel 1 0; DAsk 0 2; DAsk 1 2] in
  valid 4 [] ops /\ (let* d := odc_run 4 ops in let* (bs, _) := odc_answer d in Ok bs) = Ok [false; true; true; true; false; true].
Proof. split; [cbn; unfold edge; cbn; intuition lia|vm_compute; reflexivity]. Qed.
