(* Strongly connected components of a tournament from its in-degrees. *)
From Coq Require Import Relation_Operators Permutation.
From Verif Require Import Base BaseLemmas Tourn_model Tourn_spec Tourn_proof2.

(* For every tournament, the in-degrees alone determine the strongly connected components, and
   scc_tournament returns them in topological order. *)
Theorem scc_tournament_correct (n : Z) (E : Z -> Z -> bool) : 0 <= n -> tournament n E ->
  exists gs, scc_tournament (map (indeg n E) (zrange n)) = Ok gs /\ components n E gs.
Proof. exact (scc_ok n E). Qed.
Print Assumptions scc_tournament_correct.

(* 3 beats everyone but 0..2 form a cycle *)
Definition tourn4 (i j : Z) : bool :=
  if i =? 3 then negb (j =? 3) else if j =? 3 then false else (i + 1) mod 3 =? j.
Example tourn4_ok : tournament 4 tourn4.
Proof.
  split; intros i.
  - intro H. assert (i = 0 \/ i = 1 \/ i = 2 \/ i = 3) as C by lia. destruct C as [->|[->|[->| ->]]]; reflexivity.
  - intros j H H' N. assert (i = 0 \/ i = 1 \/ i = 2 \/ i = 3) as C by lia. assert (j = 0 \/ j = 1 \/ j = 2 \/ j = 3) as D by lia.
    destruct C as [->|[->|[->| ->]]]; destruct D as [->|[->|[->| ->]]]; try reflexivity; elim N; reflexivity.
Qed.
Example tourn4_result : map (indeg 4 tourn4) (zrange 4) = [2; 2; 2; 0] /\ scc_tournament [2; 2; 2; 0] = Ok [[3]; [0; 1; 2]].
Proof. split; reflexivity. Qed.
