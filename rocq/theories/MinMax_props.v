(* C104: bottleneck costs between all pairs (library/graph/minmax_floyd_warshall.hpp) *)
From Verif Require Import Base BaseLemmas Sorting MinMax_spec MinMax_model MinMax_proof.
From Coq Require Import Permutation Sorted.

(* For every square cost matrix, and whatever order the sort leaves edges of equal cost in: the result has at every (u, v) the least possible greatest edge cost of a walk from u to v.
   A walk has at least one edge, so the diagonal holds the bottleneck of a closed walk and not a neutral value. *)
Theorem minmax_bottleneck sort cost : sorts_by_cost sort -> square cost ->
  exists R, minmax_floyd_warshall sort cost = Ok R /\
    forall u v, 0 <= u < zlen cost -> 0 <= v < zlen cost -> exists x, cell R u v x /\ bottleneck cost u v x.
Proof. exact (minmax_ok sort cost). Qed.
Print Assumptions minmax_bottleneck.
Definition by_cost (a b : Z * Z * Z) : bool := fst (fst a) <=? fst (fst b).
Example sorts_ex : sorts_by_cost (isort by_cost).
Proof.
  intros l. split; [apply isort_perm|].
  assert (S : StronglySorted (fun x y => by_cost x y = true) (isort by_cost l)).
  { apply isort_sorted; unfold by_cost; [intros x y; rewrite !Z.leb_le; lia|intros x y z; rewrite !Z.leb_le; lia]. }
  induction S as [|x r S IH F]; constructor; auto. eapply Forall_impl; [|exact F]. intros y. unfold by_cost. now rewrite Z.leb_le.
Qed.
Definition ex_cost : list (list Z) := [[9; 5; 8]; [7; 9; 2]; [3; 6; 4]].
Example minmax_ex : square ex_cost /\ minmax_floyd_warshall (isort by_cost) ex_cost = Ok [[5; 5; 5]; [3; 5; 2]; [3; 5; 4]].
Proof. split; [|reflexivity]. intros r [<-|[<-|[<-|[]]]]; reflexivity. Qed.
