(* Properties of Kruskal's minimum (maximum) spanning forest (C74). *)
From Coq Require Import Permutation Sorted.
From Verif Require Import Base BaseLemmas UnionFind_spec Heap_spec Hist Sorting Kruskal_model Kruskal_spec Kruskal_proof2.

(* Any sequence of calls on a graph of n vertices: build() tells whether the graph of all edges
   ever added is connected, get_weight() and get_mst() return a spanning forest of least (greatest)
   total weight of that graph, in sorted order, and both assert that build() came after the last
   add_edge.  [sort] is any correct std::sort. *)
Theorem kruskal_history :
  forall mx sort n ops, 0 <= n -> sorts mx sort -> Forall (kop_ok n) ops ->
  answers (kr_spec mx n) ([], false) ops (run (kr_step sort) (kr_new n) ops).
Proof. intros mx sort n ops Hn Hs Ho. exact (kr_history mx n Hn sort Hs ops Ho). Qed.
Print Assumptions kruskal_history.

Definition by_cost (mx : bool) (a b : edge) : bool := if mx then e_c b <=? e_c a else e_c a <=? e_c b.
Example kruskal_example :
  let ops := [KAdd (0, 1, 5); KAdd (1, 2, 3); KAdd (0, 2, 4); KBuild; KWeight; KAdd (2, 3, -7); KAdd (1, 3, 4); KMst] in
  let ops' := [KAdd (0, 1, 5); KAdd (1, 2, 3); KAdd (0, 2, 4); KBuild; KWeight; KAdd (2, 3, -7); KAdd (1, 3, 4); KBuild; KMst; KWeight] in
  sorts false (isort (by_cost false)) /\ sorts true (isort (by_cost true)) /\ Forall (kop_ok 4) ops' /\
  run (kr_step (isort (by_cost false))) (kr_new 4) ops = ([KUnit; KUnit; KUnit; KBool false; KInt 7; KUnit; KUnit], Abort) /\
  run (kr_step (isort (by_cost false))) (kr_new 4) ops' =
    ([KUnit; KUnit; KUnit; KBool false; KInt 7; KUnit; KUnit; KBool true; KEdges [(2, 3, -7); (1, 2, 3); (0, 2, 4)]; KInt 0], Ok tt) /\
  snd (run (kr_step (isort (by_cost true))) (kr_new 4) ops') = Ok tt.
Proof.
  assert (S : forall mx, sorts mx (isort (by_cost mx))).
  { intros mx es. split; [apply isort_perm|]. apply StronglySorted_impl with (fun x y => by_cost mx x y = true).
    - unfold by_cost, before. intros; destruct mx; lia.
    - apply isort_sorted; unfold by_cost; intros; destruct mx; lia. }
  split; [apply S|]. split; [apply S|]. split; [repeat constructor; cbn; lia|]. repeat split.
Qed.
