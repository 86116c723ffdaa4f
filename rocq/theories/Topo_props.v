(* C37: topological_sort *)
From Verif Require Import Base Graph_spec Topo_model Topo_proof.
From Coq Require Import Permutation.

(* C37.  For every directed multigraph: is_dag() answers true exactly when there is no cycle, and
   then sorted() lists every vertex once, the tail of every edge before its head. *)
Theorem topological_sort_correct :
  forall g, graph_ok g ->
  exists ord, topo_sorted g = Ok ord /\ (is_dag g ord = true <-> ~ cyclic g) /\
    (is_dag g ord = true -> Permutation ord (zrange (zlen g)) /\
       forall u v, edge g u v -> exists a b c, ord = a ++ u :: b ++ v :: c).
Proof. exact topo_ok. Qed.
Print Assumptions topological_sort_correct.

Example topological_sort_example :
  let g := [[]; [0; 3; 3]; [1]; [0]; [2; 0]] in let h := [[1]; [2; 3]; [0]; []; [0]] in
  graph_ok g /\ graph_ok h /\
  topo_sorted g = Ok [4; 2; 1; 3; 0] /\ is_dag g [4; 2; 1; 3; 0] = true /\
  topo_sorted h = Ok [4] /\ is_dag h [4] = false.
Proof.
  cbv zeta.
  assert (C : forall g, forallb (forallb (fun v => (0 <=? v) && (v <? zlen g))) g = true -> graph_ok g).
  { intros g H u v (a & E & I). rewrite forallb_forall in H. assert (Ia : In a g) by (eapply BaseLemmas.vget_In; eauto). specialize (H a Ia). rewrite forallb_forall in H. specialize (H v I). lia. }
  split; [apply C; reflexivity|]. split; [apply C; reflexivity|]. vm_compute. auto.
Qed.
