(* C102: enumerate_triangles (library/graph/enumerate_triangles.hpp) *)
From Verif Require Import Base BaseLemmas Graph_spec Tree_spec Tri_spec Tri_model Tri_proof.

(* In every simple undirected graph: only triangles are reported, no report is repeated, and every triangle is reported in exactly one order of its vertices *)
Theorem enumerate_triangles_once g : simple_graph g -> exists out, enumerate_triangles g = Ok out /\ NoDup out /\
  (forall a b c, In (a, b, c) out -> triangle g a b c) /\
  (forall a b c, triangle g a b c -> exists t, In t out /\ same3 t a b c /\ forall t', In t' out -> same3 t' a b c -> t' = t).
Proof. exact (triangles_ok g). Qed.
Print Assumptions enumerate_triangles_once.

(* a complete graph on 0..3 with vertex 4 attached to 0 *)
Definition tri_ex : list (list Z) := [[1; 2; 3; 4]; [0; 2; 3]; [0; 1; 3]; [0; 1; 2]; [0]].
Lemma tri_ex_edge u v : edge tri_ex u v <-> 0 <= u <= 4 /\ 0 <= v <= 4 /\ u <> v /\ (u = 4 -> v = 0) /\ (v = 4 -> u = 0).
Proof.
  split.
  - intros (adj & E & I). pose proof (vget_range _ _ _ E) as R. change (zlen tri_ex) with 5 in R.
    assert (C : u = 0 \/ u = 1 \/ u = 2 \/ u = 3 \/ u = 4) by lia. destruct C as [-> | [-> | [-> | [-> | -> ]]]]; injection E as <-; cbn in I; lia.
  - intros H. assert (C : u = 0 \/ u = 1 \/ u = 2 \/ u = 3 \/ u = 4) by lia. destruct C as [-> | [-> | [-> | [-> | -> ]]]]; (eexists; split; [reflexivity|cbn; lia]).
Qed.
Example enumerate_triangles_ex : simple_graph tri_ex /\ enumerate_triangles tri_ex = Ok [(1, 2, 0); (1, 2, 3); (1, 3, 0); (2, 3, 0)].
Proof.
  split; [|reflexivity]. split; [intros u v E; apply tri_ex_edge in E; change (zlen tri_ex) with 5; lia|]. split; [intros u v E; apply tri_ex_edge in E; apply tri_ex_edge; lia|]. split; [intros u E; apply tri_ex_edge in E; lia|].
  intros u adj E. pose proof (vget_range _ _ _ E) as R. change (zlen tri_ex) with 5 in R. assert (C : u = 0 \/ u = 1 \/ u = 2 \/ u = 3 \/ u = 4) by lia. destruct C as [-> | [-> | [-> | [-> | -> ]]]]; injection E as <-; repeat constructor; cbn; lia.
Qed.
