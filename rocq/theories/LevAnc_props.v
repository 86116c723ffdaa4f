(* C97: level ancestors and tree paths *)
From Verif Require Import Base Graph_spec Tree_spec TreeEx LevAnc_model LevAnc_proof LevAnc_proof2.

(* In every tree, get_tree_path(g, u, v) is a simple path from u to v (there is only one, C58) *)
Theorem get_tree_path_simple g u v : tree g -> vertex g u -> vertex g v -> exists p, get_tree_path g u v = Ok p /\ simple_path g u v p.
Proof. exact (get_tree_path_ok g u v). Qed.
Print Assumptions get_tree_path_simple.
Example get_tree_path_example : tree ex_tree /\ get_tree_path ex_tree 4 2 = Ok [4; 3; 1; 2] /\ get_tree_path ex_tree 3 3 = Ok [3].
Proof. split; [exact ex_tree_ok|]. split; reflexivity. Qed.

(* For every tree and every root r, LevelAncestor(g, r) is built without reading outside its arrays; rooting the tree at r:
   get_depth is the depth; query(u, k) is the k-th ancestor of u, and -1 exactly when there is none (k negative or above the depth);
   get_visit_time and get_kth_visited are inverse, and the vertices below u are those visited in an interval that starts with u *)
Theorem level_ancestor g r : tree g -> vertex g r -> exists a par, la_new g r = Ok a /\ rooted g par /\ (forall v, vertex g v -> par v = -1 <-> v = r) /\
  (forall u, vertex g u -> exists d, la_depth a u = Ok d /\ depth par u d) /\
  (forall u k, vertex g u -> exists b, la_query a u k = Ok b /\ (climb par k u b \/ b = -1 /\ forall c, ~ climb par k u c)) /\
  (forall u, vertex g u -> exists i s, la_visit_time a u = Ok i /\ la_kth_visited a i = Ok u /\ 0 <= i /\ i + s <= zlen g /\
     forall w j, vertex g w -> la_visit_time a w = Ok j -> (ancestor par u w <-> i <= j < i + s)).
Proof. exact (level_ancestor_ok g r). Qed.
Print Assumptions level_ancestor.
Example level_ancestor_example : tree ex_tree /\ exists a, la_new ex_tree 0 = Ok a /\
  la_query a 4 0 = Ok 4 /\ la_query a 4 1 = Ok 3 /\ la_query a 4 2 = Ok 1 /\ la_query a 4 3 = Ok 0 /\ la_query a 4 4 = Ok (-1) /\ la_query a 2 (-1) = Ok (-1) /\ la_depth a 4 = Ok 3 /\ la_kth_visited a 2 = Ok 2.
Proof. split; [exact ex_tree_ok|]. eexists. split; [reflexivity|]. repeat split; reflexivity. Qed.
