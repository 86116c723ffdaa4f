(* C35: breadth-first search *)
From Verif Require Import Base Graph_spec BFS_model BFS_proof BFS_proof2.
From Coq Require Import Permutation.

(* C35.  distance(src): -1 at the vertices no source reaches, elsewhere the least number of edges
   of a route from a source.  The adjacency lists are any directed multigraph. *)
Theorem bfs_distance_is_least :
  forall g src, graph_ok g -> (forall s, In s src -> vertex g s) ->
  exists dist, bfs_distance g src = Ok dist /\ zlen dist = zlen g /\
    forall v, vertex g v -> exists d, vget dist v = Ok d /\
      ((d = -1 /\ forall s c, In s src -> ~ reach (hop g) s v c) \/
       ((exists s, In s src /\ reach (hop g) s v d) /\ forall s c, In s src -> reach (hop g) s v c -> d <= c)).
Proof. exact bfs_distance_ok. Qed.
Print Assumptions bfs_distance_is_least.

(* C35.  BFS(n, edges) holds each edge in both directions and nothing else. *)
Theorem bfs_graph_of_edges :
  forall n edges, 0 <= n -> (forall u v, In (u, v) edges -> 0 <= u < n /\ 0 <= v < n) ->
  exists g, bfs_graph n edges = Ok g /\ zlen g = n /\ forall u v, edge g u v <-> In (u, v) edges \/ In (v, u) edges.
Proof. exact bfs_graph_ok. Qed.
Print Assumptions bfs_graph_of_edges.

(* C35.  connected_components() of an undirected graph lists every vertex exactly once, and two
   vertices are in the same component exactly when one is reachable from the other. *)
Theorem bfs_connected_components :
  forall g, graph_ok g -> (forall u v, edge g u v -> edge g v u) ->
  exists out, connected_components g = Ok out /\ Permutation (concat out) (zrange (zlen g)) /\
    forall c, In c out -> c <> [] /\ forall u v, In u c -> (In v c <-> exists k, reach (hop g) u v k).
Proof. exact cc_ok. Qed.
Print Assumptions bfs_connected_components.

Example bfs_example :
  let edges := [(0, 1); (1, 2); (2, 3); (0, 3); (5, 4)] in
  exists g, bfs_graph 7 edges = Ok g /\ graph_ok g /\ (forall u v, edge g u v -> edge g v u) /\
  bfs_distance g [0] = Ok [0; 1; 2; 1; -1; -1; -1] /\ bfs_distance g [2; 5] = Ok [2; 1; 0; 1; 1; 0; -1] /\
  connected_components g = Ok [[0; 1; 3; 2]; [4; 5]; [6]].
Proof.
  cbv zeta. destruct (bfs_graph_ok 7 [(0, 1); (1, 2); (2, 3); (0, 3); (5, 4)]) as (g & E & Zg & Eg); [lia| |].
  { intros u v H. repeat (destruct H as [H|H]; [injection H as <- <-; lia|]). destruct H. }
  exists g. split; auto. split; [|split].
  - intros u v H. rewrite Zg. apply Eg in H as [H|H]; repeat (destruct H as [H|H]; [injection H as <- <-; lia|]); destruct H.
  - intros u v H. apply Eg. apply Eg in H. tauto.
  - vm_compute in E. injection E as <-. vm_compute. auto.
Qed.
