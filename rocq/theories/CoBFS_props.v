(* C94: breadth-first search in the complement graph *)
From Verif Require Import Base BaseLemmas Graph_spec BFS_model BFS_proof2 BFS_proof BFS_props CoBFS_spec CoBFS_model CoBFS_proof CoBFS_proof2.
From Coq Require Import Permutation.

(* C94.  distance(src): -1 at the vertices no source reaches along non-edges, elsewhere the least number of non-edges from a source to the vertex. *)
Theorem co_distance_is_least :
  forall part g src, partitions part -> graph_ok g -> (forall s, In s src -> vertex g s) ->
  exists dist, co_distance part g src = Ok dist /\ zlen dist = zlen g /\
    forall v, vertex g v -> exists d, vget dist v = Ok d /\
      ((d = -1 /\ forall s c, In s src -> ~ reach (co_hop g) s v c) \/
       ((exists s, In s src /\ reach (co_hop g) s v d) /\ forall s c, In s src -> reach (co_hop g) s v c -> d <= c)).
Proof. intros part g src P G S. exact (co_distance_ok part P g G src S). Qed.
Print Assumptions co_distance_is_least.

(* C94.  connected_components(): every vertex once; two vertices share a component exactly when a chain of non-edges joins them. *)
Theorem co_connected_components :
  forall part g, partitions part -> graph_ok g -> (forall u v, edge g u v -> edge g v u) ->
  exists out, co_components part g = Ok out /\ Permutation (concat out) (zrange (zlen g)) /\
    forall c, In c out -> c <> [] /\ forall u v, In u c -> (In v c <-> exists k, reach (co_hop g) u v k).
Proof. intros part g P G S. exact (co_cc_ok part P g G S). Qed.
Print Assumptions co_connected_components.

(* C94.  The whole object, from its list of edges. *)
Theorem co_bfs_of_edges :
  forall part n edges src, partitions part -> 0 <= n -> (forall u v, In (u, v) edges -> 0 <= u < n /\ 0 <= v < n) -> (forall s, In s src -> 0 <= s < n) ->
  exists g dist out, bfs_graph n edges = Ok g /\ co_distance part g src = Ok dist /\ co_components part g = Ok out /\ zlen dist = n /\ Permutation (concat out) (zrange n) /\
    (forall u v, co_edge g u v <-> 0 <= u < n /\ 0 <= v < n /\ u <> v /\ ~ In (u, v) edges /\ ~ In (v, u) edges) /\
    (forall c, In c out -> c <> [] /\ forall u v, In u c -> (In v c <-> exists k, reach (co_hop g) u v k)) /\
    forall v, 0 <= v < n -> exists d, vget dist v = Ok d /\
      ((d = -1 /\ forall s c, In s src -> ~ reach (co_hop g) s v c) \/
       ((exists s, In s src /\ reach (co_hop g) s v d) /\ forall s c, In s src -> reach (co_hop g) s v c -> d <= c)).
Proof.
  intros part n edges src P Hn He Hs. destruct (bfs_graph_ok n edges Hn He) as (g & E & Zg & Eg). exists g.
  assert (G : graph_ok g). { intros u v H. rewrite Zg. apply Eg in H as [H|H]; apply He in H; tauto. }
  destruct (co_distance_is_least part g src P G) as (dist & E1 & Z1 & D). { intros s H. unfold vertex. rewrite Zg. auto. }
  destruct (co_connected_components part g P G) as (out & E2 & Pm & C). { intros u v H. apply Eg. apply Eg in H. tauto. }
  exists dist, out. rewrite Zg in *. repeat (split; [assumption|]). split; [|split; [exact C|]].
  - intros u v. unfold co_edge, vertex. rewrite Zg, Eg. tauto.
  - intros v Hv. apply D. unfold vertex. rewrite Zg. exact Hv.
Qed.
Print Assumptions co_bfs_of_edges.

Example co_bfs_example :
  partitions part_stable /\
  exists g, bfs_graph 5 [(0,1); (0,2); (0,3); (1,2); (2,3); (2,4)] = Ok g /\ co_distance part_stable g [0] = Ok [0; 2; -1; 2; 1] /\ co_components part_stable g = Ok [[0; 4; 1; 3]; [2]].
Proof.
  split.
  - intros p l. unfold part_stable. cbn [fst snd]. split; [|split].
    + induction l as [|x l IH]; [constructor|]. cbn [filter]. destruct (p x); cbn [negb]; [constructor; auto|]. symmetry. apply Permutation_cons_app. symmetry. exact IH.
    + intros v H. apply filter_In in H. tauto.
    + intros v H. apply filter_In in H. destruct H as [_ H]. destruct (p v); [discriminate|auto].
  - eexists. split; [reflexivity|]. vm_compute. auto.
Qed.
