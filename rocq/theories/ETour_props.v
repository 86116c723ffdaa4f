(* C99: EulerTour (library/tree/euler_tour.hpp) *)
From Verif Require Import Base BaseLemmas Graph_spec Tree_spec TreeEx ETour_model ETour_proof3.

(* For every tree on at most 2^28 vertices and every choice of root: with par the parent function of the tree hung from that root,
   depth and parent are answered exactly, lca answers the lowest common ancestor, dist the length of a shortest walk, and
   [visit_time u, leave_time u) contains the visit time of exactly the descendants of u. *)
Theorem euler_tour_correct g r : tree g -> vertex g r -> zlen g <= 2 ^ 28 ->
  exists a par, et_new g r = Ok a /\ rooted g par /\ (forall v, vertex g v -> par v = -1 <-> v = r) /\
  (forall u, vertex g u -> exists d, et_depth a u = Ok d /\ depth par u d) /\
  (forall u, vertex g u -> et_parent a u = Ok (par u)) /\
  (forall u v, vertex g u -> vertex g v -> exists c, et_lca a u v = Ok c /\ is_lca par u v c) /\
  (forall u v, vertex g u -> vertex g v -> exists d, et_dist a u v = Ok d /\ best (hop g) u v d) /\
  (forall u, vertex g u -> exists i j, et_visit_time a u = Ok i /\ et_leave_time a u = Ok j /\ 0 <= i < j /\ j < 2 * zlen g /\
     forall w k, vertex g w -> et_visit_time a w = Ok k -> (ancestor par u w <-> i <= k < j)).
Proof. exact (euler_tour_ok g r). Qed.
Print Assumptions euler_tour_correct.

Example euler_tour_ex : tree ex_tree /\ vertex ex_tree 0 /\ zlen ex_tree <= 2 ^ 28 /\
  (let* a := et_new ex_tree 0 in let* x := et_lca a 2 4 in let* d := et_dist a 2 4 in let* p := et_parent a 4 in let* q := et_parent a 0 in let* v := et_visit_time a 3 in let* l := et_leave_time a 3 in Ok [x; d; p; q; v; l]) = Ok [1; 3; 3; -1; 4; 7].
Proof. split; [exact ex_tree_ok|]. split; [unfold vertex; vm_compute; intuition discriminate|]. split; [vm_compute; discriminate|]. vm_compute. reflexivity. Qed.
