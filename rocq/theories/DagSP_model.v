(* single_source_shortest_path_dag: library/graph/single_source_shortest_path_dag.hpp.  The graph is
   given by its adjacency lists of (head, weight); the cost type is unbounded except that inf is its
   largest value.  An unweighted graph is one whose weights are all 1 (csr_graph.hpp:214-217). *)
From Verif Require Import Base.

(* single_source_shortest_path_dag.hpp:32-40 *)
Definition dag_visit (inf u : Z) (e : Z * Z) (s : list Z * list Z * list Z) : res (list Z * list Z * list Z) :=
  let '(res, inn, dq) := s in
  let '(v, w) := e in
  let* ru := vget res u in
  let* res := (if ru =? inf then Ok res else let* rv := vget res v in vset res v (Z.min rv (ru + w))) in
  let* x := vget inn v in
  let* inn := vset inn v (x - 1) in
  Ok (res, inn, if x - 1 =? 0 then dq ++ [v] else dq).
(* single_source_shortest_path_dag.hpp:28-41; std::deque is a list *)
Definition dag_step (inf : Z) (g : list (list (Z * Z))) (s : list Z * list Z * list Z) : res (list Z * list Z * list Z) :=
  let '(res, inn, dq) := s in
  match dq with
  | [] => Abort
  | u :: dq => let* adj := vget g u in for_each adj (dag_visit inf u) (res, inn, dq)
  end.
(* single_source_shortest_path_dag.hpp:12-43 *)
Definition dag_shortest (inf : Z) (g : list (list (Z * Z))) (s : Z) : res (list Z) :=
  let* res := vset (vrep (zlen g) inf) s 0 in
  let* inn := for_each g (fun adj inn => for_each adj (fun e inn => let* x := vget inn (fst e) in vset inn (fst e) (x + 1)) inn) (vrep (zlen g) 0) in
  let* x := vget inn s in
  assert_ (x =? 0) ;;;
  let* dq := for_ 0 (zlen g) (fun i dq => let* x := vget inn i in Ok (if x =? 0 then dq ++ [i] else dq)) [] in
  let* (res, _, _) := for_ 0 (zlen g) (fun _ s => dag_step inf g s) (res, inn, dq) in
  Ok res.
