(* topological_sort: library/graph/topological_sort.hpp *)
From Verif Require Import Base.

(* topological_sort.hpp:20-36; std::deque is a list.  Fuel: each pass takes one vertex off the
   queue, and a vertex is queued at most once *)
Definition dec_visit (v : Z) (s : list Z * list Z) : res (list Z * list Z) :=
  let '(inn, dq) := s in
  let* x := vget inn v in
  let* inn := vset inn v (x - 1) in
  Ok (inn, if x - 1 =? 0 then dq ++ [v] else dq).
Definition topo_loop (g : list (list Z)) (s : list Z * list Z * list Z) : res ((list Z * list Z * list Z) + list Z) :=
  let '(inn, dq, ord) := s in
  match dq with
  | [] => Ok (inr ord)
  | u :: dq =>
      let* adj := vget g u in
      let* (inn, dq) := for_each adj dec_visit (inn, dq) in Ok (inl (inn, dq, ord ++ [u]))
  end.
Definition topo_sorted (g : list (list Z)) : res (list Z) :=
  let* inn := for_each g (fun adj inn => for_each adj (fun j inn => let* x := vget inn j in vset inn j (x + 1)) inn) (vrep (zlen g) 0) in
  let* dq := for_ 0 (zlen g) (fun i dq => let* x := vget inn i in Ok (if x =? 0 then dq ++ [i] else dq)) [] in
  loop (length g + 1) (topo_loop g) (inn, dq, []).
(* topological_sort.hpp:13 *)
Definition is_dag (g : list (list Z)) (ord : list Z) : bool := zlen ord =? zlen g.
