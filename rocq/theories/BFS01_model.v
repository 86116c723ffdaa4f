(* BFS01: library/graph/bfs01.hpp, class BFS01 (vertices 0 .. n-1).  The callback g(u, f) is a list
   of (v, cost) for each u, in the order of the calls of f, the bool cost being 0 or 1.  MapBFS01
   differs only in the container of the distances and is not modelled. *)
From Verif Require Import Base.

(* bfs01.hpp:44 *)
Definition bfs01_inf : Z := 2 ^ 31 - 1.
(* bfs01.hpp:29-41; std::deque is a list *)
Definition bfs01_visit (u : Z) (e : Z * Z) (s : list Z * list Z) : res (list Z * list Z) :=
  let '(dist, dq) := s in
  let '(v, cost) := e in
  let* old := vget dist v in
  let* du := vget dist u in
  let* new := i32 (du + cost) in
  if new <? old then
    let* dist := vset dist v new in
    Ok (dist, if cost =? 0 then v :: dq else dq ++ [v])
  else Ok (dist, dq).
Definition bfs01_loop (g : list (list (Z * Z))) (s : list Z * list Z) : res ((list Z * list Z) + list Z) :=
  let '(dist, dq) := s in
  match dq with
  | [] => Ok (inr dist)
  | u :: dq => let* adj := vget g u in let* s := for_each adj (bfs01_visit u) (dist, dq) in Ok (inl s)
  end.
(* bfs01.hpp:20-43 and 51-62.  Fuel: each pass takes a vertex off the queue; one is put there when
   its distance drops, and distances are below n *)
Definition bfs01_run (g : list (list (Z * Z))) (src : list Z) : res (list Z) :=
  let* dist := for_each src (fun v dist => vset dist v 0) (vrep (zlen g) bfs01_inf) in
  loop (length src + length g * length g + 1) (bfs01_loop g) (dist, src).
(* bfs01.hpp:46-48, 64-66 *)
Definition bfs01_at (dist : list Z) (v : Z) : res Z := vget dist v.
Definition bfs01_is_reachable (dist : list Z) (v : Z) : res bool := let* d := vget dist v in Ok (negb (d =? bfs01_inf)).
Definition bfs01_is_unreachable (dist : list Z) (v : Z) : res bool := let* d := vget dist v in Ok (d =? bfs01_inf).
