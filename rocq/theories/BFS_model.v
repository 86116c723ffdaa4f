(* BFS: library/graph/bfs.hpp.  int values do not overflow: they are at most n. *)
From Verif Require Import Base.

Definition unreachable : Z := -1.
(* bfs.hpp:22-25 *)
Definition add_edge (g : list (list Z)) (u v : Z) : res (list (list Z)) :=
  let* a := vget g u in let* g := vset g u (a ++ [v]) in
  let* b := vget g v in vset g v (b ++ [u]).
(* bfs.hpp:15-19 *)
Definition bfs_graph (n : Z) (edges : list (Z * Z)) : res (list (list Z)) :=
  for_each edges (fun '(u, v) g => add_edge g u v) (vrep n []).
(* bfs.hpp:27-42; std::deque is a list.  Fuel: each pass takes one vertex off the queue, and
   besides the sources a vertex is queued once *)
Definition bfs_visit (u : Z) (v : Z) (s : list Z * list Z) : res (list Z * list Z) :=
  let '(dist, dq) := s in
  let* dv := vget dist v in
  if dv =? unreachable then
    let* du := vget dist u in
    let* dist := vset dist v (du + 1) in Ok (dist, dq ++ [v])
  else Ok s.
Definition bfs_loop (g : list (list Z)) (s : list Z * list Z) : res ((list Z * list Z) + list Z) :=
  let '(dist, dq) := s in
  match dq with
  | [] => Ok (inr dist)
  | u :: dq =>
      let* adj := vget g u in
      let* s := for_each adj (bfs_visit u) (dist, dq) in Ok (inl s)
  end.
Definition bfs_distance (g : list (list Z)) (src : list Z) : res (list Z) :=
  let* dist := for_each src (fun v dist => vset dist v 0) (vrep (zlen g) unreachable) in
  loop (length src + length g + 1) (bfs_loop g) (dist, src).
(* bfs.hpp:43-45 *)
Definition bfs_distance1 (g : list (list Z)) (s : Z) : res (list Z) := bfs_distance g [s].

(* bfs.hpp:47-66; the state is vis, the queue and the component being filled *)
Definition cc_visit (v : Z) (s : list bool * list Z) : res (list bool * list Z) :=
  let '(vis, dq) := s in
  let* b := vget vis v in
  let* vis := vset vis v true in
  Ok (vis, if b then dq else dq ++ [v]).
Definition cc_loop (g : list (list Z)) (s : list bool * list Z * list Z) : res ((list bool * list Z * list Z) + (list bool * list Z)) :=
  let '(vis, dq, cmp) := s in
  match dq with
  | [] => Ok (inr (vis, cmp))
  | u :: dq =>
      let* adj := vget g u in
      let* (vis, dq) := for_each adj cc_visit (vis, dq) in Ok (inl (vis, dq, cmp ++ [u]))
  end.
Definition connected_components (g : list (list Z)) : res (list (list Z)) :=
  let* (vis, out) := for_ 0 (zlen g) (fun i '(vis, out) =>
    let* b := vget vis i in
    let* vis := vset vis i true in
    if b then Ok (vis, out) else
    let* (vis, cmp) := loop (length g + 1) (cc_loop g) (vis, [i], []) in
    Ok (vis, out ++ [cmp])) (vrep (zlen g) false, []) in
  Ok out.
