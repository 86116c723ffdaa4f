(* dijkstra: library/graph/dijkstra.hpp, built from adjacency lists of (vertex, cost) with Cost a
   signed integer type whose largest value is [inf]; a sum above inf is undefined behaviour *)
From Verif Require Import Base.

(* std::priority_queue<pair<Cost, unsigned>, ..., greater>: the sorted list of its elements, the
   least (by cost, then vertex) first *)
Definition pq_le (a b : Z * Z) : bool := (fst a <? fst b) || ((fst a =? fst b) && (snd a <=? snd b)).
Fixpoint pq_push (x : Z * Z) (l : list (Z * Z)) : list (Z * Z) :=
  match l with [] => [x] | y :: l' => if pq_le x y then x :: l else y :: pq_push x l' end.

(* dijkstra.hpp:48-50: _src, _dist, _par *)
Record dijkstra := DJ { dj_src : Z; dj_dist : list Z; dj_par : list Z }.

Definition cost_add (inf a b : Z) : res Z := if a + b <=? inf then Ok (a + b) else UB.

(* dijkstra.hpp:22-24 called with du + c, :31 *)
Definition dj_relax (inf u du : Z) (e : Z * Z) (s : list Z * list Z * list (Z * Z)) : res (list Z * list Z * list (Z * Z)) :=
  let '(dist, par, pq) := s in
  let '(v, c) := e in
  let* new_cost := cost_add inf du c in
  let* dv := vget dist v in
  if new_cost <? dv then
    let* dist := vset dist v new_cost in
    let* par := vset par v u in
    Ok (dist, par, pq_push (new_cost, v) pq)
  else Ok s.
(* dijkstra.hpp:26-29 *)
Definition dj_loop (inf : Z) (g : list (list (Z * Z))) (s : list Z * list Z * list (Z * Z)) : res ((list Z * list Z * list (Z * Z)) + (list Z * list Z)) :=
  let '(dist, par, pq) := s in
  match pq with
  | [] => Ok (inr (dist, par))
  | (du, u) :: pq =>
      let* d := vget dist u in
      if du =? d then
        let* adj := vget g u in
        let* s := for_each adj (dj_relax inf u du) (dist, par, pq) in Ok (inl s)
      else Ok (inl (dist, par, pq))
  end.
(* dijkstra.hpp:14-31.  Fuel: every entry of the queue but the first was put there by an edge, and
   an edge is relaxed at most once *)
Definition dijkstra_run (inf : Z) (g : list (list (Z * Z))) (src : Z) : res dijkstra :=
  let* dist := vset (vrep (zlen g) inf) src 0 in
  let* (dist, par) := loop (length (concat g) + 2) (dj_loop inf g) (dist, vrep (zlen g) 0, pq_push (0, src) []) in
  Ok (DJ src dist par).

(* dijkstra.hpp:39-41 *)
Definition dj_at (d : dijkstra) (t : Z) : res Z := vget (dj_dist d) t.
Definition dj_is_reachable (inf : Z) (d : dijkstra) (t : Z) : res bool := let* x := vget (dj_dist d) t in Ok (negb (x =? inf)).
Definition dj_is_unreachable (inf : Z) (d : dijkstra) (t : Z) : res bool := let* x := vget (dj_dist d) t in Ok (x =? inf).
(* dijkstra.hpp:32-38.  Fuel: a path has no more vertices than the graph *)
Definition dj_path_loop (d : dijkstra) (s : Z * list Z) : res ((Z * list Z) + list Z) :=
  let '(t, path) := s in
  if t =? dj_src d then Ok (inr path)
  else let* t := vget (dj_par d) t in Ok (inl (t, path ++ [t])).
Definition dj_path_to (inf : Z) (d : dijkstra) (t : Z) : res (list Z) :=
  let* r := dj_is_reachable inf d t in
  assert_ r ;;;
  let* path := loop (length (dj_dist d) + 1) (dj_path_loop d) (t, [t]) in
  Ok (rev path).
