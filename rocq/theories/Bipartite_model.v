(* bipartite_coloring: library/graph/bipartite_graph_recognition.hpp *)
From Verif Require Import Base.

(* bipartite_graph_recognition.hpp:11-12.  Fuel: the loop passes over col0 and col1 only *)
Definition bc_uncolored (col0 col1 : Z) : res Z :=
  loop 3 (fun x => if (x =? col0) || (x =? col1) then Ok (inl (x + 1)) else Ok (inr x)) 2.
(* bipartite_graph_recognition.hpp:21-28; std::deque is a list.  None: the function has returned
   nullopt and nothing more happens *)
Definition bc_visit (col0 col1 unc u v : Z) (s : option (list Z * list Z)) : res (option (list Z * list Z)) :=
  match s with
  | None => Ok None
  | Some (color, dq) =>
      let* cv := vget color v in
      let* cu := vget color u in
      if cv =? unc then
        let* color := vset color v (Z.lxor (Z.lxor cu col0) col1) in Ok (Some (color, dq ++ [v]))
      else if cv =? cu then Ok None
      else Ok (Some (color, dq))
  end.
(* bipartite_graph_recognition.hpp:18-29.  Fuel: each pass takes a vertex off the queue and a vertex is
   queued when it gets its colour *)
Definition bc_loop (col0 col1 unc : Z) (g : list (list Z)) (s : list Z * list Z) : res ((list Z * list Z) + option (list Z)) :=
  let '(color, dq) := s in
  match dq with
  | [] => Ok (inr (Some color))
  | u :: dq =>
      let* adj := vget g u in
      let* r := for_each adj (bc_visit col0 col1 unc u) (Some (color, dq)) in
      match r with None => Ok (inr None) | Some s => Ok (inl s) end
  end.
(* bipartite_graph_recognition.hpp:9-32 *)
Definition bipartite_coloring (g : list (list Z)) (col0 col1 : Z) : res (option (list Z)) :=
  let* unc := bc_uncolored col0 col1 in
  for_ 0 (zlen g) (fun i s =>
    match s with
    | None => Ok None
    | Some color =>
        let* ci := vget color i in
        if negb (ci =? unc) then Ok (Some color) else
        let* color := vset color i col0 in
        loop (length g + 2) (bc_loop col0 col1 unc g) (color, [i])
    end) (Some (vrep (zlen g) unc)).
