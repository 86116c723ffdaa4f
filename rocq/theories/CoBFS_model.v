(* Model of library/graph/bfs_complement.hpp.  std::partition is the parameter [part]; the graph is built as in bfs.hpp (BFS_model.bfs_graph,
   bfs_complement.hpp:15-25 has the same body). *)
From Verif Require Import Base.

Section Part.
  Variable part : (Z -> bool) -> list Z -> list Z * list Z.
  (* lines 44, 50, 76, 80: set adj[v] for the neighbours *)
  Definition mark (row : list Z) (b : bool) (adj : list bool) : res (list bool) := for_each row (fun v adj => vset adj v b) adj.
  (* the predicate of lines 45, 77; s holds vertices only, so adj[v] exists *)
  Definition is_adj (adj : list bool) (v : Z) : bool := match vget adj v with Ok b => b | _ => false end.
  (* lines 41-51; state: dist, dq, s, adj *)
  Definition co_loop (g : list (list Z)) (st : list Z * list Z * list Z * list bool) : res ((list Z * list Z * list Z * list bool) + list Z) :=
    let '(dist, dq, s, adj) := st in
    match dq with
    | [] => Ok (inr dist)
    | u :: dq =>
        let* row := vget g u in
        let* adj := mark row true adj in
        let '(s, out) := part (is_adj adj) s in
        let* r := for_each (rev out) (fun v st => let '(dist, dq) := st in
          let* du := vget dist u in let* dist := vset dist v (du + 1) in Ok (dist, dq ++ [v])) (dist, dq) in
        let '(dist, dq) := r in
        let* adj := mark row false adj in
        Ok (inl (dist, dq, s, adj))
    end.
  (* lines 27-53 *)
  Definition co_distance (g : list (list Z)) (src : list Z) : res (list Z) :=
    let n := zlen g in
    let* is_src := for_each src (fun v a => vset a v true) (vrep n false) in
    let* s := for_ 0 n (fun i s => let* b := vget is_src i in Ok (if b then s else s ++ [i])) [] in
    let* dist := for_each src (fun v dist => vset dist v 0) (vrep n (-1)) in
    loop (length src + length g + 1) (co_loop g) (dist, src, s, vrep n false).
  (* lines 71-81; state: cmp, vis, dq, s, adj *)
  Definition co_cc_loop (g : list (list Z)) (st : list Z * list bool * list Z * list Z * list bool)
    : res ((list Z * list bool * list Z * list Z * list bool) + (list Z * list bool * list Z * list bool)) :=
    let '(cmp, vis, dq, s, adj) := st in
    match dq with
    | [] => Ok (inr (cmp, vis, s, adj))
    | u :: dq =>
        let* vis := vset vis u true in
        let* row := vget g u in
        let* adj := mark row true adj in
        let '(s, out) := part (is_adj adj) s in
        let* adj := mark row false adj in
        Ok (inl (cmp ++ [u], vis, dq ++ out, s, adj))
    end.
  (* s.erase(std::find(s.begin(), s.end(), i)): erasing end() is UB *)
  Fixpoint erase1 (i : Z) (s : list Z) : res (list Z) :=
    match s with [] => UB | x :: s => if x =? i then Ok s else let* s := erase1 i s in Ok (x :: s) end.
  (* lines 58-84 *)
  Definition co_components (g : list (list Z)) : res (list (list Z)) :=
    let n := zlen g in
    let* r := for_ 0 n (fun i (st : list (list Z) * list bool * list Z * list bool) => let '(out, vis, s, adj) := st in
      let* b := vget vis i in
      if b then Ok (out, vis, s, adj) else
      let* s := erase1 i s in
      let* r := loop (length g + 2) (co_cc_loop g) ([], vis, [i], s, adj) in
      let '(cmp, vis, s, adj) := r in
      Ok (out ++ [cmp], vis, s, adj)) ([], vrep n false, zrange n, vrep n false) in
    Ok (fst (fst (fst r))).
End Part.
(* one possible partition, for the examples *)
Definition part_stable (p : Z -> bool) (l : list Z) : list Z * list Z := (filter p l, filter (fun v => negb (p v)) l).
