(* FunctionalGraph::infinite_paths and kth_iterate: library/graph/functional_graph.hpp *)
From Verif Require Import Base.

(* functional_graph.hpp:141-148 *)
Record ipath := IP { head_v : Z; head_len : Z; loop_v : Z; loop_len : Z }.
(* the vectors res, vis, dep of infinite_paths *)
Definition ip_state : Type := list ipath * list Z * list Z.
(* functional_graph.hpp:157-179, the recursive lambda; int arithmetic stays below n.  Fuel: the
   recursion visits new vertices only *)
Fixpoint ip_dfs (fuel : nat) (nxt : list Z) (time u : Z) (st : ip_state) : res (ip_state * Z) :=
  match fuel with
  | O => OutOfFuel
  | S fuel =>
      let '(res, vis, dep) := st in
      let* vis := vset vis u time in
      let* v := vget nxt u in
      let* tv := vget vis v in
      let* tu := vget vis u in
      let* du := vget dep u in
      if tv =? tu then
        let* d := vget dep v in
        let len := du - d + 1 in
        let* res := vset res u (IP u 0 u len) in Ok ((res, vis, dep), len - 1)
      else if tv <? tu then
        let* r := vget res v in
        let* res := vset res u (IP u (head_len r + 1) (loop_v r) (loop_len r)) in Ok ((res, vis, dep), 0)
      else
        let* dep := vset dep v (du + 1) in
        let* (st, c) := ip_dfs fuel nxt time v (res, vis, dep) in
        let '(res, vis, dep) := st in
        let* r := vget res v in
        if 0 <? c then let* res := vset res u (IP u 0 u (loop_len r)) in Ok ((res, vis, dep), c - 1)
        else let* res := vset res u (IP u (head_len r + 1) (loop_v r) (loop_len r)) in Ok ((res, vis, dep), 0)
  end.
(* functional_graph.hpp:150-182; time equals i *)
Definition infinite_paths (nxt : list Z) : res (list ipath) :=
  let n := zlen nxt in
  let* (res, _, _) := for_ 0 n (fun i st =>
    let '(_, vis, _) := st in
    let* t := vget vis i in
    if t =? n then let* (st, _) := ip_dfs (length nxt + 1) nxt i i st in Ok st else Ok st)
    (vrep n (IP 0 0 0 0), vrep n n, vrep n 0) in
  Ok res.

(* functional_graph.hpp:195-200 *)
Definition kth_state : Type := list Z * list (list Z) * list (list (Z * Z)).
Definition kth_prepare (nxt : list Z) (k : Z) (path : ipath) (s : kth_state) : res kth_state :=
  let '(roots, forest, qs) := s in
  let v := head_v path in
  let* (roots, forest) := (if head_len path =? 0 then Ok (roots ++ [v], forest) else
     let* p := vget nxt v in let* ch := vget forest p in let* forest := vset forest p (ch ++ [v]) in Ok (roots, forest)) in
  if k <=? head_len path then Ok (roots, forest, qs) else
  let* q := vget qs (loop_v path) in
  let* qs := vset qs (loop_v path) (q ++ [(k - head_len path, v)]) in Ok (roots, forest, qs).
(* functional_graph.hpp:202-206, the recursive lambda on the state (dfs_path, res).  Fuel: the depth of the
   forest *)
Fixpoint kth_dfs (fuel : nat) (forest : list (list Z)) (k u d : Z) (s : list Z * list Z) : res (list Z * list Z) :=
  match fuel with
  | O => OutOfFuel
  | S fuel =>
      let '(path, res) := s in
      let* path := vset path d u in
      let* res := (if k <=? d then let* x := vget path (d - k) in vset res u x else Ok res) in
      let* ch := vget forest u in
      for_each ch (fun v s => kth_dfs fuel forest k v (d + 1) s) (path, res)
  end.
(* functional_graph.hpp:211-212.  Fuel: a cycle has at most n vertices *)
Definition kth_cycle (nxt : list Z) (root : Z) : res (list Z) :=
  let* v0 := vget nxt root in
  loop (length nxt + 1) (fun '(v, cycle) => if v =? root then Ok (inr cycle) else let* w := vget nxt v in Ok (inl (w, cycle ++ [v]))) (v0, [root]).
(* functional_graph.hpp:209-221 *)
Definition kth_close (nxt : list Z) (qs : list (list (Z * Z))) (root : Z) (s : list bool * list Z) : res (list bool * list Z) :=
  let '(seen, res) := s in
  let* b := vget seen root in
  if b then Ok (seen, res) else
  let* cycle := kth_cycle nxt root in
  for_ 0 (zlen cycle) (fun i '(seen, res) =>
    let* s := vget cycle i in
    let* seen := vset seen s true in
    let* q := vget qs s in
    let* res := for_each q (fun '(rem, ix) res => let* t := i64 (i + rem) in let* x := vget cycle (t mod zlen cycle) in vset res ix x) res in
    Ok (seen, res)) (seen, res).
(* functional_graph.hpp:188-223 *)
Definition kth_iterate (nxt : list Z) (k : Z) : res (list Z) :=
  assert_ (0 <=? k) ;;;
  let n := zlen nxt in
  let* paths := infinite_paths nxt in
  let* (roots, forest, qs) := for_each paths (kth_prepare nxt k) ([], vrep n [], vrep n []) in
  let* (_, res) := for_each roots (fun root s => kth_dfs (length nxt + 1) forest k root 0 s) (vrep n 0, vrep n 0) in
  let* (_, res) := for_each roots (kth_close nxt qs) (vrep n false, res) in
  Ok res.
