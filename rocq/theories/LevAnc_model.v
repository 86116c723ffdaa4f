(* tree/level_ancestor.hpp and tree/get_path.hpp *)
From Verif Require Import Base.

(* library/tree/get_path.hpp:9-15, the recursive lambda: the flag it returns and res.  [fuel] bounds the depth of the recursion;
   the search gives up with OutOfFuel, which the theorem excludes. *)
Fixpoint gp_dfs (fuel : nat) (g : list (list Z)) (v cur par : Z) (res : list Z) : Base.res (bool * list Z) :=
  match fuel with
  | O => OutOfFuel
  | S fuel =>
      let res := res ++ [cur] in                                                    (* line 10 *)
      if cur =? v then Ok (true, res) else                                          (* line 11 *)
      let* row := vget g cur in
      let* r := for_each row (fun nxt s => let '(found, res) := s in                (* line 12: once found, the loop has returned *)
        if (found : bool) then Ok s else if nxt =? par then Ok s else gp_dfs fuel g v nxt cur res) (false, res) in
      let '(found, res) := r in
      if (found : bool) then Ok (true, res) else Ok (false, removelast res)         (* lines 13-14: pop_back *)
  end.
(* library/tree/get_path.hpp:7-18.  get_tree_path(g, u, v) *)
Definition get_tree_path (g : list (list Z)) (u v : Z) : res (list Z) :=
  let* r := gp_dfs (length g) g v u (-1) [] in Ok (snd r).

(* library/tree/level_ancestor.hpp:32-37.  LevelAncestor; _n is the length of each vector and is not used after the construction *)
Record la := LA { la_vt : list Z; la_vti : list Z; la_dep : list Z; la_cnt : list Z; la_bkt : list Z }.
Definition la_st : Type := (list Z * list Z * list Z * list Z * Z)%type. (* _visit_time, _visit_time_inv, _depth, _count, time *)
(* library/tree/level_ancestor.hpp:41-50, the recursive lambda *)
Fixpoint la_dfs (fuel : nat) (g : list (list Z)) (u p : Z) (s : la_st) : res la_st :=
  match fuel with
  | O => OutOfFuel
  | S fuel =>
      let '(vt, vti, dep, cnt, time) := s in
      let* vt := vset vt u time in
      let* vti := vset vti time u in
      let* du := vget dep u in
      let* c := vget cnt (du + 1) in
      let* cnt := vset cnt (du + 1) (c + 1) in
      let* row := vget g u in
      for_each row (fun v s => if v =? p then Ok s else
        let '(vt, vti, dep, cnt, time) := s in
        let* du := vget dep u in
        let* dep := vset dep v (du + 1) in
        la_dfs fuel g v u (vt, vti, dep, cnt, time)) (vt, vti, dep, cnt, time + 1)
  end.
(* library/tree/level_ancestor.hpp:10-13, 39-56.  LevelAncestor(g, root) *)
Definition la_new (g : list (list Z)) (root : Z) : res la :=
  let n := zlen g in
  let* s := la_dfs (length g) g root (-1) (vrep n 0, vrep n 0, vrep n 0, vrep (n + 1) 0, 0) in
  let '(vt, vti, dep, cnt, _) := s in
  let* cnt := for_ 0 n (fun i cnt => let* a := vget cnt (i + 1) in let* b := vget cnt i in vset cnt (i + 1) (a + b)) cnt in (* line 53 *)
  let* r := for_each vti (fun v (s : list Z * list Z) => let '(index, bkt) := s in (* lines 54-55 *)
    let* d := vget dep v in
    let* k := vget index d in
    let* t := vget vt v in
    let* bkt := vset bkt k t in
    let* index := vset index d (k + 1) in
    Ok (index, bkt)) (cnt, vrep n 0) in
  let '(_, bkt) := r in
  Ok (LA vt vti dep cnt bkt).
(* std::upper_bound on the positions l .. r-1 of a vector: the first one holding more than x, or r.
   As in the standard, the range has to be partitioned (everything up to x first); otherwise it is undefined behaviour. *)
Definition ub_range (v : list Z) (l r x : Z) : res Z :=
  for_ l r (fun p acc => let* y := vget v p in
    if y <=? x then (if acc =? p then Ok (acc + 1) else UB) else Ok acc) l.
(* library/tree/level_ancestor.hpp:15-22 (and operator() of lines 24-26).  query(u, k) *)
Definition la_query (a : la) (u k : Z) : res Z :=
  if k <? 0 then Ok (-1) else
  let* du := vget (la_dep a) u in
  if k >? du then Ok (-1) else
  let d := du - k in
  let* l := vget (la_cnt a) d in
  let* r := vget (la_cnt a) (d + 1) in
  let* t := vget (la_vt a) u in
  let* p := ub_range (la_bkt a) l r t in
  let* tv := vget (la_bkt a) (p - 1) in
  vget (la_vti a) tv.
(* library/tree/level_ancestor.hpp:28-31.  get_visit_time, get_visit_time_inv (and get_kth_visited), get_depth *)
Definition la_visit_time (a : la) (u : Z) : res Z := vget (la_vt a) u.
Definition la_kth_visited (a : la) (k : Z) : res Z := vget (la_vti a) k.
Definition la_depth (a : la) (u : Z) : res Z := vget (la_dep a) u.
