(* graph/enumerate_triangles.hpp *)
From Verif Require Import Base.
(* library/graph/enumerate_triangles.hpp:26-30: vertices in order of degree; returns ord and idx *)
Definition tri_order (g : list (list Z)) : res (list Z * list Z) :=
  let n := zlen g in
  let* cnt := for_ 0 n (fun i cnt =>                                              (* line 27 *)
    let* row := vget g i in let* c := vget cnt (zlen row + 1) in vset cnt (zlen row + 1) (c + 1)) (vrep (n + 1) 0) in
  let* cnt := for_ 0 n (fun i cnt =>                                              (* line 28 *)
    let* a := vget cnt i in let* b := vget cnt (i + 1) in vset cnt (i + 1) (b + a)) cnt in
  let* s := for_ 0 n (fun i (s : list Z * list Z * list Z) =>                     (* line 30 *)
    let '(cnt, ord, idx) := s in
    let* row := vget g i in
    let* c := vget cnt (zlen row) in
    let* cnt := vset cnt (zlen row) (c + 1) in
    let* idx := vset idx i c in
    let* ord := vset ord c i in
    Ok (cnt, ord, idx)) (cnt, vrep n 0, vrep n 0) in
  let '(cnt, ord, idx) := s in Ok (ord, idx).
(* line 31: erase(remove_if) keeps the other elements in order *)
Definition tri_keep (idx : list Z) (i : Z) (row : list Z) : res (list Z) :=
  for_each row (fun j acc => let* a := vget idx j in let* b := vget idx i in Ok (if a <? b then acc else acc ++ [j])) [].
(* library/graph/enumerate_triangles.hpp:24-38.  The calls of fun, in order *)
Definition enumerate_triangles (g : list (list Z)) : res (list (Z * Z * Z)) :=
  let n := zlen g in
  let* oi := tri_order g in
  let '(ord, idx) := oi in
  let* g := for_ 0 n (fun i g => let* row := vget g i in let* row := tri_keep idx i row in vset g i row) g in   (* line 31 *)
  let* s := for_each ord (fun i (s : list bool * list (Z * Z * Z)) =>             (* line 33 *)
    let '(ex, out) := s in
    let* row := vget g i in
    let* ex := for_each row (fun j ex => vset ex j true) ex in                    (* line 34 *)
    let* out := for_each row (fun j out =>                                        (* line 35 *)
      let* rj := vget g j in
      for_each rj (fun k out => let* e := vget ex k in Ok (if e then out ++ [(i, j, k)] else out)) out) out in
    let* ex := for_each row (fun j ex => vset ex j false) ex in                   (* line 36 *)
    Ok (ex, out)) (vrep n false, []) in
  let '(ex, out) := s in Ok out.
