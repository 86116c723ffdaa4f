(* graph/cycle_detection.hpp: get_cycle_directed on an unweighted graph, whose edges are their targets.  An iterator into stk is a position, stk.end() is n. *)
From Verif Require Import Base.
Notation cst := (list Z * Z * list Z * list bool)%type. (* stk, ptr, pos, vis *)
(* library/graph/cycle_detection.hpp:63-80, the recursive lambda; Some res when it returns true.  [fuel] bounds the depth of the recursion. *)
Fixpoint cd_dfs (fuel : nat) (g : list (list Z)) (u : Z) (s : cst) : res (option (list Z) * cst) :=
  match fuel with
  | O => OutOfFuel
  | S fuel =>
      let n := zlen g in
      let '(stk, ptr, pos, vis) := s in
      let* pos := vset pos u ptr in
      let* row := vget g u in
      let* r := for_each row (fun v (r : option (list Z) * cst) =>
        let '(found, (stk, ptr, pos, vis)) := r in
        if found then Ok r else                                               (* the loop has returned *)
        let* b := vget vis v in
        if negb b then
          let* vis := vset vis v true in
          let* stk := vset stk ptr v in
          let* r := cd_dfs fuel g v (stk, ptr + 1, pos, vis) in
          let '(found, (stk, ptr, pos, vis)) := r in
          if found then Ok r else Ok (None, (stk, ptr - 1, pos, vis))
        else
          let* pv := vget pos v in
          if negb (pv =? n) then
            let* stk := vset stk ptr v in
            let* out := for_ pv (ptr + 1) (fun i out => let* x := vget stk i in Ok (out ++ [x])) [] in
            Ok (Some out, (stk, ptr + 1, pos, vis))
          else Ok (None, (stk, ptr, pos, vis))) (None, (stk, ptr, pos, vis)) in
      let '(found, (stk, ptr, pos, vis)) := r in
      if found then Ok r else
      let* pos := vset pos u n in Ok (None, (stk, ptr, pos, vis))
  end.
(* library/graph/cycle_detection.hpp:51-85 *)
Definition get_cycle_directed (g : list (list Z)) : res (option (list Z)) :=
  let n := zlen g in
  let* r := for_ 0 n (fun i (r : option (list Z) * cst) =>
    let '(found, (stk, ptr, pos, vis)) := r in
    if found then Ok r else
    let* b := vget vis i in
    if negb b then let* vis := vset vis i true in cd_dfs (length g) g i (stk, ptr, pos, vis) else Ok r)
    (None, (vrep n 0, 0, vrep n n, vrep n false)) in
  Ok (fst r).
