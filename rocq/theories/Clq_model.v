(* graph/maximum_independent_set.hpp, maximum_clique.hpp and minimum_vertex_cover.hpp. *)
From Verif Require Import Base.
(* library/graph/maximum_independent_set.hpp:16: std::max_element by size: the first largest list *)
Definition argmax (g : list (list Z)) : res Z :=
  for_ 1 (zlen g) (fun i k =>
    let* a := vget g k in let* b := vget g i in
    Ok (if zlen a <? zlen b then i else k)) 0.
(* library/graph/maximum_independent_set.hpp:25-40: one breadth-first search; the state is (dq, updated, cnt[0], cnt[1], color, p) *)
Definition bfs_state : Type := list Z * list Z * Z * Z * list Z * Z.
Definition mis_bfs (g : list (list Z)) (s : bfs_state) : res (bfs_state + bfs_state) :=
  let '(dq, upd, c0, c1, color, p) := s in
  match dq with
  | [] => Ok (inr s)
  | u :: dq =>
      let* cu := vget color u in
      let c0 := if cu =? 0 then c0 + 1 else c0 in
      let c1 := if cu =? 0 then c1 else c1 + 1 in
      let* gu := vget g u in
      let* r := for_each gu (fun v (t : list Z * list Z * Z) =>
        let '(dq, color, p) := t in
        let* cv := vget color v in
        let* cu := vget color u in
        if cv <? 0 then let* color := vset color v (Z.lxor 1 cu) in Ok (dq ++ [v], color, p)
        else Ok (dq, color, if cu =? cv then u else p)) (dq, color, p) in
      let '(dq, color, p) := r in
      Ok (inl (dq, upd ++ [u], c0, c1, color, p))
  end.
(* library/graph/maximum_independent_set.hpp:18-46: graphs of maximum degree at most 2 *)
Definition mis_small (g : list (list Z)) : res (list Z) :=
  let n := zlen g in
  let* r := for_ 0 n (fun i (s : list Z * list Z) =>
    let '(mis, color) := s in
    let* ci := vget color i in
    if ci <? 0 then
      let* color := vset color i 0 in
      let* t := loop (Z.to_nat n + 2) (mis_bfs g) ([i], [], 0, 0, color, -1) in
      let '(_, upd, c0, c1, color, p) := t in
      let majority := if c0 <=? c1 then 1 else 0 in
      let* mis := for_each upd (fun u mis =>
        let* cu := vget color u in
        Ok (if (cu =? majority) && negb (u =? p) then mis ++ [u] else mis)) mis in
      Ok (mis, color)
    else Ok (mis, color)) ([], vrep n (-1)) in
  Ok (fst r).
(* library/graph/maximum_independent_set.hpp:51-73: the graph without the vertex k and the vertices rem, and the original names of its vertices; reserve with a negative size throws length_error *)
Definition mis_remove (g : list (list Z)) (k : Z) (rem : list Z) : res (list (list Z) * list Z) :=
  let n := zlen g in
  let* flg := vset (vrep n false) k true in
  let* flg := for_each rem (fun e f => vset f e true) flg in
  let* bias := for_ 0 n (fun i b => let* x := vget b i in let* f := vget flg i in vset b (i + 1) (x + if f : bool then 1 else 0)) (vrep (n + 1) 0) in
  let* decomp := for_ 0 n (fun i d => let* f := vget flg i in if f : bool then Ok d else let* x := vget bias i in vset d (i - x) i) (vrep n (-1)) in
  (if n - zlen rem - 1 <? 0 then Abort else Ok tt) ;;;
  let* h := for_ 0 n (fun i h =>
    let* f := vget flg i in
    if f : bool then Ok h else
    let* gi := vget g i in
    let* a := for_each gi (fun j a => let* f := vget flg j in if f : bool then Ok a else let* x := vget bias j in Ok (a ++ [j - x])) [] in
    Ok (h ++ [a])) [] in
  Ok (h, decomp).
(* library/graph/maximum_independent_set.hpp:12-87; every call has fewer vertices, so fuel n + 1 suffices *)
Fixpoint mis_rec (fuel : nat) (g : list (list Z)) : res (list Z) :=
  match fuel with
  | O => OutOfFuel
  | S fuel =>
      if zlen g =? 0 then Ok [] else
      let* k := argmax g in
      let* gk := vget g k in
      if zlen gk <=? 2 then mis_small g else
      for_each [[]; gk] (fun rem mis =>
        let* r := mis_remove g k rem in
        let* vs := mis_rec fuel (fst r) in
        let* vs := for_each vs (fun e l => let* x := vget (snd r) e in Ok (l ++ [x])) [] in
        let vs := if zlen rem =? 0 then vs else vs ++ [k] in
        Ok (if zlen mis <? zlen vs then vs else mis)) []
  end.
Definition maximum_independent_set (g : list (list Z)) : res (list Z) := mis_rec (length g + 1) g.
(* library/graph/maximum_clique.hpp:7-16 *)
Definition complement (g : list (list Z)) : res (list (list Z)) :=
  let n := zlen g in
  for_ 0 n (fun i h =>
    let* gi := vget g i in
    let* a := for_each gi (fun j a => vset a j true) (vrep n false) in
    let* hi := for_ 0 n (fun j l => let* b := vget a j in Ok (if b : bool then l else l ++ [j])) [] in
    Ok (h ++ [hi])) [].
Definition maximum_clique (g : list (list Z)) : res (list Z) := let* h := complement g in maximum_independent_set h.
(* library/graph/minimum_vertex_cover.hpp:7-14 *)
Definition minimum_vertex_cover (g : list (list Z)) : res (list Z) :=
  let n := zlen g in
  let* m := maximum_independent_set g in
  let* f := for_each m (fun v f => vset f v true) (vrep n false) in
  for_ 0 n (fun i l => let* b := vget f i in Ok (if b : bool then l else l ++ [i])) [].
