(* Model of library/graph/undirected_eulerian_graph.hpp. *)
From Verif Require Import Base.

(* lines 83-86 *)
Record ueu := mkUeu { u_n : Z; u_g : list (list Z); u_inv : list (list Z) }.
(* line 12 *)
Definition ueu_new (n : Z) : ueu := mkUeu n (vrep n []) (vrep n []).
(* v[i].push_back(x) *)
Definition vpush (v : list (list Z)) (i x : Z) : res (list (list Z)) := let* a := vget v i in vset v i (a ++ [x]).
(* v[i].pop_back() *)
Definition vpop (v : list (list Z)) (i : Z) : res (list (list Z)) := let* a := vget v i in match a with [] => UB | _ => vset v i (removelast a) end.
(* lines 14-21 *)
Definition ueu_add (e : ueu) (u v : Z) : res ueu :=
  let* a := vget (u_g e) u in let su := zlen a in
  let* g := vpush (u_g e) u v in
  let* a := vget g v in let sv := zlen a in
  let* g := vpush g v u in
  let* i := vpush (u_inv e) u sv in
  let* i := vpush i v su in
  Ok (mkUeu (u_n e) g i).
(* lines 37-48: used, iter, res *)
Record uc := mkUc { k_used : list (list bool); k_iter : list Z; k_res : list Z }.
(* the lambda dfs, lines 38-48; one unit of fuel per turn of its loop, whose counter is the reference iter[u] *)
Fixpoint ue_dfs (fuel : nat) (g inv : list (list Z)) (u : Z) (s : uc) : res uc :=
  match fuel with
  | O => OutOfFuel
  | S fuel =>
    let* i := vget (k_iter s) u in
    let* a := vget g u in
    if i <? zlen a then
      let* us := vget (k_used s) u in
      let* x := vget us i in
      let* s := (if (x : bool) then Ok s else
        let* v := vget a i in
        let* us := vset us i true in
        let* ud := vset (k_used s) u us in
        let* iv := vget inv u in let* j := vget iv i in
        let* us := vget ud v in let* y := vget us j in
        assert_ (negb y) ;;;
        let* us := vset us j true in
        let* ud := vset ud v us in
        ue_dfs fuel g inv v (mkUc ud (k_iter s) (k_res s))) in
      let* i := vget (k_iter s) u in
      let* it := vset (k_iter s) u (i + 1) in
      ue_dfs fuel g inv u (mkUc (k_used s) it (k_res s))
    else Ok (mkUc (k_used s) (k_iter s) (k_res s ++ [u]))
  end.
(* lines 24-31; the state is (used, edge_num), None after the early return *)
Definition ue_scan (e : ueu) : res (option (list (list bool) * Z)) :=
  for_ 0 (u_n e) (fun i st => match st with
    | None => Ok None
    | Some (used, k) =>
        let* a := vget (u_g e) i in let* used := vset used i (vrep (zlen a) false) in
        if Z.odd (zlen a) then Ok None else Ok (Some (used, k + zlen a))
    end) (Some (vrep (u_n e) [], 0)).
(* lines 23-52 *)
Definition ueu_circuit (e : ueu) (start : Z) : res (option (list Z)) :=
  let* sc := ue_scan e in
  match sc with
  | None => Ok None
  | Some (used, k) =>
    let* start := (if start <? 0 then for_ 0 (u_n e) (fun i s => let* a := vget (u_g e) i in Ok (if negb (zlen a =? 0) then i else s)) 0 else Ok start) in
    let k := k / 2 in
    let* s := ue_dfs (Z.to_nat (3 * k + 1)) (u_g e) (u_inv e) start (mkUc used (vrep (u_n e) 0) []) in
    Ok (if negb (zlen (k_res s) =? k + 1) then None else Some (k_res s))
  end.
(* lines 54-55: (s, t, invalid) *)
Definition ueu_ends (e : ueu) : res (Z * Z * Z) :=
  for_ 0 (u_n e) (fun i st => let '(s, t, inv) := st in
    let* a := vget (u_g e) i in
    Ok (if Z.odd (zlen a) then (if s <? 0 then (i, t, inv) else if t <? 0 then (s, i, inv) else (s, t, i)) else (s, t, inv))) (-1, -1, -1).
(* std::adjacent_find(res, is_st_edge) + 1 as the first position of the rotated range (lines 69-72); when nothing is
   found the iterator would be end() + 1: UB *)
Fixpoint ueu_rot (s t : Z) (done w : list Z) : res (list Z) :=
  match w with
  | x :: ((y :: _) as r) => if ((x =? s) && (y =? t)) || ((x =? t) && (y =? s)) then Ok (r ++ rev (x :: done)) else ueu_rot s t (x :: done) r
  | _ => UB
  end.
(* lines 53-74; returns the answer and the object afterwards *)
Definition ueu_trail (e : ueu) (diff : bool) : res (option (list Z) * ueu) :=
  let* (s, t, inv) := ueu_ends e in
  if negb diff && (s <? 0) && (t <? 0) && (inv <? 0) then let* r := ueu_circuit e (-1) in Ok (r, e)
  else if (s <? 0) || (t <? 0) || (0 <=? inv) then Ok (None, e) else
  let* e := ueu_add e s t in
  let* r := ueu_circuit e s in
  match r with
  | None => Ok (None, e)
  | Some w =>
    let w := removelast w in
    let* g := vpop (u_g e) s in let* i := vpop (u_inv e) s in
    let* g := vpop g t in let* i := vpop i t in
    let e := mkUeu (u_n e) g i in
    if last w (-1) =? t then Ok (Some w, e) else
    let* w := ueu_rot s t [] w in Ok (Some w, e)
  end.
Definition ueu_build (n : Z) (E : list (Z * Z)) : res ueu := for_each E (fun p e => ueu_add e (fst p) (snd p)) (ueu_new n).
