(* Model of library/graph/directed_eulerian_graph.hpp. *)
From Verif Require Import Base.

(* lines 80-83 *)
Record eul := mkEul { e_n : Z; e_g : list (list Z); e_in : list Z }.
(* line 12 *)
Definition eul_new (n : Z) : eul := mkEul n (vrep n []) (vrep n 0).
(* lines 14-17 *)
Definition eul_add (e : eul) (u v : Z) : res eul :=
  let* a := vget (e_g e) u in let* g := vset (e_g e) u (a ++ [v]) in
  let* d := vget (e_in e) v in let* i := vset (e_in e) v (d + 1) in
  Ok (mkEul (e_n e) g i).
(* lines 34-43: used, iter, res *)
Record ec := mkEc { c_used : list (list bool); c_iter : list Z; c_res : list Z }.
(* the lambda dfs; one unit of fuel per turn of its loop, whose counter is the reference iter[u] *)
Fixpoint ec_dfs (fuel : nat) (g : list (list Z)) (u : Z) (s : ec) : res ec :=
  match fuel with
  | O => OutOfFuel
  | S fuel =>
    let* i := vget (c_iter s) u in
    let* a := vget g u in
    if i <? zlen a then
      let* us := vget (c_used s) u in
      let* x := vget us i in
      let* s := (if (x : bool) then Ok s else
        let* v := vget a i in
        let* us := vset us i true in
        let* ud := vset (c_used s) u us in
        ec_dfs fuel g v (mkEc ud (c_iter s) (c_res s))) in
      let* i := vget (c_iter s) u in
      let* it := vset (c_iter s) u (i + 1) in
      ec_dfs fuel g u (mkEc (c_used s) it (c_res s))
    else Ok (mkEc (c_used s) (c_iter s) (c_res s ++ [u]))
  end.
(* lines 20-28; the state is (used, edge_num), None after the early return *)
Definition ec_scan (e : eul) : res (option (list (list bool) * Z)) :=
  for_ 0 (e_n e) (fun i st => match st with
    | None => Ok None
    | Some (used, k) =>
        let* a := vget (e_g e) i in let* used := vset used i (vrep (zlen a) false) in
        let* d := vget (e_in e) i in
        if negb (d =? zlen a) then Ok None else Ok (Some (used, k + zlen a))
    end) (Some (vrep (e_n e) [], 0)).
(* lines 19-48 *)
Definition eul_circuit (e : eul) (start : Z) : res (option (list Z)) :=
  let* sc := ec_scan e in
  match sc with
  | None => Ok None
  | Some (used, k) =>
    let* start := (if start <? 0 then for_ 0 (e_n e) (fun i s => let* d := vget (e_in e) i in Ok (if negb (d =? 0) then i else s)) 0 else Ok start) in
    let* s := ec_dfs (Z.to_nat (2 * k + 1)) (e_g e) start (mkEc used (vrep (e_n e) 0) []) in
    let r := rev (c_res s) in
    Ok (if negb (zlen r =? k + 1) then None else Some r)
  end.
(* lines 51-60: (s, t, invalid) *)
Definition eul_ends (e : eul) : res (Z * Z * Z) :=
  for_ 0 (e_n e) (fun i st => let '(s, t, inv) := st in
    let* a := vget (e_g e) i in let* d := vget (e_in e) i in
    Ok (if zlen a =? d + 1 then (if s <? 0 then (i, t, inv) else (s, t, i))
        else if zlen a =? d - 1 then (if t <? 0 then (s, i, inv) else (s, t, i))
        else if negb (zlen a =? d) then (s, t, i) else (s, t, inv))) (-1, -1, -1).
(* std::adjacent_find(res, is_ts_edge) + 1 as the first position of the rotated range (lines 72-75); when nothing is
   found the iterator would be end() + 1: UB *)
Fixpoint eul_rot (s t : Z) (done w : list Z) : res (list Z) :=
  match w with
  | x :: ((y :: _) as r) => if (x =? t) && (y =? s) then Ok (r ++ rev (x :: done)) else eul_rot s t (x :: done) r
  | _ => UB
  end.
(* lines 50-77; returns the answer and the object afterwards *)
Definition eul_trail (e : eul) (diff : bool) : res (option (list Z) * eul) :=
  let* (s, t, inv) := eul_ends e in
  if negb diff && (s <? 0) && (t <? 0) && (inv <? 0) then let* r := eul_circuit e (-1) in Ok (r, e)
  else if (s <? 0) || (t <? 0) || (0 <=? inv) then Ok (None, e) else
  let* e := eul_add e t s in
  let* r := eul_circuit e s in
  match r with
  | None => Ok (None, e)
  | Some w =>
    let w := removelast w in
    let* a := vget (e_g e) t in let* g := vset (e_g e) t (removelast a) in
    let* d := vget (e_in e) s in let* i := vset (e_in e) s (d - 1) in
    let e := mkEul (e_n e) g i in
    if last w (-1) =? t then Ok (Some w, e) else
    let* w := eul_rot s t [] w in Ok (Some w, e)
  end.
Definition eul_build (n : Z) (E : list (Z * Z)) : res eul := for_each E (fun p e => eul_add e (fst p) (snd p)) (eul_new n).
