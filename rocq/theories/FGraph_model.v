(* FunctionalGraph: library/graph/functional_graph.hpp.  A functional graph is the vector nxt. *)
From Verif Require Import Base.

(* functional_graph.hpp:236-240: 1LL << (l + 1) leaves the range of long long at l = 62 *)
Definition fg_floor_log2 (v : Z) : res Z :=
  loop 64 (fun l => let* p := i64 (2 ^ (l + 1)) in if p <=? v then Ok (inl (l + 1)) else Ok (inr l)) 0.

Record doubling := DB { db_log : Z; db_nxt : list (list Z) }.
(* functional_graph.hpp:68-73 *)
Definition db_row (nxt : list (list Z)) (i n : Z) : res (list Z) :=
  let* prev := vget nxt (i - 1) in
  for_ 0 n (fun j row => let* a := vget prev j in let* b := vget prev a in vset row j b) (vrep n 0).
Definition db_make (nxt : list Z) (max_step : Z) : res doubling :=
  let* log := fg_floor_log2 max_step in
  let n := zlen nxt in
  let* t := vset (vrep (log + 1) (vrep n 0)) 0 nxt in
  let* t := for_ 1 (log + 1) (fun i t => let* row := db_row t i n in vset t i row) t in
  Ok (DB log t).
(* functional_graph.hpp:33-36 *)
Definition db_query (D : doubling) (u d : Z) : res Z :=
  ford_ (db_log D) (-1) (fun l u => if Z.testbit d l then let* row := vget (db_nxt D) l in vget row u else Ok u) u.
(* functional_graph.hpp:44-52; the predicate is a function of the vertex *)
Definition db_max_step (D : doubling) (u : Z) (f : Z -> bool) : res (Z * Z) :=
  assert_ (f u) ;;;
  ford_ (db_log D) (-1) (fun l '(u, step) =>
    let* row := vget (db_nxt D) l in
    let* v := vget row u in
    if f v then Ok (v, Z.lor step (2 ^ l)) else Ok (u, step)) (u, 0).
(* functional_graph.hpp:54-61 *)
Definition db_step_until (D : doubling) (u : Z) (f : Z -> bool) : res (option (Z * Z)) :=
  if f u then Ok (Some (u, 0)) else
  let* (v, step) := db_max_step D u (fun v => negb (f v)) in
  let* row := vget (db_nxt D) 0 in
  let* v := vget row v in
  if negb (f v) then Ok None else Ok (Some (v, step + 1)).

Section Sum.
  Context {T : Type}.
  Variables (op : T -> T -> T) (e : T).
  Record doubling_sum := DS { ds_db : doubling; ds_dat : list (list T) }.
  (* functional_graph.hpp:125-130 *)
  Definition ds_row (nxt : list (list Z)) (dat : list (list T)) (i n : Z) : res (list T) :=
    let* pn := vget nxt (i - 1) in
    let* pd := vget dat (i - 1) in
    for_ 0 n (fun j row => let* x := vget pd j in let* a := vget pn j in let* y := vget pd a in vset row j (op x y)) (vrep n e).
  Definition ds_make (nxt : list Z) (max_step : Z) (dat : list T) : res doubling_sum :=
    let* D := db_make nxt max_step in
    let n := zlen nxt in
    let* t := vset (vrep (db_log D + 1) (vrep n e)) 0 dat in
    let* t := for_ 1 (db_log D + 1) (fun i t => let* row := ds_row (db_nxt D) t i n in vset t i row) t in
    Ok (DS D t).
  (* functional_graph.hpp:86-90 *)
  Definition ds_query (D : doubling_sum) (u d : Z) : res (Z * T) :=
    ford_ (db_log (ds_db D)) (-1) (fun l '(u, sum) =>
      if Z.testbit d l then
        let* nrow := vget (db_nxt (ds_db D)) l in
        let* v := vget nrow u in
        let* drow := vget (ds_dat D) l in
        let* x := vget drow u in Ok (v, op sum x)
      else Ok (u, sum)) (u, e).
  (* functional_graph.hpp:99-110 *)
  Definition ds_max_step (D : doubling_sum) (u : Z) (f : T -> bool) : res (Z * T * Z) :=
    assert_ (f e) ;;;
    ford_ (db_log (ds_db D)) (-1) (fun l '(u, sum, step) =>
      let* drow := vget (ds_dat D) l in
      let* x := vget drow u in
      let nxt_sum := op sum x in
      if f nxt_sum then
        let* nrow := vget (db_nxt (ds_db D)) l in
        let* v := vget nrow u in Ok (v, nxt_sum, Z.lor step (2 ^ l))
      else Ok (u, sum, step)) (u, e, 0).
  (* functional_graph.hpp:111-118 *)
  Definition ds_step_until (D : doubling_sum) (u : Z) (f : T -> bool) : res (option (Z * T * Z)) :=
    if f e then Ok (Some (u, e, 0)) else
    let* (v, sum, step) := ds_max_step D u (fun s => negb (f s)) in
    let* drow := vget (ds_dat D) 0 in
    let* x := vget drow v in
    let sum := op sum x in
    let* nrow := vget (db_nxt (ds_db D)) 0 in
    let* v := vget nrow v in
    if negb (f sum) then Ok None else Ok (Some (v, sum, step + 1)).
End Sum.
Arguments doubling_sum T : clear implicits.
