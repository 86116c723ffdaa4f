(* Model of library/algorithm/maximum_square.hpp and library/algorithm/maximum_rectangle.hpp.
   A grid is a list of rows of booleans; row r of the C++ grid is g[r].  Callbacks are modelled by
   the list of their calls in order.  int is unbounded. *)
From Verif Require Import Base.

Definition block : Type := Z * Z * Z * Z. (* (u, d, l, r) *)

(* g[i][j] *)
Definition gget (g : list (list bool)) (i j : Z) : res bool := let* row := vget g i in vget row j.

(* n == 0 ? 0 : g[0].size() *)
Definition width (g : list (list bool)) : res Z :=
  if zlen g =? 0 then Ok 0 else let* row := vget g 0 in Ok (zlen row).

(* maximum_square.hpp:20-31, one cell; state: dp, max_l, max_square *)
Definition sq_body (g : list (list bool)) (pd : list Z) (i j : Z) (st : list Z * Z * block) : res (list Z * Z * block) :=
  let '(dp, ml, ms) := st in
  let* b := gget g i j in
  if b then
    let* v := (if j =? 0 then Ok 1
               else let* a := vget dp (j - 1) in let* b := vget pd (j - 1) in let* c := vget pd j in
                    Ok (1 + Z.min (Z.min a b) c)) in
    let* dp := vset dp j v in
    if ml <? v then Ok (dp, v, (i + 1 - v, i + 1, j + 1 - v, j + 1)) else Ok (dp, ml, ms)
  else Ok st.
(* maximum_square.hpp:18-33, one row; state: pd, max_l, max_square *)
Definition sq_row (g : list (list bool)) (m i : Z) (st : list Z * Z * block) : res (list Z * Z * block) :=
  let '(pd, ml, ms) := st in
  for_ 0 m (sq_body g pd i) (vrep m 0, ml, ms).
(* maximum_square.hpp:11-35 *)
Definition maximum_square (g : list (list bool)) : res (Z * block) :=
  let* m := width g in
  let* (_, ml, ms) := for_ 0 (zlen g) (sq_row g m) (vrep m 0, 0, (0, 0, 0, 0)) in
  Ok (ml * ml, ms).

(* maximum_rectangle.hpp:21-27: pops; returns the calls, j and the stack (top first) *)
Fixpoint hist_pop (r hr j : Z) (stack : list (Z * Z)) : list (Z * Z * Z) * Z * list (Z * Z) :=
  match stack with
  | [] => ([], j, [])
  | (l, hl) :: rest =>
      if hl <? hr then ([], j, stack)
      else let '(out, j', stack') := hist_pop r hr l rest in ((l, r, hl) :: out, j', stack')
  end.
(* maximum_rectangle.hpp:18-29; state: calls so far, stack *)
Definition hist_body (h : list Z) (r : Z) (st : list (Z * Z * Z) * list (Z * Z)) : res (list (Z * Z * Z) * list (Z * Z)) :=
  let '(out, stack) := st in
  let* hr := (if r <? zlen h then vget h r else Ok 0) in
  let '(o, j, stack) := hist_pop r hr r stack in
  Ok (out ++ o, (j, hr) :: stack).
(* maximum_rectangle.hpp:10-30 *)
Definition maximal_rectangles_hist (h : list Z) : res (list (Z * Z * Z)) :=
  let* (out, _) := for_ 0 (zlen h + 1) (hist_body h) ([], []) in Ok out.

(* maximum_rectangle.hpp:41-44; state: h, cnt_zero *)
Definition rect_cell (g : list (list bool)) (i r : Z) (st : list Z * list Z) : res (list Z * list Z) :=
  let '(h, cz) := st in
  let* b := gget g i r in
  let* x := (if b then let* x := vget h r in Ok (x + 1) else Ok 0) in
  let* h := vset h r x in
  let* c := vget cz r in
  let* z := (if negb (i + 1 =? zlen g) then let* b := gget g (i + 1) r in Ok (if b then 0 else 1) else Ok 1) in
  let* cz := vset cz (r + 1) (c + z) in
  Ok (h, cz).
(* maximum_rectangle.hpp:45-49, the callback *)
Definition rect_call (i : Z) (cz : list Z) (c : Z * Z * Z) (out : list block) : res (list block) :=
  let '(l, r, h) := c in
  let* a := vget cz r in let* b := vget cz l in
  Ok (if a - b =? 0 then out else out ++ [(i - h + 1, i + 1, l, r)]).
(* maximum_rectangle.hpp:40-50, one row; state: h, cnt_zero, calls so far *)
Definition rect_row (g : list (list bool)) (m i : Z) (st : list Z * list Z * list block) : res (list Z * list Z * list block) :=
  let '(h, cz, out) := st in
  let* (h, cz) := for_ 0 m (rect_cell g i) (h, cz) in
  let* calls := maximal_rectangles_hist h in
  let* out := for_each calls (rect_call i cz) out in
  Ok (h, cz, out).
(* maximum_rectangle.hpp:34-51 *)
Definition maximal_rectangles (g : list (list bool)) : res (list block) :=
  if zlen g =? 0 then Ok [] else
  let* m := width g in
  let* (_, _, out) := for_ 0 (zlen g) (rect_row g m) (vrep m 0, vrep (m + 1) 0, []) in
  Ok out.
(* maximum_rectangle.hpp:55-69 *)
Definition maximum_rectngle (g : list (list bool)) : res (Z * block) :=
  let* calls := maximal_rectangles g in
  Ok (fold_left (fun (st : Z * block) c => let '(u, d, l, r) := c in
        let area := (d - u) * (r - l) in if fst st <? area then (area, c) else st) calls (0, (0, 0, 0, 0))).
