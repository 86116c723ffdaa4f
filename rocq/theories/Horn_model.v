(* Model of library/algorithm/horn_sat.hpp. *)
From Verif Require Import Base Horn_spec.

(* horn_sat.hpp:62-67 *)
Record horn := mkHorn { h_n : Z; h_ans : list bool; h_cnt : list Z; h_ls : list (list Z); h_r : list (Z * bool); h_has : bool }.
(* line 13 *)
Definition horn_new (n : Z) : horn := mkHorn n (vrep n false) [] (vrep n []) [] true.
(* lines 15-21 *)
Definition horn_add (h : horn) (c : clause) : res horn :=
  let sz := zlen (h_cnt h) in
  let* ls := for_each (premises c) (fun i ls => let* row := vget ls i in vset ls i (row ++ [sz])) (h_ls h) in
  Ok (mkHorn (h_n h) (h_ans h) (h_cnt h ++ [zlen (premises c)]) ls (h_r h ++ [(concl c, positive c)]) false).
(* lines 43-45 *)
Definition fire (r : list (Z * bool)) (j : Z) (st : list Z * list (Z * bool)) : res (list Z * list (Z * bool)) :=
  let '(c, dq) := st in
  let* x := vget c j in
  let* c := vset c j (x - 1) in
  if x - 1 =? 0 then let* p := vget r j in Ok (c, dq ++ [p]) else Ok (c, dq).
(* lines 35-47: one iteration of the while loop; the result is (verdict, ans, seen) *)
Definition horn_step (h : horn) (st : list Z * list bool * list bool * list (Z * bool)) : res ((list Z * list bool * list bool * list (Z * bool)) + (bool * list bool * list bool)) :=
  let '(c, seen, ans, dq) := st in
  match dq with
  | [] => Ok (inr (true, ans, seen))
  | (i, val) :: dq =>
      assert_ (i <? h_n h) ;;;
      if i <? 0 then Ok (inr (false, ans, seen)) else
      let* s := vget seen i in
      if negb s then
        let* ans := vset ans i val in
        let* seen := vset seen i true in
        let* row := vget (h_ls h) i in
        let* (c, dq) := for_each row (fire (h_r h)) (c, dq) in
        Ok (inl (c, seen, ans, dq))
      else
        let* a := vget ans i in
        if negb (Bool.eqb val a) then Ok (inr (false, ans, seen)) else Ok (inl (c, seen, ans, dq))
  end.
(* lines 27-52 *)
Definition horn_sat (h : horn) : res (bool * horn) :=
  let m := zlen (h_r h) in
  let c := h_cnt h in
  let* dq := for_ 0 m (fun j dq => let* x := vget c j in if x =? 0 then let* p := vget (h_r h) j in Ok (dq ++ [p]) else Ok dq) [] in
  let* (b, ans, seen) := loop (length (h_r h) + 1) (horn_step h) (c, vrep (h_n h) false, h_ans h, dq) in
  if b then
    let* ans := for_ 0 (h_n h) (fun i ans => let* s := vget seen i in if negb s then vset ans i false else Ok ans) ans in
    Ok (true, mkHorn (h_n h) ans (h_cnt h) (h_ls h) (h_r h) true)
  else Ok (false, mkHorn (h_n h) ans (h_cnt h) (h_ls h) (h_r h) false).
(* lines 55-58 *)
Definition horn_answer (h : horn) : res (list bool) := assert_ (h_has h) ;;; Ok (h_ans h).

(* a history of calls: clauses added, satisfiable() asked in between *)
Inductive hop := HAdd (c : clause) | HSat.
Definition hdo (o : hop) (h : horn) : res horn :=
  match o with HAdd c => horn_add h c | HSat => let* (_, h) := horn_sat h in Ok h end.
Definition hrun (n : Z) (ops : list hop) : res horn := for_each ops hdo (horn_new n).
Definition hclauses (ops : list hop) : list clause := flat_map (fun o => match o with HAdd c => [c] | HSat => [] end) ops.
