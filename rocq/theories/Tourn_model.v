(* Model of library/graph/scc_tournament.hpp.  int and long long are unbounded. *)
From Verif Require Import Base.

(* the vector scc is fin ++ [cur]: its last element is the group being filled *)
Record tstate := mkT { t_fin : list (list Z); t_cur : list Z; t_rem : Z; t_num : Z; t_sum : Z }.
(* scc_tournament.hpp:11-14 *)
Definition t_bucket (in_deg : list Z) (i : Z) (b : list (list Z)) : res (list (list Z)) :=
  let* d := vget in_deg i in let* c := vget b d in vset b d (c ++ [i]).
(* scc_tournament.hpp:20-27 *)
Definition t_body (d v : Z) (s : tstate) : res tstate :=
  let cur := t_cur s ++ [v] in
  let num := t_num s + 1 in
  let sum := t_sum s + (d - t_rem s) in
  if num * (num - 1) =? 2 * sum then Ok (mkT (t_fin s ++ [cur]) [] (t_rem s + num) 0 0)
  else Ok (mkT (t_fin s) cur (t_rem s) num sum).
(* scc_tournament.hpp:19 *)
Definition t_outer (b : list (list Z)) (d : Z) (s : tstate) : res tstate := let* c := vget b d in for_each c (t_body d) s.
(* scc_tournament.hpp:8-31; pop_back() removes the last element, t_cur *)
Definition scc_tournament (in_deg : list Z) : res (list (list Z)) :=
  let n := zlen in_deg in
  let* b := for_ 0 n (t_bucket in_deg) (vrep n []) in
  let* s := for_ 0 n (t_outer b) (mkT [] [] 0 0 0) in
  Ok (t_fin s).
