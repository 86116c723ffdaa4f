(* tree/find_centroid.hpp *)
From Verif Require Import Base.
Record cst := CS { c_cur : Z; c_res : list Z; c_is : list bool; c_eid : list Z; c_par : list Z; c_sub : list Z }.
(* library/tree/find_centroid.hpp:15-31, one round of the loop; the answer when the loop ends is res *)
Definition fc_step (g : list (list Z)) (s : cst) : res (cst + list Z) :=
  let n := zlen g in
  let '(CS cur rs isc eid par sub) := s in
  if cur <? 0 then Ok (inr rs) else                                              (* line 15 *)
  let* e := vget eid cur in
  let* row := vget g cur in
  let* p := vget par cur in
  if e =? zlen row then                                                          (* line 16 *)
    let* sc := vget sub cur in
    let* r := (if p >=? 0 then                                                   (* lines 17-20 *)
      let* sp := vget sub p in
      let* sub := vset sub p (sp + sc) in
      let* ip := vget isc p in
      let* isc := vset isc p (ip && (2 * sc <=? n)) in
      Ok (isc, sub) else Ok (isc, sub)) in
    let '(isc, sub) := r in
    let* ic := vget isc cur in
    let* sc := vget sub cur in
    let rs := if ic && (2 * sc >=? n) then rs ++ [cur] else rs in                (* lines 21-23 *)
    Ok (inl (CS p rs isc eid par sub))                                           (* line 24 *)
  else
    let* nxt := vget row e in                                                    (* line 26 *)
    let* eid := vset eid cur (e + 1) in
    if nxt =? p then Ok (inl (CS cur rs isc eid par sub)) else                   (* line 27 *)
    let* par := vset par nxt cur in
    Ok (inl (CS nxt rs isc eid par sub)).                                        (* lines 28-29 *)
(* library/tree/find_centroid.hpp:10-34.  find_centroids(g); the bound on the rounds of the loop is never reached (theorem) *)
Definition find_centroids (g : list (list Z)) : res (list Z) :=
  let n := zlen g in
  let* rs := loop (S (length (concat g) + length g)) (fc_step g) (CS 0 [] (vrep n true) (vrep n 0) (vrep n (-1)) (vrep n 1)) in
  if (zlen rs =? 1) || (zlen rs =? 2) then Ok rs else Abort.                     (* line 33: assert *)
