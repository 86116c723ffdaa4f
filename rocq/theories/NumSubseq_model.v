(* Model of library/dp/number_of_subsequences.hpp.
   Elements are integers; std::sort on pairs is the parameter [sort].  The result type is the
   integers (M = 0) or the integers modulo M (a modint). *)
From Verif Require Import Base.

(* number_of_subsequences.hpp:19-22, the inner loop; state: i, p, last *)
Definition ns_inner (s : list (Z * Z)) (v : Z) (st : Z * Z * list Z) : res ((Z * Z * list Z) + (Z * list Z)) :=
  let '(i, p, last) := st in
  let i := i + 1 in
  if i <? zlen s then
    let* (w, c) := vget s i in
    if w =? v then let* last := vset last c p in Ok (inl (i, c, last)) else Ok (inr (i, last))
  else Ok (inr (i, last)).
(* number_of_subsequences.hpp:18-23, the outer loop; state: i, last *)
Definition ns_outer (s : list (Z * Z)) (st : Z * list Z) : res ((Z * list Z) + list Z) :=
  let '(i, last) := st in
  if i <? zlen s then
    let* (v, p) := vget s i in
    let* st := loop (S (length s)) (ns_inner s v) (i, p, last) in
    Ok (inl st)
  else Ok (inr last).
(* number_of_subsequences.hpp:17-23 *)
Definition ns_last (s : list (Z * Z)) : res (list Z) := loop (S (length s)) (ns_outer s) (0, vrep (zlen s) (-1)).

(* arithmetic of Int *)
Definition ns_int (M x : Z) : Z := if M =? 0 then x else x mod M.
(* number_of_subsequences.hpp:27 *)
Definition ns_body (M : Z) (last : list Z) (i : Z) (sdp : list Z) : res (list Z) :=
  let* a := vget sdp (i + 1) in let* l := vget last i in let* b := vget sdp (l + 1) in
  vset sdp (i + 2) (ns_int M (ns_int M (a + a) - b)).
(* number_of_subsequences.hpp:10-29 *)
Definition number_of_nonempty_subsequences (M : Z) (sort : list (Z * Z) -> list (Z * Z)) (a : list Z) : res Z :=
  let n := zlen a in
  let* last := ns_last (sort (combine a (zrange n))) in
  let* sdp := vset (vrep (n + 2) 0) 1 (ns_int M 1) in
  let* sdp := for_ 0 n (ns_body M last) sdp in
  let* r := vget sdp (n + 1) in Ok (ns_int M (r - 1)).
