(* longest_increasing_subsequence and variants: library/dp/longest_increasing_subsequence.hpp.
   [lt] is the comparator: std::less, less_equal, greater or greater_equal *)
From Verif Require Import Base.

Section Lis.
  Variable lt : Z -> Z -> bool.
  (* std::lower_bound(dp, x, lt): the number of leading elements y with lt(y, x).  It requires that
     lt(_, x) holds on no element after the first one where it fails *)
  Fixpoint lower_bound (dp : list Z) (x : Z) : res Z :=
    match dp with
    | [] => Ok 0
    | y :: dp => if lt y x then let* k := lower_bound dp x in Ok (1 + k) else if forallb (fun y => negb (lt y x)) dp then Ok 0 else UB
    end.
  (* longest_increasing_subsequence.hpp:16-22 *)
  Definition lis_step (a : list Z) (i : Z) (s : list Z * list Z * list Z) : res (list Z * list Z * list Z) :=
    let '(dp, pd, id) := s in
    let* x := vget a i in
    let* pos := lower_bound dp x in
    let* id := vset id pos i in
    let* pd := (if 1 <=? pos then let* j := vget id (pos - 1) in vset pd i j else Ok pd) in
    let* dp := (if pos =? zlen dp then Ok (dp ++ [x]) else vset dp pos x) in
    Ok (dp, pd, id).
  (* longest_increasing_subsequence.hpp:25.  Fuel: len decreases, and below 0 ans[--len] is
     undefined *)
  Definition back_loop (pd : list Z) (s : Z * Z * list Z) : res ((Z * Z * list Z) + list Z) :=
    let '(cur, len, ans) := s in
    if 0 <=? cur then
      let* ans := vset ans (len - 1) cur in
      let* cur := vget pd cur in
      Ok (inl (cur, len - 1, ans))
    else Ok (inr ans).
  (* longest_increasing_subsequence.hpp:9-27 *)
  Definition lis_solve (a : list Z) : res (list Z) :=
    if zlen a =? 0 then Ok [] else
    let n := zlen a in
    let* (dp, pd, id) := for_ 0 n (lis_step a) ([], vrep n (-1), vrep n (-1)) in
    let len := zlen dp in
    let* cur := vget id (len - 1) in
    loop (length dp + 1) (back_loop pd) (cur, len, vrep len 0).
End Lis.
(* longest_increasing_subsequence.hpp:29-40 *)
Definition longest_increasing_subsequence := lis_solve Z.ltb.
Definition longest_nondecreasing_subsequence := lis_solve Z.leb.
Definition longest_nonincreasing_subsequence := lis_solve Z.geb.
Definition longest_decreasing_subsequence := lis_solve Z.gtb.
