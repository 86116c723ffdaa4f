(* range_query/static range_count_distinct.hpp: StaticRangeCountDistinctOffline *)
From Verif Require Import Base.
(* std::unordered_map<int, int> as the list of its assignments, newest first; reading a missing key yields 0, as operator[] does *)
Fixpoint um_get (m : list (Z * Z)) (k : Z) : Z := match m with [] => 0 | (x, v) :: m => if x =? k then v else um_get m k end.
(* atcoder::fenwick_tree<int> is not part of the repository: it is its documented contract, an array with point addition and interval sum, both with an assertion on their arguments *)
Definition ft_add (ft : list Z) (i x : Z) : res (list Z) := assert_ ((0 <=? i) && (i <? zlen ft)) ;;; let* y := vget ft i in vset ft i (y + x).
Definition ft_sum (ft : list Z) (l r : Z) : res Z :=
  assert_ ((0 <=? l) && (l <=? r) && (r <=? zlen ft)) ;;; Ok (fold_right Z.add 0 (firstn (Z.to_nat (r - l)) (skipn (Z.to_nat l) ft))).
Record rcd : Type := { rc_q : Z; rc_a : list Z; rc_qs : list (Z * Z) }. (* _q, _a, _qs; _n is the length of _a *)
(* library/range_query/static range_count_distinct.hpp:15-16, the constructor *)
Definition rc_new (a : list Z) : rcd := {| rc_q := 0; rc_a := a; rc_qs := [] |}.
(* library/range_query/static range_count_distinct.hpp:21-25, add_query *)
Definition rc_add_query (s : rcd) (l r : Z) : res (Z * rcd) :=
  assert_ ((0 <=? l) && (l <=? r) && (r <=? zlen (rc_a s))) ;;;
  Ok (rc_q s, {| rc_q := rc_q s + 1; rc_a := rc_a s; rc_qs := rc_qs s ++ [(l, r)] |}).
(* library/range_query/static range_count_distinct.hpp:27-63, solve *)
Definition rc_solve (s : rcd) : res (list Z) :=
  let a := rc_a s in let qs := rc_qs s in let q := rc_q s in let n := zlen a in
  let* r := for_ 0 n (fun i (r : list (Z * Z) * list Z) =>
    let '(last, prv) := r in
    let* x := vget a i in
    let* prv := vset prv i (um_get last x) in
    Ok ((x, i + 1) :: last, prv)) ([], vrep n 0) in
  let '(last, prv) := r in
  let* index := for_each qs (fun p index => let* c := vget index (snd p) in vset index (snd p) (c + 1)) (vrep (n + 2) 0) in
  let* index := for_ 1 (n + 1) (fun i index => let* x := vget index i in let* y := vget index (i - 1) in vset index i (x + y)) index in
  let* index := vset index (n + 1) q in
  let* r := for_ 0 q (fun qid (r : list Z * list Z) =>
    let '(index, ord) := r in
    let* p := vget qs qid in
    let* k := vget index (snd p) in
    let* index := vset index (snd p) (k - 1) in
    let* ord := vset ord (k - 1) qid in
    Ok (index, ord)) (index, vrep q 0) in
  let '(index, ord) := r in
  let* r := for_ 0 (n + 1) (fun r (s : list Z * list Z) =>
    let '(ft, ans) := s in
    let* lo := vget index r in
    let* hi := vget index (r + 1) in
    let* ans := for_ lo hi (fun i ans =>
      let* qid := vget ord i in
      let* p := vget qs qid in
      assert_ (snd p =? r) ;;;
      let* t := ft_sum ft 0 (fst p + 1) in
      vset ans qid (t - fst p)) ans in
    if r <? n then let* pv := vget prv r in let* ft := ft_add ft pv 1 in Ok (ft, ans) else Ok (ft, ans)) (vrep (n + 1) 0, vrep q 0) in
  Ok (snd r).
(* a history: queries are added one by one, their ids collected, then solve is called *)
Definition rc_run (a : list Z) (qs : list (Z * Z)) : res (list Z * list Z) :=
  let* r := for_each qs (fun p (r : list Z * rcd) => let '(ids, s) := r in let* r := rc_add_query s (fst p) (snd p) in Ok (ids ++ [fst r], snd r)) ([], rc_new a) in
  let '(ids, s) := r in
  let* ans := rc_solve s in Ok (ids, ans).
