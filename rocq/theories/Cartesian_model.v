(* CartesianTree: library/datastructure/cartesian_tree.hpp *)
From Verif Require Import Base.

Section Cartesian.
  Context {T : Type}.
  Variable comp : T -> T -> bool.
  (* cartesian_tree.hpp:75, the while loop on (p, l).  Fuel: p decreases *)
  Definition ct_climb (a : list T) (par : list Z) (i : Z) : res (Z * Z) :=
    loop (length a + 1) (fun '(p, l) =>
      if negb (0 <=? p) then Ok (inr (p, l)) else
      let* x := vget a i in
      let* y := vget a p in
      if comp x y then let* q := vget par p in Ok (inl (q, p)) else Ok (inr (p, l))) (i - 1, i).
  (* cartesian_tree.hpp:68-79 *)
  Definition ct_calc_par (a : list T) : res (list Z) :=
    for_ 1 (zlen a) (fun i par =>
      let* (p, l) := ct_climb a par i in
      let* par := vset par l i in
      vset par i p) (vrep (zlen a) (-1)).
End Cartesian.

(* cartesian_tree.hpp:12-19: a vector of pairs of children, -1 for an absent child, and a root *)
Record ctree := CT { ct_g : list (Z * Z); ct_root : Z }.
(* cartesian_tree.hpp:39-47; p <= i selects the right child *)
Definition ct_build (par : list Z) : res ctree :=
  let* (g, root) := for_ 0 (zlen par) (fun i '(g, root) =>
    let* p := vget par i in
    if 0 <=? p then
      let* (x, y) := vget g p in
      let* g := vset g p (if p <=? i then (x, i) else (i, y)) in Ok (g, root)
    else Ok (g, i)) (vrep (zlen par) (-1, -1), -1) in
  Ok (CT g root).
(* cartesian_tree.hpp:55-58: the argument is a size_t *)
Definition ct_parent (par : list Z) (i : Z) : res Z := assert_ (i <? zlen par) ;;; vget par i.
(* cartesian_tree.hpp:24-28, the recursive lambda.  Fuel: the depth of the tree *)
Fixpoint ct_rec (fuel : nat) (t : ctree) (l m r : Z) (out : list (Z * Z)) : res (list (Z * Z)) :=
  match fuel with
  | O => OutOfFuel
  | S fuel =>
      if m =? -1 then Ok out else
      let* (lm, rm) := vget (ct_g t) m in
      let* out := ct_rec fuel t l lm m out in
      ct_rec fuel t (m + 1) rm r (out ++ [(l, r)])
  end.
(* cartesian_tree.hpp:21-31 *)
Definition ct_ranges (t : ctree) : res (list (Z * Z)) :=
  ct_rec (length (ct_g t) + 1) t 0 (ct_root t) (zlen (ct_g t)) [].
