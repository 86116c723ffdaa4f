(* C55: CartesianTree *)
From Verif Require Import Base Cartesian_model Cartesian_spec Cartesian_proof.

(* C55.  For every sequence and strict weak order the builder gives every element its parent, build() a
   tree whose root and children are leftmost minima of the intervals they stand for, and ranges()
   for every i the widest interval of which a[i] is the leftmost minimum. *)
Theorem cartesian_tree_correct :
  forall T (comp : T -> T -> bool) (a : list T), strict_weak comp ->
  exists par t rs, ct_calc_par comp a = Ok par /\ ct_build par = Ok t /\ ct_ranges t = Ok rs /\
  zlen par = zlen a /\ zlen (ct_g t) = zlen a /\ zlen rs = zlen a /\ least_of comp a 0 (zlen a) (ct_root t) /\
  forall i, 0 <= i < zlen a -> exists p l r c d,
    ct_parent par i = Ok p /\ parent_of comp a i p /\
    vget rs i = Ok (l, r) /\ dominates comp a i l r /\
    vget (ct_g t) i = Ok (c, d) /\ least_of comp a l i c /\ least_of comp a (i + 1) r d.
Proof. intros T. exact cartesian_full. Qed.
Print Assumptions cartesian_tree_correct.

(* std::less and std::greater on integers are strict weak orders *)
Example cartesian_example :
  strict_weak Z.ltb /\ strict_weak Z.gtb /\
  ct_calc_par Z.ltb [3; 1; 4; 1; 5; 9; 2] = Ok [1; -1; 3; 1; 6; 4; 3]%Z /\
  (let* p := ct_calc_par Z.ltb [3; 1; 4; 1; 5; 9; 2] in let* t := ct_build p in ct_ranges t) = Ok [(0, 1); (0, 7); (2, 3); (2, 7); (4, 6); (5, 6); (4, 7)] /\
  (let* p := ct_calc_par Z.gtb [3; 1; 4; 1; 5; 9; 2] in let* t := ct_build p in Ok (ct_root t)) = Ok 5.
Proof.
  split; [|split; [|vm_compute; auto]]; split; intros; rewrite ?Z.gtb_ltb in *; try lia.
Qed.
