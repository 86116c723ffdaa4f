(* Properties C05, C06, C42. *)
From Verif Require Import Base UnionFind_model UnionFind_spec UnionFind2_model UnionFind2_spec UnionFind2_run.
From Verif Require UnionFind2_main.

(* C05: after any merges, the stored value of x's component is the combination
   of the initial values of the members of the component. *)
Theorem component_sum_correct :
  forall (T : Type) (op : T -> T -> T) vals merges x c cs h,
  (forall a b c, op a (op b c) = op (op a b) c) -> (forall a b, op a b = op b a) ->
  (forall i, 0 <= i < zlen vals -> vget vals i = Ok (h i)) ->
  Forall (fun '(u, v) => 0 <= u < zlen vals /\ 0 <= v < zlen vals) merges ->
  0 <= x < zlen vals -> component_list (zlen vals) (rev merges) x c cs ->
  exists bs s s', ufs_merges op (ufs_init vals) merges = Ok (bs, s) /\
    ufs_sumof s x = Ok (fold_left op (map h cs) (h c), s').
Proof. exact @UnionFind2_main.component_sum_. Qed.
Print Assumptions component_sum_correct.

Example component_sum_example :
  (let* (_, s) := ufs_merges Z.add (ufs_init [1; 20; 300; 4000; 50000]) [(0, 3); (4, 1); (3, 1); (0, 4)] in
   let* (a, s) := ufs_sumof s 4 in let* (b, s) := ufs_sumof s 2 in Ok (a, b)) = Ok (54021, 300).
Proof. vm_compute; reflexivity. Qed.

(* C06: every history of merge/same/diff/size over a (possibly non-commutative)
   group. *)
Theorem weighted_union_find_history :
  forall (T : Type) (op : T -> T -> T) e neg n ops, is_group op e neg -> 0 <= n ->
  Forall (wop_ok n) ops ->
  exists answers aborted, wuf_run op e neg (wuf_init e n) ops = Ok (answers, aborted) /\
    wruns op e neg n [] ops answers aborted.
Proof. exact @UnionFind2_main.weighted_union_find_. Qed.
Print Assumptions weighted_union_find_history.

(* C06: if the accepted differences come from an assignment p of values to the
   vertices, every difference along a path is the difference of the values. *)
Theorem weighted_union_find_potential :
  forall (T : Type) (op : T -> T -> T) e neg (p : Z -> T) A x y d,
  is_group op e neg -> (forall u v d, In (u, v, d) A -> d = op (neg (p u)) (p v)) ->
  dist op e neg A x y d -> d = op (neg (p x)) (p y).
Proof. exact @UnionFind2_main.weighted_union_find_potential_. Qed.
Print Assumptions weighted_union_find_potential.

Example weighted_group_example : is_group Z.add 0 Z.opp.
Proof. constructor; intros; ring. Qed.
Example weighted_union_find_example :
  wuf_run Z.add 0 Z.opp (wuf_init 0 5)
    [WMerge 0 1 5; WMerge 2 3 7; WMerge 1 3 1; WDiff 0 2; WDiff 2 1; WMerge 0 2 100; WSame 0 2; WSize 3; WDiff 0 4]
  = Ok ([WBool true; WBool true; WBool true; WVal (-1); WVal 6; WBool false; WBool true; WInt 4], true).
Proof. vm_compute; reflexivity. Qed.

(* C42 *)
Theorem lazy_union_find_history :
  forall (T F : Type) (add : T -> T -> T) neg (mapping : F -> T -> Z -> T) comp idf inv zero vals a ops,
  lazy_laws add neg mapping comp idf inv zero ->
  (forall i, 0 <= i < zlen vals -> vget vals i = Ok (a i)) ->
  Forall (lop_ok (zlen vals)) ops ->
  exists answers s, ufl_run add neg mapping comp idf inv (ufl_init idf vals) ops = Ok (answers, s) /\
    lruns add mapping (zlen vals) ([], a) ops answers.
Proof. exact @UnionFind2_main.lazy_union_find_. Qed.
Print Assumptions lazy_union_find_history.

(* range-add/range-sum: F = Z, mapping f s k = s + k*f *)
Example lazy_laws_example : lazy_laws Z.add Z.opp (fun f s k => s + k * f) Z.add 0 Z.opp 0.
Proof. constructor; intros; try split; ring. Qed.
Example lazy_union_find_example :
  (let* (rs, _) := ufl_run Z.add Z.opp (fun f s k => s + k * f) Z.add 0 Z.opp (ufl_init 0 [1; 2; 3; 4])
    [LApplyComp 0 10; LMerge 0 1; LMerge 2 3; LApplyComp 3 100; LMerge 0 3; LGetComp 1; LGetPoint 0; LGetPoint 2;
     LApplyPoint 2 5; LGetComp 0; LSetPoint 1 0; LPropagate 3; LApplyComp 1 1; LGetPoint 1; LGetComp 2; LMerge 1 2] in Ok rs)
  = Ok [LUnit; LBool true; LBool true; LUnit; LBool true; LVal 220; LVal 11; LVal 103; LUnit; LVal 225;
        LUnit; LUnit; LUnit; LVal 1; LVal 227; LBool false].
Proof. vm_compute; reflexivity. Qed.
