(* C29: PersistentUnionFind *)
From Verif Require Import Base Hist PArray_model UnionFind_spec PUnionFind_model PUnionFind_proof.

(* C29, what holds: when only the newest version is used, every answer is the one determined by
   connectivity of the merged pairs. *)
Theorem persistent_union_find_newest_version :
  forall n ops, 0 <= n -> Forall (uop_ok n) ops ->
    exists m root rs, build 4 [] (vrep n (-1)) = Ok (m, root) /\
      run puf_newest (m, PA n root) ops = (rs, Ok tt) /\ uanswers n [] ops rs.
Proof. exact puf_linear. Qed.
Print Assumptions persistent_union_find_newest_version.

Example persistent_union_find_newest_example :
  let ops := [Merge 0 1; Merge 17 18; Same 0 18; Merge 1 17; Same 0 18; Size 17; Merge 0 17; Root 17] in
  Forall (uop_ok 20) ops /\
  exists m root, build 4 [] (vrep 20 (-1)) = Ok (m, root) /\
    run puf_newest (m, PA 20 root) ops = ([OBool true; OBool true; OBool false; OBool true; OBool true; OInt 4; OBool false; OInt 0], Ok tt).
Proof. split; [repeat constructor; lia|]. eexists. eexists. split; vm_compute; reflexivity. Qed.

(* C29, refuted as stated: "a query on one version never changes the answers of another".
   Versions: 0 = fresh, 1 = merge(0,1), 2 = then merge(2,3), 3 = then merge(0,2).  Asking
   version 3 for the root of 3 makes version 2 forget that 2 and 3 are connected, and claim
   that 0 and 3 are. *)
Theorem persistent_union_find_refuted :
  let history := [UNew 4; UMerge 0 0 1; UMerge 1 2 3; UMerge 2 0 2] in
  run puf_step ([], []) (history ++ [USame 2 2 3; USame 2 0 3])
    = ([UUnit; UBool true; UBool true; UBool true; UBool true; UBool false], Ok tt) /\
  run puf_step ([], []) (history ++ [URoot 3 3; USame 2 2 3; USame 2 0 3])
    = ([UUnit; UBool true; UBool true; UBool true; UInt 0; UBool false; UBool true], Ok tt).
Proof. exact (conj eq_refl eq_refl). Qed.
Print Assumptions persistent_union_find_refuted.
