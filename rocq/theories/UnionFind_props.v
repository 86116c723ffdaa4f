(* Properties C01-C04. *)
From Verif Require Import Base UnionFind_model UnionFind_spec UnionFind_run.
From Verif Require UnionFind_main.

(* C01 and the size half of C02: every history of in-range calls returns, and
   every answer is the one determined by connectivity of the merged pairs. *)
Theorem union_find_history :
  forall n ops, 0 <= n -> Forall (uop_ok n) ops ->
  exists answers s, uf_run (uf_init n) ops = Ok (answers, s) /\ uanswers n [] ops answers.
Proof. exact UnionFind_main.union_find_history_. Qed.
Print Assumptions union_find_history.

(* C01: after any history, two vertices have the same root iff connected. *)
Theorem union_find_root_canonical :
  forall n ops x y, 0 <= n -> Forall (uop_ok n) ops -> 0 <= x < n -> 0 <= y < n ->
  exists answers s rx s' ry s'', uf_run (uf_init n) ops = Ok (answers, s) /\
    uf_root s x = Ok (rx, s') /\ uf_root s' y = Ok (ry, s'') /\
    (rx = ry <-> connected (uafters [] ops) x y).
Proof. exact UnionFind_main.union_find_root_canonical_. Qed.
Print Assumptions union_find_root_canonical.

(* C02: groups() after any history is the partition into components. *)
Theorem union_find_groups :
  forall n ops, 0 <= n -> Forall (uop_ok n) ops ->
  exists answers s gs s', uf_run (uf_init n) ops = Ok (answers, s) /\
    uf_groups s = Ok (gs, s') /\ partition_of n (uafters [] ops) gs.
Proof. exact UnionFind_main.union_find_groups_. Qed.
Print Assumptions union_find_groups.

Example union_find_example :
  exists s, uf_run (uf_init 5) [Merge 0 1; Merge 2 3; Same 0 3; Merge 1 3; Same 0 3; Size 2; Merge 0 2]
   = Ok ([OBool true; OBool true; OBool false; OBool true; OBool true; OInt 4; OBool false], s)
   /\ uf_groups s = Ok ([[0; 1; 2; 3]; [4]], s).
Proof. eexists; split; vm_compute; reflexivity. Qed.

(* C03: every history of merge/same/size/undo/snapshot/rollback behaves like
   the abstract stack of edge sets; a failing assertion happens exactly when
   undo is called with nothing to undo. *)
Theorem undo_union_find_history :
  forall n ops, 0 <= n -> Forall (vop_ok n) ops ->
  exists answers aborted, uuf_run (uuf_init n) ops = Ok (answers, aborted) /\
    vruns n ([], []) ops answers aborted.
Proof. exact UnionFind_main.undo_union_find_history_. Qed.
Print Assumptions undo_union_find_history.

(* C03: undo right after a successful merge restores the object exactly, and
   an unsuccessful merge leaves it untouched. *)
Theorem undo_union_find_exact :
  forall n merges s x y b s', 0 <= n ->
    Forall (fun '(u, v) => 0 <= u < n /\ 0 <= v < n) merges ->
    uuf_merges (uuf_init n) merges = Ok s ->
    0 <= x < n -> 0 <= y < n -> uuf_merge s x y = Ok (b, s') ->
    if b then uuf_undo s' = Ok s else s' = s.
Proof. exact UnionFind_main.undo_union_find_exact_. Qed.
Print Assumptions undo_union_find_exact.

Example undo_union_find_example :
  uuf_run (uuf_init 4) [VMerge 0 1; VMerge 1 0; VMerge 0 2; VUndo; VSame 0 2; VSize 1; VSnapshot;
                        VMerge 2 3; VMerge 0 3; VRollback; VSame 0 1; VSame 2 3; VUndo]
  = Ok ([VBool true; VBool false; VBool true; VUnit; VBool false; VInt 2; VUnit;
         VBool true; VBool true; VUnit; VBool true; VBool false], true).
Proof. vm_compute; reflexivity. Qed.

(* C04 *)
Theorem linked_union_find_component :
  forall n merges x, 0 <= n ->
    Forall (fun '(u, v) => 0 <= u < n /\ 0 <= v < n) merges -> 0 <= x < n ->
  exists bs s l, luf_merges (luf_init n) merges = Ok (bs, s) /\
    luf_component s x = Ok (x :: l) /\ NoDup (x :: l) /\
    (forall v, In v (x :: l) <-> 0 <= v < n /\ connected (rev merges) x v).
Proof. exact UnionFind_main.linked_union_find_component_. Qed.
Print Assumptions linked_union_find_component.

Example linked_union_find_example :
  (let* (_, s) := luf_merges (luf_init 6) [(0, 3); (4, 1); (3, 1); (0, 4)] in luf_component s 4)
  = Ok [4; 1; 0; 3].
Proof. vm_compute. reflexivity. Qed.
