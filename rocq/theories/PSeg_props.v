(* Property C71. *)
From Verif Require Import Base Seq Hist SegTree_spec PSeg_model PSeg_spec.
From Verif Require PSeg_proof.

(* Any history of PersistentSegmentTree calls (any number of trees, sharing nodes in one pool):
   every tree, old or new, behaves as its own vector for ever. *)
Theorem persistent_segment_tree_history :
  forall (T : Type) (op : T -> T -> T) e ops,
  is_monoid op e ->
  snd (run (ps_spec op e) (true, []) ops) <> UB ->
  run (ps_step op e) (([], 0), []) ops = run (ps_spec op e) (true, []) ops.
Proof. intros T op e ops M. exact (PSeg_proof.ps_history_ op e M ops). Qed.
Print Assumptions persistent_segment_tree_history.

(* Building a tree from an empty vector (or with PersistentSegmentTree(0)) recurses for ever:
   no amount of fuel is enough. *)
Theorem persistent_segment_tree_empty_refuted :
  forall (T : Type) (op : T -> T -> T) e fuel s,
  ps_build_rec op e fuel (@nil T) s 0 (zlen (@nil T)) = OutOfFuel.
Proof. intros T op e fuel s. exact (PSeg_proof.build_empty_ op e [] fuel s). Qed.
Print Assumptions persistent_segment_tree_empty_refuted.

(* dump after clear_pool: the recycled nodes keep their old children, so that a one-element
   tree built after the clear dumps elements of the trees that were cleared. *)
Theorem persistent_segment_tree_dump_refuted :
  forall (T : Type) (op : T -> T -> T) e x y z,
  run (ps_step op e) (([], 0), []) [PsBuild [x; y]; PsClear; PsBuild [z]; PsGet 0 0; PsDump 0]
  = ([PsUnit; PsUnit; PsUnit; PsVal z; PsList [x; y]], Ok tt).
Proof. intros. reflexivity. Qed.
Print Assumptions persistent_segment_tree_dump_refuted.

Example persistent_example :
  let ops := [PsNew; PsBuild [3; 1; 4; 1; 5]; PsSet 1 2 10; PsApply 2 4 (fun x => x * 100); PsProd 1 1 4; PsProd 2 1 4; PsAll 3; PsAll 1; PsAll 0; PsGet 3 4; PsGet 1 4;
              PsMaxR 2 1 (fun s => s <=? 11); PsMinL 2 5 (fun s => s <=? 6); PsDump 3; PsDump 1; PsProd 0 0 0; PsClear; PsBuild [7; 8]; PsProd 0 0 2; PsGet 0 2] in
  run (ps_spec Z.add 0) (true, []) ops =
   ([PsUnit; PsUnit; PsUnit; PsUnit; PsVal 6; PsVal 12; PsVal 515; PsVal 14; PsVal 0; PsVal 500; PsVal 5; PsInt 3; PsInt 3; PsList [3; 1; 10; 1; 500]; PsList [3; 1; 4; 1; 5]; PsVal 0;
     PsUnit; PsUnit; PsVal 15], Abort).
Proof. vm_compute. reflexivity. Qed.
Example persistent_example_code :
  let ops := [PsNew; PsBuild [3; 1; 4; 1; 5]; PsSet 1 2 10; PsApply 2 4 (fun x => x * 100); PsProd 1 1 4; PsProd 2 1 4; PsAll 3; PsAll 1; PsAll 0; PsGet 3 4; PsGet 1 4;
              PsMaxR 2 1 (fun s => s <=? 11); PsMinL 2 5 (fun s => s <=? 6); PsDump 3; PsDump 1; PsProd 0 0 0; PsClear; PsBuild [7; 8]; PsProd 0 0 2; PsGet 0 2] in
  run (ps_step Z.add 0) (([], 0), []) ops = run (ps_spec Z.add 0) (true, []) ops.
Proof. vm_compute. reflexivity. Qed.
