(* C49: DynamicBitSet *)
From Verif Require Import Base Hist DynBitset_model DynBitset_spec DynBitset_proof4.

(* C49.  Every history of calls on a collection of bitsets answers what it would answer on the
   lists of their bits, with the same failed assertions. *)
Theorem dynamic_bitset_history :
  forall ops, snd (run ds_step [] ops) <> UB -> run db_step [] ops = run ds_step [] ops.
Proof. exact db_history. Qed.
Print Assumptions dynamic_bitset_history.

(* C49.  all() on a full bitset whose size is a multiple of 64 shifts by the width of the block. *)
Theorem dynamic_bitset_all_refuted :
  forall k, 0 < k -> run db_step [] [DNew (64 * k) true; DAll 0] = ([DUnit], UB).
Proof. exact all_history_bad. Qed.
Print Assumptions dynamic_bitset_all_refuted.

(* C49.  x[i] &= true is not the identity on the other bits. *)
Theorem dynamic_bitset_bitref_and_refuted :
  ~ forall n i j d, 0 <= i < n -> 0 <= j < n -> db_ref (ref_and true) (db_new n true) i = Ok d -> db_get d j = Ok true.
Proof. exact ref_and_bad. Qed.
Print Assumptions dynamic_bitset_bitref_and_refuted.

Example dynamic_bitset_example :
  let ops := [DNew 130 false; DAssign 0 3 true; DRangeSet 0 60 129; DCount 0; DShl 0 65; DFindFirst 0; DFindNext 0 68;
              DNew 130 true; DXor 1 0; DCount 1; DMeets 0 1; DLt 0 1; DShr 1 2; DAll 1; DResize 1 128 true; DPush 1 false; DPop 1; DSize 1;
              DNot 1; DEq 1 2; DRangeFlip 2 5 127; DRangeCount 2 5 127; DGet 2 127; DNew 3 true; DAll 3; DNone 3; DLe 3 1] in
  snd (run ds_step [] ops) = Abort /\
  run db_step [] ops = ([DUnit; DUnit; DUnit; DNum 70; DUnit; DNum 68; DNum 125; DUnit; DUnit; DNum 124; DBool false; DBool false; DUnit; DBool false;
    DUnit; DUnit; DUnit; DNum 128; DUnit; DBool false; DUnit; DNum 117; DBool true; DUnit; DBool true; DBool false], Abort).
Proof. vm_compute. split; reflexivity. Qed.
