(* BinaryHeap and IntervalHeap (datastructure/heap). *)
From Verif Require Import Base Hist Heap_model Heap_spec Heap_proof Heap_proof3.
From Coq Require Import Permutation.

(* C24.  A BinaryHeap built from any sequence and used by any history of calls answers
   like a multiset: top and pop give an element no other precedes, pop removes exactly
   that one, size counts.  pop and top of an empty heap fail an assertion.  pop of a heap
   with exactly one element is undefined behaviour (see the next theorem), and that is
   the only undefined case. *)
Theorem binary_heap_history :
  forall (T : Type) (comp : T -> T -> bool) (is_min : bool) (init : list T) (ops : list (hop T)),
    strict_weak_order comp ->
    let before := fun x y => if is_min then comp x y else comp y x in
    exists dat, construct_heap comp is_min init = Ok dat /\
      answers (bh_spec before) init ops (run (bh_step comp is_min) dat ops).
Proof. exact (fun T comp m v ops W => bh_history comp m W v ops). Qed.
Print Assumptions binary_heap_history.

Example binary_heap_example :
  strict_weak_order Z.ltb /\
  construct_heap Z.ltb false [3; 1; 4; 1; 5] = Ok [5; 3; 4; 1; 1] /\
  run (bh_step Z.ltb false) [5; 3; 4; 1; 1] [HPop; HPush 9; HPush 2; HTop; HPop; HPop; HPop; HPop; HSize; HPop; HPop]
  = ([HVal 5; HUnit; HUnit; HVal 9; HVal 9; HVal 4; HVal 3; HVal 2; HNum 2; HVal 1], UB).
Proof.
  split; [|split; reflexivity]. split; [|split]; intros; [apply Z.ltb_irrefl| |];
    rewrite ?Z.ltb_lt, ?Z.ltb_ge in *; eauto using Z.lt_trans, Z.le_trans.
Qed.

(* C24, the failing case: emptying a heap by pop is undefined behaviour for every
   element and comparator (heapify_down moves element 0 of the vector just emptied). *)
Theorem binary_heap_pop_last_refuted :
  forall (T : Type) (comp : T -> T -> bool) (is_min : bool) (x : T),
    run (bh_step comp is_min) [] [HPush x; HPop] = ([HUnit], UB).
Proof. exact (fun T comp m x => eq_refl). Qed.
Print Assumptions binary_heap_pop_last_refuted.

(* C25.  An IntervalHeap used by any history of calls from empty answers like a multiset:
   min and pop_min give an element no other precedes, max and pop_max one that precedes
   no other; pops remove exactly that element; all four on an empty heap fail an
   assertion; nothing is undefined behaviour. *)
Theorem interval_heap_history :
  forall (T : Type) (comp : T -> T -> bool) (ops : list (iop T)),
    strict_weak_order comp ->
    answers (ih_spec comp) [] ops (run (ih_step comp) [] ops).
Proof. exact (fun T comp ops W => ih_history comp W ops). Qed.
Print Assumptions interval_heap_history.

Example interval_heap_example :
  run (ih_step Z.ltb) []
    [IPush 3; IPush 1; IPush 4; IPush 1; IPush 5; IPush 9; IPush 2; IMin; IMax; IPopMin; IPopMax; IPopMin; IPopMax; ISize; IPopMax; IPopMin; IPopMax; IPopMin]
  = ([HUnit; HUnit; HUnit; HUnit; HUnit; HUnit; HUnit; HVal 1; HVal 9; HVal 1; HVal 9; HVal 1; HVal 5; HNum 3; HVal 4; HVal 2; HVal 3], Abort).
Proof. reflexivity. Qed.
