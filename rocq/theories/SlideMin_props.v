(* C56: sliding_window_minimum *)
From Verif Require Import Base Hist Heap_spec SlideMin_model SlideMin_spec SlideMin_proof.

(* C56.  For every sequence and every history of calls the window moves as asked (an assertion fails when
   the right end would pass n or the left end the right end), and every query answers with the leftmost /
   rightmost minimum / maximum of the window, according to the comparator chosen. *)
Theorem sliding_window_correct :
  forall a ops,
  answers (sw_spec a (left_min a)) (0, 0) ops (run (sw_step Z.gtb a) sw_init ops) /\
  answers (sw_spec a (right_min a)) (0, 0) ops (run (sw_step Z.geb a) sw_init ops) /\
  answers (sw_spec a (left_max a)) (0, 0) ops (run (sw_step Z.ltb a) sw_init ops) /\
  answers (sw_spec a (right_max a)) (0, 0) ops (run (sw_step Z.leb a) sw_init ops).
Proof. exact slide_full. Qed.
Print Assumptions sliding_window_correct.

Example sliding_window_example :
  run (sw_step Z.gtb [3; 1; 4; 1; 5]) sw_init [SRightTo 4; SArg; SProc 2 5; SArg; SQuery; SSize; SLeft; SLeft; SArg; SRight] =
    ([RUnit; RInt 1; RUnit; RInt 3; RVal 1; RInt 3; RUnit; RUnit; RInt 4], Abort) /\
  run (sw_step Z.geb [3; 1; 4; 1; 5]) sw_init [SRightTo 4; SArg; SLeftTo 4; SArg] = ([RUnit; RInt 3; RUnit], Abort) /\
  run (sw_step Z.leb [3; 1; 3; 1; 5]) sw_init [SRightTo 4; SArg; SRight; SArg] = ([RUnit; RInt 2; RUnit; RInt 4], Ok tt).
Proof. vm_compute. auto. Qed.
