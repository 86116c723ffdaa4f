(* C28: PersistentArray *)
From Verif Require Import Base Hist PArray_model PArray_spec Heap_spec PArray_proof PArray_proof2.

(* C28.  In every history of calls on any number of arrays over a shared node pool, with any
   branching factor, get/set/clone/size answer as if every array were a separate plain array:
   set and clone make a new array and change no existing one.  mut_set changes element i of
   its array and, in another array, at most element i. *)
Theorem persistent_array_history :
  forall (T : Type) (lg_ary : Z) (dflt : T) (ops : list (pop T)),
    0 <= lg_ary -> Forall pa_call ops ->
    answers pa_spec [] ops (run (pa_step lg_ary dflt) ([], []) ops).
Proof. exact (fun T lg d ops H F => pa_history lg d H ops F). Qed.
Print Assumptions persistent_array_history.

Example persistent_array_example :
  let ops := [PBuild [0; 10; 20; 30; 40; 50; 60]; PSet 0 5 55; PSet 1 6 66; PGet 0 5; PGet 1 5; PGet 2 5; PGet 0 6; PGet 2 6; PClone 2;
              PMut 2 5 77; PGet 1 5; PGet 0 5; PGet 3 3; PSize 3; PGet 3 7] in
  Forall pa_call ops /\
  run (pa_step 1 0) ([], []) ops
  = ([PUnit; PUnit; PUnit; PVal 50; PVal 55; PVal 55; PVal 60; PVal 66; PUnit; PVal 55; PVal 77; PVal 50; PVal 30; PNum 7], UB).
Proof. split; [repeat constructor; cbn; lia|vm_compute; reflexivity]. Qed.

(* C28, the failing case: dump does not return the contents; with the default branching factor
   it fills every position with element 0. *)
Theorem persistent_array_dump_refuted :
  forall (T : Type) (dflt x y : T), x <> y ->
    exists l, run (pa_step 4 dflt) ([], []) [PBuild [x; y]; PGet 0 1; PDump 0] = ([PUnit; PVal y; PList l], Ok tt) /\ l <> [x; y].
Proof. exact (@dump_pair). Qed.
Print Assumptions persistent_array_dump_refuted.
