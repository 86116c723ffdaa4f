(* C53: FunctionalGraph::Doubling and DoublingSum *)
From Verif Require Import Base Seq FGraph_model FGraph_spec FGraph_proof.

(* C53.  For every functional graph and 0 <= max_step < 2^62 the tables are built, and for every step
   count below R, the least power of two above max_step: query walks that many steps; max_step
   (which aborts if the predicate fails at the start) finds a boundary of an arbitrary predicate;
   step_until finds a step where the predicate becomes true, or reports that it is false after
   R steps. *)
Theorem doubling_correct :
  forall nxt max_step, fgraph nxt -> 0 <= max_step < 2 ^ 62 -> exists D, db_make nxt max_step = Ok D /\
  (forall u d, 0 <= u < zlen nxt -> 0 <= d < reach_of max_step -> db_query D u d = follow nxt (Z.to_nat d) u) /\
  (forall u f, 0 <= u < zlen nxt -> f u = true -> exists v step, db_max_step D u f = Ok (v, step) /\
     follow nxt (Z.to_nat step) u = Ok v /\ boundary (at_vertex nxt u f) (reach_of max_step) step) /\
  (forall u f, f u = false -> db_max_step D u f = Abort) /\
  (forall u f, 0 <= u < zlen nxt -> exists r, db_step_until D u f = Ok r /\
     match r with
     | Some (v, step) => follow nxt (Z.to_nat step) u = Ok v /\ step <= reach_of max_step /\ first_true (at_vertex nxt u f) step
     | None => ~ at_vertex nxt u f (reach_of max_step)
     end).
Proof. exact doubling_full. Qed.
Print Assumptions doubling_correct.

(* the same with the product, in walking order, of the values at the vertices left *)
Theorem doubling_sum_correct :
  forall T (op : T -> T -> T) e nxt dat max_step, is_monoid op e -> fgraph nxt -> zlen dat = zlen nxt -> 0 <= max_step < 2 ^ 62 ->
  exists D, ds_make op e nxt max_step dat = Ok D /\
  (forall u d, 0 <= u < zlen nxt -> 0 <= d < reach_of max_step ->
     exists v s, ds_query op e D u d = Ok (v, s) /\ follow nxt (Z.to_nat d) u = Ok v /\ gather op e nxt dat (Z.to_nat d) u = Ok s) /\
  (forall u f, 0 <= u < zlen nxt -> f e = true -> exists v s step, ds_max_step op e D u f = Ok (v, s, step) /\
     follow nxt (Z.to_nat step) u = Ok v /\ gather op e nxt dat (Z.to_nat step) u = Ok s /\
     boundary (at_sum op e nxt dat u f) (reach_of max_step) step) /\
  (forall u f, f e = false -> ds_max_step op e D u f = Abort) /\
  (forall u f, 0 <= u < zlen nxt -> exists r, ds_step_until op e D u f = Ok r /\
     match r with
     | Some (v, s, step) => follow nxt (Z.to_nat step) u = Ok v /\ gather op e nxt dat (Z.to_nat step) u = Ok s /\
         step <= reach_of max_step /\ first_true (at_sum op e nxt dat u f) step
     | None => ~ at_sum op e nxt dat u f (reach_of max_step)
     end).
Proof. intros T. exact doubling_sum_full. Qed.
Print Assumptions doubling_sum_correct.

(* for a predicate that changes at most once the answers are the largest and the least step count *)
Theorem boundary_is_largest :
  forall holds R step, boundary holds R step -> falls holds -> forall k, 0 <= k < R -> (holds k <-> k <= step).
Proof. exact boundary_max. Qed.
Print Assumptions boundary_is_largest.
Theorem first_true_is_least :
  forall holds step, first_true holds step -> rises holds -> forall k, 0 <= k -> (holds k <-> step <= k).
Proof. exact first_min. Qed.
Print Assumptions first_true_is_least.

(* finding: a long long max_step of 2^62 or more overflows in floor_log2 *)
Theorem doubling_wide_refuted :
  ~ (forall nxt max_step, fgraph nxt -> 0 <= max_step < 2 ^ 63 -> exists D, db_make nxt max_step = Ok D).
Proof. intros H. destruct (H [] (2 ^ 62)) as (D & E); [intros u Hu; unfold zlen in Hu; cbn in Hu; lia|lia|]. rewrite wide_make in E. discriminate. Qed.
Print Assumptions doubling_wide_refuted.

Example doubling_example :
  let nxt := [1; 2; 3; 4; 2; 0] in let dat := [10; 3; 5; 7; 1; 2] in
  fgraph nxt /\ zlen dat = zlen nxt /\ is_monoid Z.add 0 /\
  (let* D := db_make nxt 1000000 in db_query D 5 1000000) = Ok 3 /\
  (let* D := db_make nxt 6 in db_max_step D 5 (fun v => negb (v =? 4))) = Ok (3, 7) /\
  (let* D := db_make nxt 6 in db_step_until D 5 (fun v => v =? 4)) = Ok (Some (4, 8)) /\
  (let* D := db_make nxt 6 in db_step_until D 1 (fun v => v =? 0)) = Ok None /\
  (let* D := ds_make Z.add 0 nxt 6 dat in ds_query Z.add 0 D 5 3) = Ok (2, 15) /\
  (let* D := ds_make Z.add 0 nxt 6 dat in ds_max_step Z.add 0 D 5 (fun s => s <? 21)) = Ok (3, 20, 4) /\
  (let* D := ds_make Z.add 0 nxt 6 dat in ds_step_until Z.add 0 D 5 (fun s => 21 <=? s)) = Ok (Some (4, 27, 5)).
Proof.
  cbv zeta. split; [|split; [reflexivity|split; [split; intros; lia|vm_compute; repeat split]]].
  intros u Hu. assert (Q : forallb (fun u => match vget [1; 2; 3; 4; 2; 0] u with Ok v => (0 <=? v) && (v <? 6) | _ => false end) (zrange 6) = true) by reflexivity.
  rewrite forallb_forall in Q. specialize (Q u (proj2 (BaseLemmas.In_zrange _ _) Hu)). destruct (vget _ u) as [v| | |]; try discriminate. exists v. split; auto. unfold zlen. cbn [length]. lia.
Qed.
