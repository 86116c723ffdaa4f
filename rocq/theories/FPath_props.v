(* C54: FunctionalGraph::infinite_paths and kth_iterate *)
From Verif Require Import Base FGraph_spec FPath_model FPath_spec FPath_proof.

(* C54.  For every functional graph entry u of infinite_paths describes the walk from u: the length of
   its tail, the first vertex on a cycle, and the length of that cycle. *)
Theorem infinite_paths_correct :
  forall nxt, fgraph nxt ->
  exists r, infinite_paths nxt = Ok r /\ zlen r = zlen nxt /\
  forall u, 0 <= u < zlen nxt -> exists p, vget r u = Ok p /\ describes nxt u p.
Proof. exact infinite_paths_full. Qed.
Print Assumptions infinite_paths_correct.

(* entry u of kth_iterate is the vertex reached from u after k steps; a negative k aborts *)
Theorem kth_iterate_correct :
  forall nxt k, fgraph nxt ->
  (k < 0 -> kth_iterate nxt k = Abort) /\
  (0 <= k -> k + zlen nxt <= 2 ^ 63 ->
   exists r, kth_iterate nxt k = Ok r /\ zlen r = zlen nxt /\
   forall u, 0 <= u < zlen nxt -> vget r u = follow nxt (Z.to_nat k) u).
Proof. exact kth_iterate_full. Qed.
Print Assumptions kth_iterate_correct.

(* finding: a long long k within n of 2^63 overflows *)
Theorem kth_iterate_wide_refuted :
  ~ (forall nxt k, fgraph nxt -> 0 <= k < 2 ^ 63 -> exists r, kth_iterate nxt k = Ok r).
Proof.
  intros H. destruct (H [1; 0] (2 ^ 63 - 1)) as (r & E); [|lia|vm_compute in E; discriminate].
  intros u Hu. unfold zlen in *. cbn in Hu. assert (u = 0 \/ u = 1) as [ -> | -> ] by lia; [exists 1|exists 0]; cbn; split; auto; lia.
Qed.
Print Assumptions kth_iterate_wide_refuted.

Example infinite_paths_example :
  let nxt := [1; 2; 3; 4; 2; 0; 6] in
  fgraph nxt /\ 5 + zlen nxt <= 2 ^ 63 /\
  infinite_paths nxt = Ok [IP 0 2 2 3; IP 1 1 2 3; IP 2 0 2 3; IP 3 0 3 3; IP 4 0 4 3; IP 5 3 2 3; IP 6 0 6 1] /\
  kth_iterate nxt 2 = Ok [2; 3; 4; 2; 3; 1; 6] /\
  kth_iterate nxt 1000000 = Ok [4; 2; 3; 4; 2; 3; 6].
Proof.
  cbv zeta. split; [|split; [unfold zlen; cbn; lia|vm_compute; repeat split]].
  intros u Hu. assert (Q : forallb (fun u => match vget [1; 2; 3; 4; 2; 0; 6] u with Ok v => (0 <=? v) && (v <? 7) | _ => false end) (zrange 7) = true) by reflexivity.
  rewrite forallb_forall in Q. specialize (Q u (proj2 (BaseLemmas.In_zrange _ _) Hu)). destruct (vget _ u) as [v| | |]; try discriminate. exists v. split; auto. unfold zlen. cbn [length]. lia.
Qed.
