(* C50: single_source_shortest_path_dag *)
From Verif Require Import Base Graph_spec BFS_proof DagSP_model DagSP_proof.

(* C50.  Weights may be negative; a least cost plus the cost of one more edge stays below the largest
   value of the cost type.  If an edge enters s, or the graph has a cycle, the call aborts.  Otherwise
   the answer holds, for every vertex t, the least cost of a route from s to t, or the largest
   value when there is none. *)
Theorem dag_shortest_path_correct :
  forall inf g s, wgraph_ok g -> vertex g s ->
  (forall u v d c, best (wedge g) s u d -> wedge g u v c -> d + c < inf) -> 0 < inf ->
  ((exists v c, wedge g v s c) /\ dag_shortest inf g s = Abort) \/
  (cyclic (map (map fst) g) /\ dag_shortest inf g s = Abort) \/
  (~ (exists v c, wedge g v s c) /\ ~ cyclic (map (map fst) g) /\
   exists res, dag_shortest inf g s = Ok res /\ zlen res = zlen g /\
     forall t, vertex g t ->
       (vget res t = Ok inf /\ forall c, ~ reach (wedge g) s t c) \/
       (exists d, vget res t = Ok d /\ d < inf /\ best (wedge g) s t d)).
Proof. exact dag_ok. Qed.
Print Assumptions dag_shortest_path_correct.

Example dag_shortest_path_example :
  let g := [[(1, 3); (2, -1)]; [(3, -9)]; [(1, 1); (3, 5)]; []; [(3, -50)]] in
  wgraph_ok g /\ vertex g 0 /\ (forall u v d c, best (wedge g) 0 u d -> wedge g u v c -> d + c < 127) /\
  dag_shortest 127 g 0 = Ok [0; 0; -1; -9; 127] /\ dag_shortest 127 g 1 = Abort /\
  dag_shortest 127 [[(1, 1)]; [(2, 1)]; [(1, 1)]] 0 = Abort.
Proof.
  cbv zeta. set (g := [_; _; _; _; _]).
  assert (W : forall u v c, wedge g u v c -> 0 <= v < 5 /\ c <= 5).
  { intros u v c (a & E & I). apply BaseLemmas.vget_In in E. assert (Q : forallb (forallb (fun e => (0 <=? fst e) && (fst e <? 5) && (snd e <=? 5))) g = true) by reflexivity.
    rewrite forallb_forall in Q. specialize (Q a E). rewrite forallb_forall in Q. specialize (Q (v, c) I). cbn [fst snd] in Q. lia. }
  assert (H : forall u v c a, vget g u = Ok a -> In (v, c) a -> wedge g u v c) by (intros u v c a E I; exists a; auto).
  split; [intros u v c He; apply W in He; exact (proj1 He)|]. split; [unfold vertex, g, zlen; cbn; lia|]. split; [|vm_compute; auto].
  intros u v d c (Hr & B) He. pose proof (W _ _ _ He) as Hc.
  assert (R2 : reach (wedge g) 0 2 (-1)) by (apply (reach_snoc _ 0 0 2 0 (-1)); [apply reach_end|eapply H; [reflexivity|cbn [In]; auto]]).
  assert (R1 : reach (wedge g) 0 1 0) by (apply (reach_snoc _ 0 2 1 (-1) 1); [auto|eapply H; [reflexivity|cbn [In]; auto]]).
  assert (R3 : reach (wedge g) 0 3 (-9)) by (apply (reach_snoc _ 0 1 3 0 (-9)); [auto|eapply H; [reflexivity|cbn [In]; auto]]).
  assert (Hu : u = 0 \/ u = 1 \/ u = 2 \/ u = 3 \/ u = 4) by (destruct He as (a & E & _); apply BaseLemmas.vget_range in E; unfold g, zlen in E; cbn [length] in E; lia).
  assert (R4 : u = 4 -> False).
  { intros ->. destruct Hr as (p & R). assert (K : forall s t p c, route (wedge g) s t p c -> s <> 4 -> t <> 4).
    { clear -W. induction 1 as [s|s u t p c d He R IH]; intros N; auto. apply IH. intros ->. destruct He as (a & E & I). apply BaseLemmas.vget_In in E.
      assert (Q : forallb (forallb (fun e => negb (fst e =? 4))) g = true) by reflexivity. rewrite forallb_forall in Q. specialize (Q a E). rewrite forallb_forall in Q. specialize (Q _ I). discriminate. }
    eapply K; [exact R|lia|reflexivity]. }
  destruct Hu as [ -> | [ -> | [ -> | [ -> | -> ] ] ] ]; [| | | |destruct (R4 eq_refl)].
  - pose proof (B 0 (reach_end _ _)). lia.
  - pose proof (B _ R1). lia.
  - pose proof (B _ R2). lia.
  - pose proof (B _ R3). lia.
Qed.
