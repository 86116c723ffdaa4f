(* C36: Dijkstra *)
From Verif Require Import Base Graph_spec BFS_proof Dijkstra_model Dijkstra_proof.

(* C36.  Costs are non-negative, and a least cost plus the cost of one more edge stays below the
   largest value of Cost.  Then the constructor ends, and for every vertex t: if t cannot be reached,
   is_reachale is false and path_to aborts; otherwise operator[] is the least cost of a route from
   src to t and path_to returns a route of that cost. *)
Theorem dijkstra_shortest :
  forall inf g src, wgraph_ok g -> vertex g src -> (forall u v c, wedge g u v c -> 0 <= c) ->
  (forall u v d c, best (wedge g) src u d -> wedge g u v c -> d + c < inf) -> 0 < inf ->
  exists D, dijkstra_run inf g src = Ok D /\ forall t, vertex g t ->
    (dj_at D t = Ok inf /\ dj_is_reachable inf D t = Ok false /\ dj_is_unreachable inf D t = Ok true /\ dj_path_to inf D t = Abort /\
       forall c, ~ reach (wedge g) src t c) \/
    (exists d p, dj_at D t = Ok d /\ d < inf /\ dj_is_reachable inf D t = Ok true /\ dj_is_unreachable inf D t = Ok false /\
       best (wedge g) src t d /\ dj_path_to inf D t = Ok p /\ route (wedge g) src t p d).
Proof. exact dijkstra_ok. Qed.
Print Assumptions dijkstra_shortest.

Example dijkstra_example :
  let g := [[(1, 7); (2, 1)]; [(3, 1)]; [(1, 2); (0, 0); (2, 0)]; [(3, 5); (2, 9)]; [(0, 1)]] in
  wgraph_ok g /\ vertex g 0 /\ (forall u v c, wedge g u v c -> 0 <= c) /\
  (forall u v d c, best (wedge g) 0 u d -> wedge g u v c -> d + c < 127) /\
  dijkstra_run 127 g 0 = Ok (DJ 0 [0; 3; 1; 4; 127] [0; 2; 0; 1; 0]) /\
  dj_path_to 127 (DJ 0 [0; 3; 1; 4; 127] [0; 2; 0; 1; 0]) 3 = Ok [0; 2; 1; 3].
Proof.
  cbv zeta. set (g := [_; _; _; _; _]).
  assert (W : forall u v c, wedge g u v c -> 0 <= v < 5 /\ 0 <= c <= 9).
  { intros u v c (a & E & I). apply BaseLemmas.vget_In in E. assert (Q : forallb (forallb (fun e => (0 <=? fst e) && (fst e <? 5) && (0 <=? snd e) && (snd e <=? 9))) g = true) by reflexivity.
    rewrite forallb_forall in Q. specialize (Q a E). rewrite forallb_forall in Q. specialize (Q (v, c) I). cbn [fst snd] in Q. lia. }
  assert (H : forall u v c a, vget g u = Ok a -> In (v, c) a -> wedge g u v c) by (intros u v c a E I; exists a; auto).
  assert (R2 : reach (wedge g) 0 2 1) by (apply (reach_snoc _ 0 0 2 0 1); [apply reach_end|eapply H; [reflexivity|cbn [In]; auto]]).
  assert (R1 : reach (wedge g) 0 1 3) by (apply (reach_snoc _ 0 2 1 1 2); [auto|eapply H; [reflexivity|cbn [In]; auto]]).
  assert (R3 : reach (wedge g) 0 3 4) by (apply (reach_snoc _ 0 1 3 3 1); [auto|eapply H; [reflexivity|cbn [In]; auto]]).
  split; [intros u v c He; apply W in He; exact (proj1 He)|]. split; [unfold vertex, g, zlen; cbn; lia|]. split; [intros u v c He; apply W in He; lia|]. split; [|vm_compute; auto].
  intros u v d c (Hr & B) He. pose proof (W _ _ _ He) as Hc.
  assert (Hu : u = 0 \/ u = 1 \/ u = 2 \/ u = 3 \/ u = 4) by (destruct He as (a & E & _); apply BaseLemmas.vget_range in E; unfold g, zlen in E; cbn [length] in E; lia).
  assert (R4 : u = 4 -> False).
  { intros ->. destruct Hr as (p & R). assert (K : forall s t p c, route (wedge g) s t p c -> s <> 4 -> t <> 4).
    { clear -W. induction 1 as [s|s u t p c d He R IH]; intros N; auto. apply IH. intros ->. destruct He as (a & E & I). apply BaseLemmas.vget_In in E.
      assert (Q : forallb (forallb (fun e => negb (fst e =? 4))) g = true) by reflexivity. rewrite forallb_forall in Q. specialize (Q a E). rewrite forallb_forall in Q. specialize (Q _ I). discriminate. }
    eapply K; [exact R|lia|reflexivity]. }
  destruct Hu as [ -> | [ -> | [ -> | [ -> | -> ] ] ] ]; [| | | |destruct (R4 eq_refl)].
  - pose proof (B 0 (reach_end _ _)). lia.
  - pose proof (B _ R1). lia.
  - pose proof (B _ R2). lia.
  - pose proof (B _ R3). lia.
Qed.
