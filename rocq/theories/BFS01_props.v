(* C51: BFS01 *)
From Verif Require Import Base Graph_spec BFS_proof BFS01_model BFS01_proof.

(* C51.  Edges cost 0 or 1 and there are at most 2^31 - 1 vertices.  The constructor ends, and for
   every vertex t: if no source reaches t, operator[] is INF and is_reachable false; otherwise
   operator[] is the cost of a route from one source to t, and no route from any source costs
   less. *)
Theorem bfs01_shortest :
  forall g src, wgraph_ok g -> (forall u v c, wedge g u v c -> c = 0 \/ c = 1) ->
  (forall s, In s src -> vertex g s) -> zlen g <= bfs01_inf ->
  exists dist, bfs01_run g src = Ok dist /\ forall t, vertex g t ->
    (bfs01_at dist t = Ok bfs01_inf /\ bfs01_is_reachable dist t = Ok false /\ bfs01_is_unreachable dist t = Ok true /\
       forall s c, In s src -> ~ reach (wedge g) s t c) \/
    (exists s d, bfs01_at dist t = Ok d /\ d < bfs01_inf /\ bfs01_is_reachable dist t = Ok true /\ bfs01_is_unreachable dist t = Ok false /\
       In s src /\ reach (wedge g) s t d /\ forall s' d', In s' src -> reach (wedge g) s' t d' -> d <= d').
Proof. exact bfs01_ok. Qed.
Print Assumptions bfs01_shortest.

Example bfs01_example :
  let g := [[(1, 1); (2, 1)]; [(2, 0); (0, 0)]; [(3, 1); (2, 1)]; [(1, 0)]; [(0, 0)]; [(3, 0)]] in
  wgraph_ok g /\ (forall u v c, wedge g u v c -> c = 0 \/ c = 1) /\ (forall s, In s [0; 5] -> vertex g s) /\ zlen g <= bfs01_inf /\
  bfs01_run g [0; 5] = Ok [0; 0; 0; 0; bfs01_inf; 0] /\ bfs01_run g [0] = Ok [0; 1; 1; 2; bfs01_inf; bfs01_inf].
Proof.
  cbv zeta. set (g := [_; _; _; _; _; _]).
  assert (W : forall u v c, wedge g u v c -> 0 <= v < 6 /\ (c = 0 \/ c = 1)).
  { intros u v c (a & E & I). apply BaseLemmas.vget_In in E. assert (Q : forallb (forallb (fun e => (0 <=? fst e) && (fst e <? 6) && ((snd e =? 0) || (snd e =? 1)))) g = true) by reflexivity.
    rewrite forallb_forall in Q. specialize (Q a E). rewrite forallb_forall in Q. specialize (Q (v, c) I). cbn [fst snd] in Q. lia. }
  split; [intros u v c He; apply (W _ _ _ He)|]. split; [intros u v c He; apply (W _ _ _ He)|]. split; [intros s [<-|[<-|[]]]; unfold vertex, g, zlen; cbn [length]; lia|].
  split; [unfold g, zlen; vm_compute; discriminate|]. vm_compute. auto.
Qed.
