(* C52: bipartite_coloring *)
From Verif Require Import Base Graph_spec Bipartite_model Bipartite_proof.

(* C52.  For every undirected multigraph and two distinct colours: either the answer gives every vertex
   one of the two colours and no edge joins equal colours, or it is nullopt and no 2-colouring
   exists. *)
Theorem bipartite_coloring_correct :
  forall g col0 col1, graph_ok g -> (forall u v, edge g u v -> edge g v u) -> col0 <> col1 ->
  exists r, bipartite_coloring g col0 col1 = Ok r /\
    match r with
    | Some color => zlen color = zlen g /\ (forall v, vertex g v -> vget color v = Ok col0 \/ vget color v = Ok col1) /\
        (forall u v, edge g u v -> vget color u <> vget color v)
    | None => ~ exists side : Z -> bool, forall u v, edge g u v -> side u <> side v
    end.
Proof. exact bip_ok. Qed.
Print Assumptions bipartite_coloring_correct.

Example bipartite_coloring_example :
  let g := [[3; 4; 3]; [2]; [1]; [0; 0]; [0]; []] in let h := [[1; 2]; [0; 2]; [0; 1]] in
  graph_ok g /\ (forall u v, edge g u v -> edge g v u) /\ graph_ok h /\ (forall u v, edge h u v -> edge h v u) /\
  bipartite_coloring g 2 3 = Ok (Some [2; 2; 3; 3; 3; 2]) /\ bipartite_coloring h 0 1 = Ok None.
Proof.
  assert (K : forall g : list (list Z), forallb (fun i => forallb (fun v => (0 <=? v) && (v <? zlen g) && match vget g v with Ok a => existsb (Z.eqb i) a | _ => false end) (nth (Z.to_nat i) g [])) (zrange (zlen g)) = true ->
    graph_ok g /\ forall u v, edge g u v -> edge g v u).
  { intros g Q. rewrite forallb_forall in Q. assert (R : forall u v, edge g u v -> 0 <= v < zlen g /\ edge g v u); [|split; intros u v He; apply (R u v He)]. intros u v (a & E & I). pose proof (BaseLemmas.vget_range _ _ _ E) as Hu.
    specialize (Q u (proj2 (BaseLemmas.In_zrange _ _) Hu)). rewrite (BaseLemmas.vget_nth [] _ _ Hu) in E. injection E as E. rewrite E, forallb_forall in Q. specialize (Q v I). destruct (vget g v) as [b| | |] eqn:Eb; try lia.
    apply andb_prop in Q as (Q & X). split; [lia|]. apply existsb_exists in X as (y & Iy & Ey). apply Z.eqb_eq in Ey. subst y. exists b. auto. }
  cbv zeta. destruct (K [[3; 4; 3]; [2]; [1]; [0; 0]; [0]; []] eq_refl). destruct (K [[1; 2]; [0; 2]; [0; 1]] eq_refl). repeat (split; [assumption|]). split; vm_compute; reflexivity.
Qed.
