(* C118, C119: maximum cliques and minimum vertex covers through maximum independent sets. *)
From Verif Require Import Base BaseLemmas Seq Kron_alg Clq_spec Clq_model Clq_proof.
(* on every complete graph with at least one vertex maximum_clique returns the empty set, although all the vertices form a largest clique *)
Theorem maximum_clique_complete g : 0 < zlen g -> (forall u, 0 <= u < zlen g -> exists l, vget g u = Ok l /\ forall v, In v l <-> 0 <= v < zlen g /\ v <> u) ->
  maximum_clique g = Ok [] /\ largest (clique g) (zrange (zlen g)).
Proof.
  intros Hn C. split; [now apply clique_complete|]. split; [split|].
  - split; [apply zr_nodup|]. intros v H. now apply zr_in in H.
  - intros u v U V N. apply zr_in in U, V. destruct (C u U) as (l & E & H). exists l. split; [exact E|]. apply H. auto.
  - intros t [[N V] _]. assert (K : (length t <= length (zrange (zlen g)))%nat) by (apply NoDup_incl_length; [exact N|]; intros v H; apply zr_in; auto). unfold zlen at 1 2. lia.
Qed.
Print Assumptions maximum_clique_complete.
(* so it does not return a largest clique; it can also throw (three vertices without edges) and return a clique that is too small (a path on four vertices) *)
Theorem maximum_clique_refuted : ~ (forall g, simple g -> exists r, maximum_clique g = Ok r /\ largest (clique g) r).
Proof.
  intros H. destruct (H [[1]; [0]]) as (r & E & L).
  - intros u v (l & E & I). assert (K : 0 <= u < zlen [[1]; [0]]) by (apply adj_left with v; exists l; auto). change (zlen [[1]; [0]]) with 2 in K.
    assert (u = 0 \/ u = 1) as [->| ->] by lia; cbn in E; injection E as <-; destruct I as [<-|[]]; (split; [lia|]); eexists; (split; [reflexivity|]); now left.
  - destruct (maximum_clique_complete [[1]; [0]]) as [E' [C _]]; [reflexivity| |].
    + intros u Hu. change (zlen [[1]; [0]]) with 2 in *. assert (u = 0 \/ u = 1) as [->| ->] by lia; eexists; (split; [reflexivity|]); intros v; cbn; lia.
    + rewrite E in E'. injection E' as ->. pose proof (proj2 L _ C) as K. vm_compute in K. now apply K.
Qed.
Print Assumptions maximum_clique_refuted.
Theorem maximum_clique_throws_refuted : ~ (forall g, simple g -> exists r, maximum_clique g = Ok r).
Proof.
  intros H. destruct (H [[]; []; []]) as (r & E); [|vm_compute in E; discriminate].
  intros u v (l & E & I). exfalso. unfold vget in E. destruct (u <? 0); [discriminate|]. destruct (Z.to_nat u) as [|[|[|k]]]; cbn in E; [| | |destruct k; discriminate]; injection E as <-; exact I.
Qed.
Print Assumptions maximum_clique_throws_refuted.
Example maximum_clique_path : maximum_clique [[1]; [0; 2]; [1; 3]; [2]] = Ok [0].
Proof. vm_compute. reflexivity. Qed.
(* minimum_vertex_cover is a smallest vertex cover whenever maximum_independent_set returned a largest independent set; missing: that it always does *)
Theorem minimum_vertex_cover_partial g m : simple g -> maximum_independent_set g = Ok m -> largest (independent g) m ->
  exists c, minimum_vertex_cover g = Ok c /\ smallest (cover g) c.
Proof. exact (mvc_smallest g m). Qed.
Print Assumptions minimum_vertex_cover_partial.
Example minimum_vertex_cover_example : maximum_independent_set [[1; 2; 3]; [0]; [0]; [0]] = Ok [1; 2; 3] /\ minimum_vertex_cover [[1; 2; 3]; [0]; [0]; [0]] = Ok [0].
Proof. split; vm_compute; reflexivity. Qed.
Example minimum_vertex_cover_hypothesis : largest (independent [[1; 2; 3]; [0]; [0]; [0]]) [1; 2; 3].
Proof.
  split; [split; [split|]|].
  - repeat constructor; cbn; intuition discriminate.
  - intros v H. change (zlen [[1; 2; 3]; [0]; [0]; [0]]) with 4. cbn in H. lia.
  - intros u v U V (l & E & I). cbn in U, V. destruct U as [<-|[<-|[<-|[]]]]; cbn in E; injection E as <-; cbn in I; lia.
  - intros t [[N V] I]. change (zlen [[1; 2; 3]; [0]; [0]; [0]]) with 4 in V.
    assert (K : incl t [0] \/ incl t [1; 2; 3]).
    { destruct (in_dec Z.eq_dec 0 t) as [Z0|Z0]; [left|right]; intros v Hv; pose proof (V v Hv).
      - destruct (Z.eq_dec v 0) as [->|Nv]; [now left|]. exfalso. apply (I 0 v Z0 Hv). exists [1; 2; 3]. split; [reflexivity|]. cbn. lia.
      - assert (v <> 0) by congruence. cbn. lia. }
    unfold zlen. destruct K as [K|K]; apply (NoDup_incl_length N) in K; cbn in *; lia.
Qed.
