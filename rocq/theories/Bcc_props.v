(* Property C80: biconnected components, remove_multiedges and the block-cut forest. *)
From Coq Require Import Relations Sorted.
From Verif Require Import Base BaseLemmas UnionFind_spec LowLink_spec LowLink_model Bcc_spec Bcc_model Bcc_proof4 Bcc_proof6.

(* BiconnectedComponents(n, edges), for a graph without self-loops.  [stk] is what the static vectors of the
   program hold: they come back as they were. *)
Theorem bcc_correct n E stk : 0 <= n -> graph_on n E -> no_loops E ->
  exists b k iso, bc_make n E stk = Ok (b, stk) /\ bc_edge_component_num b = Ok k /\ bc_isolated_vertices b = Ok iso /\
    bc_isolated_vertex_num b = Ok (zlen iso) /\ bc_component_num b = Ok (k + zlen iso) /\ (forall c, bc_is_isolated_component b c = true <-> k <= c) /\
    StronglySorted Z.lt iso /\ (forall v, In v iso <-> isolated n E v) /\
    (forall e, 0 <= e < zlen E -> exists c, bc_get b e = Ok c /\ 0 <= c < k) /\
    (forall c, 0 <= c < k -> exists e, bc_get b e = Ok c) /\
    (forall e e' c c', bc_get b e = Ok c -> bc_get b e' = Ok c' -> (c = c' <-> inseparable E e e')) /\
    exists r, bc_components b = Ok r /\ zlen r = k + zlen iso /\
      (forall c, 0 <= c < k -> exists vs es, vget r c = Ok (vs, es) /\ StronglySorted Z.lt es /\ (forall e, In e es <-> bc_get b e = Ok c) /\
         NoDup vs /\ forall v, In v vs <-> exists e, In e es /\ endpoint E e v) /\
      (forall j v, vget iso j = Ok v -> vget r (k + j) = Ok ([v], [])).
Proof. exact (bcc_ok n E stk). Qed.
Print Assumptions bcc_correct.
Definition bcc_ex : list (Z * Z) := [(0,1);(1,2);(2,0);(2,3);(3,4);(4,5);(5,3);(5,6);(6,5)].
Example bcc_ex_graph : graph_on 8 bcc_ex /\ no_loops bcc_ex.
Proof.
  split; [intros a b H; repeat (destruct H as [H|H]; [injection H as <- <-; lia|]); destruct H|].
  intros a H. repeat (destruct H as [H|H]; [injection H as <- Q; discriminate Q|]). destruct H.
Qed.
Example bcc_ex_run : (let* (b, s) := bc_make 8 bcc_ex [] in let* r := bc_components b in Ok (b_comp b, r, s)) =
  Ok ([3;3;3;2;1;1;1;0;0], [([5;6],[7;8]);([3;4;5],[4;5;6]);([2;3],[3]);([0;1;2],[0;1;2]);([7],[])], []).
Proof. vm_compute. reflexivity. Qed.

(* A self-loop belongs to no component, and components() then reads and writes out of range. *)
Theorem bcc_loop_refuted : exists n E b, 0 <= n /\ graph_on n E /\ bc_make n E [] = Ok (b, []) /\ bc_get b 0 = Ok (-1) /\ bc_components b = UB.
Proof.
  exists 2, [(0,0);(0,1)]. eexists. split; [lia|]. split; [intros a b H; repeat (destruct H as [H|H]; [injection H as <- <-; lia|]); destruct H|]. split; [vm_compute; reflexivity|]. split; vm_compute; reflexivity.
Qed.
Print Assumptions bcc_loop_refuted.
(* Calling build() again appends the isolated vertices a second time. *)
Theorem bcc_rebuild_refuted : exists n E b b', 0 <= n /\ graph_on n E /\ no_loops E /\ bc_make n E [] = Ok (b, []) /\ bc_component_num b = Ok 1 /\
  bc_build b [] = Ok (b', []) /\ bc_component_num b' = Ok 2 /\ bc_isolated_vertices b' = Ok [0; 0].
Proof.
  exists 1, []. eexists. eexists. split; [lia|]. split; [intros a b []|]. split; [intros a []|]. split; [vm_compute; reflexivity|]. split; [vm_compute; reflexivity|]. split; [vm_compute; reflexivity|]. split; vm_compute; reflexivity.
Qed.
Print Assumptions bcc_rebuild_refuted.

(* remove_multiedges keeps the first occurrence of every neighbour, in order. *)
Theorem remove_multiedges_correct g : (forall l v, In l g -> In v l -> 0 <= v < zlen g) ->
  remove_multiedges g = Ok (map (firsts []) g) /\ forall l, NoDup (firsts [] l) /\ forall v, In v (firsts [] l) <-> In v l.
Proof.
  intro H. split; [exact (remove_ok g H)|]. intro l. split; [apply firsts_NoDup|]. intro v. rewrite firsts_In. split; [tauto|]. intro I. split; [auto|intros []].
Qed.
Print Assumptions remove_multiedges_correct.
Example remove_ex : remove_multiedges [[2;1;2;0;1];[0;0];[]] = Ok [[2;1;0];[0];[]].
Proof. vm_compute. reflexivity. Qed.

(* BlockCutForest(bcc).  [has c v]: vertex v belongs to node c. *)
Theorem block_cut_forest_correct n E stk b k iso arts : 0 <= n -> graph_on n E -> no_loops E -> bc_make n E stk = Ok (b, stk) ->
  bc_edge_component_num b = Ok k -> bc_isolated_vertices b = Ok iso -> ll_articulation_points (b_ll b) = Ok arts ->
  let has := member E (bc_get b) k iso arts in
  let adj f c c' := exists l, bf_adj f c = Ok l /\ In c' l in
  exists f, bf_make b = Ok f /\ bf_size f = k + zlen iso + zlen arts /\
    (forall c, bf_is_articulation_point f c = true <-> k + zlen iso <= c) /\
    (forall c, bf_is_biconnected_component f c = true <-> c < k + zlen iso) /\
    (forall c, bf_is_isolated_vertex f c = true <-> k <= c < k + zlen iso) /\
    (forall c, 0 <= c < bf_size f -> exists l, bf_adj f c = Ok l /\ NoDup l /\
       forall c', In c' l <-> 0 <= c' < bf_size f /\ bf_is_articulation_point f c <> bf_is_articulation_point f c' /\ exists v, has c v /\ has c' v) /\
    (forall c, 0 <= c < bf_size f -> exists q, bf_vertex_num f c = Ok q /\ counts n (has c) q) /\
    (forall v, 0 <= v < n -> exists c, bf_component_id f v = Ok c /\ bf_is_biconnected_component f c = true /\ has c v /\
       forall c', bf_is_biconnected_component f c' = true -> has c' v -> c' = c \/ In v arts) /\
    forest (adj f) /\
    (forall u v c c', bf_component_id f u = Ok c -> bf_component_id f v = Ok c' -> (clos_refl_sym_trans Z (adj f) c c' <-> connected E u v)).
Proof. exact (block_cut_ok n E stk b k iso arts). Qed.
Print Assumptions block_cut_forest_correct.
Example block_cut_ex : (let* (b, _) := bc_make 8 bcc_ex [] in let* f := bf_make b in Ok (f_g f, f_vnum f, f_comp f)) =
  Ok ([[5];[6;5];[7;6];[7];[];[1;0];[2;1];[3;2]], [2;3;2;3;1;1;1;1], [3;3;2;1;1;0;0;4]).
Proof. vm_compute. reflexivity. Qed.
