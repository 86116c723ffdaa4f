(* Bridges, articulation points and 2-edge-connected components (property C79). *)
From Verif Require Import Base BaseLemmas LowLink_spec LowLink_model LowLink_proof LowLink_proof2 LowLink_proof3 LowLink_proof4 LowLink_proof5.
From Coq Require Import Sorted.

(* For every graph (self-loops and multiple edges allowed) the queries of LowLink are right.
   [seen] is the static vector shared by all objects: it is left all false by every call. *)
Theorem low_link_correct : forall n es, 0 <= n -> graph_on n es -> exists s, ll_make n es = Ok s /\
  (exists bs, ll_bridge_ids s = Ok bs /\ NoDup bs /\ forall id, In id bs <-> bridge es id) /\
  (exists ps, ll_articulation_points s = Ok ps /\ NoDup ps /\ forall u, In u ps <-> articulation n es u) /\
  (exists k, ll_conn s = Ok k /\ components (fun v => 0 <= v < n) es k) /\
  (forall id u v, joins es id u v ->
     (exists b, ll_is_bridge s u v = Ok b /\ (b = true <-> bridge es id)) /\
     (exists k, ll_conn_without_edge s u v = Ok k /\ components (fun v => 0 <= v < n) (without_edge es id) k)) /\
  (forall u seen, 0 <= u < n -> (forall b, In b seen -> b = false) ->
     (exists k seen', ll_conn_without_vertex s seen u = Ok (k, seen') /\ (forall b, In b seen' -> b = false) /\
        components (fun v => 0 <= v < n /\ v <> u) (without_vertex es u) k) /\
     (exists b seen', ll_is_articulation s seen u = Ok (b, seen') /\ (forall b, In b seen' -> b = false) /\ (b = true <-> articulation n es u))).
Proof.
  intros n es Hn Hes. destruct (make_ok n es Hn Hes) as (s & G & w & rs & X & C). exists s. split; [auto|].
  split; [eexists; apply (bridges_ok n es s G w rs C)|]. split; [eexists; apply (arts_ok n es s G w rs C)|]. split; [eexists; apply (conn_ok n es s G w rs C)|]. split.
  - intros id u v J. destruct (is_bridge_ok n es s G w rs C u v id J) as (b & X1 & X2 & X3 & X4). split; [exists b; auto|eexists; split; [exact X3|exact X4]].
  - intros u seen Vu U. split.
    + destruct (without_vertex_ok n es s G w rs C u seen Vu U) as (k & seen' & X1 & X2 & X3 & _). exists k, seen'. auto.
    + apply (is_art_ok n es s G w rs C u seen Vu U).
Qed.
Print Assumptions low_link_correct.
(* two triangles joined by an edge, a pendant double edge and a self-loop *)
Definition ex_g : list (Z * Z) := [(0, 1); (1, 2); (2, 0); (2, 3); (3, 4); (4, 5); (5, 3); (5, 6); (6, 5); (6, 6)].
Example low_link_ex : graph_on 8 ex_g /\ (let* s := ll_make 8 ex_g in let* b := ll_bridge_ids s in let* a := ll_articulation_points s in let* c := ll_conn s in let* x := ll_is_bridge s 3 2 in
   let* (k, _) := ll_conn_without_vertex s [] 5 in Ok (b, a, c, x, k)) = Ok ([3], [5; 3; 2], 2, true, 3).
Proof. split; [|reflexivity]. intros a b I. unfold ex_g in I. cbn [In] in I. repeat (destruct I as [I|I]; [injection I as <- <-; lia|]). destruct I. Qed.

(* Edges get the ids 0, 1, 2, ... in the order of the calls, and no query answers before build(). *)
Theorem low_link_edge_ids : forall n es u v, 0 <= n -> graph_on n es -> 0 <= u < n -> 0 <= v < n ->
  exists s s', for_each es (fun e s => let* (_, s) := ll_add s (fst e) (snd e) in Ok s) (ll_new n) = Ok s /\
    ll_add s u v = Ok (zlen es, s') /\ l_edges s' = es ++ [(u, v)] /\
    ll_bridge_ids s' = Abort /\ ll_articulation_points s' = Abort /\ ll_conn s' = Abort /\ (forall a b, ll_is_bridge s' a b = Abort) /\ (forall seen a, ll_is_articulation s' seen a = Abort).
Proof.
  intros n es u v Hn Hes Hu Hv. destruct (adds_ok n es Hn Hes) as (s & X & I1 & _). destruct (add_ok n es s u v I1 Hu Hv) as (s' & Y & (_ & Y2 & _) & _ & _ & Y3). exists s, s'. split; [auto|]. split; [auto|]. split; [auto|].
  unfold ll_bridge_ids, ll_articulation_points, ll_conn, ll_is_bridge, ll_is_articulation. rewrite Y3. repeat split; reflexivity.
Qed.
Print Assumptions low_link_edge_ids.

(* operator[] numbers the 2-edge-connected components 0..component_num()-1; groups() lists them and
   reduced_forest() lists, for every component, the bridges leaving it. *)
Theorem two_edge_cc_correct : forall n es, 0 <= n -> graph_on n es -> exists t k, te_make n es = Ok t /\ te_num t = Ok k /\ 0 <= k /\
  (forall v, 0 <= v < n -> exists c, te_get t v = Ok c /\ 0 <= c < k) /\
  (forall c, 0 <= c < k -> exists v, 0 <= v < n /\ te_get t v = Ok c) /\
  (forall u v, 0 <= u < n -> 0 <= v < n -> (te_get t u = te_get t v <-> two_edge_connected es u v)) /\
  (exists gs, te_groups t = Ok gs /\ zlen gs = k /\
     forall c g, vget gs c = Ok g -> StronglySorted Z.lt g /\ forall v, In v g <-> 0 <= v < n /\ te_get t v = Ok c) /\
  (exists r, te_forest t = Ok r /\ zlen r = k /\
     forall c l, vget r c = Ok l -> NoDup (map snd l) /\
       forall c' id, In (c', id) l <-> bridge es id /\ exists u v, joins es id u v /\ te_get t u = Ok c /\ te_get t v = Ok c').
Proof.
  intros n es Hn Hes. destruct (te_make_ok n es Hn Hes) as (t & s & G & w & rs & f & X & _ & C & N). pose proof N as (_ & _ & N1 & N2 & N3 & N4). exists t, (e_num t).
  pose proof (te_get_ok n es s G w rs C t f N) as TG. split; [auto|]. split; [apply (te_num_ok n es s G w rs C t f N)|]. split; [auto|]. split; [|split; [|split; [|split]]].
  - intros v Vv. exists (f v). auto.
  - intros c Hc. destruct (N3 c Hc) as (v & Vv & Fv). exists v. split; [auto|]. rewrite TG by auto. congruence.
  - intros u v Vu Vv. rewrite !TG by auto. rewrite <- N4 by auto. split; congruence.
  - apply (groups_ok n es s G w rs C t f N Hn).
  - apply (forest_ok n es s G w rs C t f N Hn).
Qed.
Print Assumptions two_edge_cc_correct.
Example two_edge_cc_ex : (let* t := te_make 8 ex_g in let* k := te_num t in let* gs := te_groups t in let* r := te_forest t in Ok (k, gs, r)) =
  Ok (3, [[0; 1; 2]; [3; 4; 5; 6]; [7]], [[(1, 3)]; [(0, 3)]; []]).
Proof. reflexivity. Qed.

(* Finding: add_edge() after build() clears the built flag, but a second build() visits nothing: the
   answers are those of the first graph. *)
Definition ll_rebuild (n : Z) (es es' : list (Z * Z)) : res ll :=
  let* s := ll_make n es in
  let* s := for_each es' (fun e s => let* (_, s) := ll_add s (fst e) (snd e) in Ok s) s in
  ll_build s.
Theorem low_link_rebuild_refuted : ~ (forall n es es', 0 <= n -> graph_on n es -> graph_on n es' ->
  exists s k, ll_rebuild n es es' = Ok s /\ ll_conn s = Ok k /\ components (fun v => 0 <= v < n) (es ++ es') k).
Proof.
  intro H. destruct (H 2 [] [(0, 1)] ltac:(lia)) as (s & k & E1 & E2 & reps & L & ND & V & AP & _). { intros a b []. } { intros a b [I|[]]. injection I as <- <-. lia. }
  vm_compute in E1. injection E1 as <-. vm_compute in E2. injection E2 as <-. destruct reps as [|r [|r' [|r2 reps]]]; try (unfold zlen in L; cbn [length] in L; lia). inversion ND as [|? ? N1 N2]; subst. apply N1. left. symmetry. apply AP; [left; auto|right; left; auto|].
  assert (K : forall x, 0 <= x < 2 -> connected ([] ++ [(0, 1)]) x 0).
  { intros x Hx. assert (x = 0 \/ x = 1) as [->| ->] by lia; [apply UnionFind_proof.connected_refl|]. apply UnionFind_proof.connected_sym, connected_edge. left. auto. }
  apply UnionFind_proof.connected_trans with 0; [apply K, V; left; auto|]. apply UnionFind_proof.connected_sym, K, V. right. left. auto.
Qed.
Print Assumptions low_link_rebuild_refuted.

(* Finding: build() of TwoEdgeConnectedComponents resets the number of components but not the numbering:
   called on an object built by the constructor it leaves component_num() = 0 and groups() out of range. *)
Theorem two_edge_cc_rebuild_refuted : exists n es t t', 0 < n /\ graph_on n es /\ te_make n es = Ok t /\ te_build t = Ok t' /\ te_num t' = Ok 0 /\ te_get t' 0 = Ok 0 /\ te_groups t' = UB.
Proof.
  exists 2, [(0, 1)]. eexists. eexists. split; [lia|]. split; [intros a b [I|[]]; injection I as <- <-; lia|]. split; [vm_compute; reflexivity|]. split; [vm_compute; reflexivity|]. repeat split; reflexivity.
Qed.
Print Assumptions two_edge_cc_rebuild_refuted.
