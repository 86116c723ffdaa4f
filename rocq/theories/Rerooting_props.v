(* C60: rerooting *)
From Verif Require Import Base BaseLemmas ListZ Seq Graph_spec Tree_spec Rerooting_model Rerooting_spec Rerooting_proof2 Rerooting_proof3.

(* the object holds the vertices and the edges given, and rejects an edge that leaves the vertices *)
Theorem rerooting_add_edge {VW W} (r : rerooting VW W) u v w : 
  (0 <= u < zlen (rr_w r) -> 0 <= v < zlen (rr_w r) -> rr_add_edge u v w r = Ok (RR (rr_w r) (rr_e r ++ [(u, v, w)]))) /\
  (~ (0 <= u < zlen (rr_w r) /\ 0 <= v < zlen (rr_w r)) -> rr_add_edge u v w r = Abort).
Proof.
  unfold rr_add_edge, assert_. split.
  - intros. rewrite (proj2 (Z.leb_le 0 u)), (proj2 (Z.ltb_lt u _)), (proj2 (Z.leb_le 0 v)), (proj2 (Z.ltb_lt v _)) by lia. reflexivity.
  - intros H. destruct ((0 <=? u) && (u <? zlen (rr_w r))) eqn:A; auto. destruct ((0 <=? v) && (v <? zlen (rr_w r))) eqn:B; auto. lia.
Qed.
Print Assumptions rerooting_add_edge.
(* run_dp returns, for every vertex r, add_root of the product of the branches of r *)
Theorem rerooting_run {VW W DP} (op : DP -> DP -> DP) (e : DP) (asr : DP -> VW -> W -> DP) (ar : DP -> VW -> DP) (w0 : W) ws es :
  is_monoid op e -> (forall x y, op x y = op y x) ->
  (forall u v w, In (u, v, w) es -> 0 <= u < zlen ws /\ 0 <= v < zlen ws) -> edge_tree (zlen ws) es ->
  exists dp, rr_run_dp op e asr ar w0 (RR ws es) = Ok dp /\ zlen dp = zlen ws /\
    forall r, 0 <= r < zlen ws -> exists x wr, below op e asr (nbrs es) ws r (-1) x /\ vget ws r = Ok wr /\ vget dp r = Ok (ar x wr).
Proof. exact (fun M C => run_dp_ok op e asr ar w0 M C ws es). Qed.
Print Assumptions rerooting_run.
(* the rooted DP has one value *)
Theorem rerooting_rooted_dp_unique {VW W DP} (op : DP -> DP -> DP) (e : DP) (asr : DP -> VW -> W -> DP) nb (ws : list VW) u p x y :
  below op e asr nb ws u p x -> below op e asr nb ws u p y -> x = y.
Proof. exact (fun A B => below_fun op e asr ws nb u p x A y B). Qed.
Print Assumptions rerooting_rooted_dp_unique.
(* without vertices run_dp reads outside its arrays *)
Theorem rerooting_empty_refuted {VW W DP} (op : DP -> DP -> DP) (e : DP) (asr : DP -> VW -> W -> DP) (ar : DP -> VW -> DP) (w0 : W) :
  rr_run_dp op e asr ar w0 (rr_new []) = UB.
Proof. reflexivity. Qed.
Print Assumptions rerooting_empty_refuted.

(* the tree 0 -(5)- 1, 1 -(7)- 2, 1 -(1)- 3: the greatest distances *)
Definition ex_es : list (cedge Z) := [(0, 1, 5); (1, 2, 7); (3, 1, 1)].
Example rerooting_example : edge_tree 4 ex_es /\
  rr_run_dp Z.max 0 (fun x (_ : Z) w => x + w) (fun x _ => x) 0 (RR [0; 0; 0; 0] ex_es) = Ok [12; 7; 12; 8] /\
  rr_run_dp Z.add 0 (fun x v (_ : Z) => x + v) (fun x v => x + v) 0 (RR [1; 2; 3; 4] ex_es) = Ok [10; 10; 10; 10].
Proof.
  split; [|split; reflexivity]. change (tree [[1]; [0; 2; 3]; [1]; [1]]).
  assert (E : forall u v, edge [[1]; [0; 2; 3]; [1]; [1]] u v <-> (u = 0 /\ v = 1) \/ (u = 1 /\ (v = 0 \/ v = 2 \/ v = 3)) \/ (u = 2 /\ v = 1) \/ (u = 3 /\ v = 1)).
  { intros u v. unfold edge. split.
    - intros (l & El & I). pose proof (vget_range _ _ _ El) as Ru. change (zlen [[1]; [0; 2; 3]; [1]; [1]]) with 4 in Ru. assert (K : u = 0 \/ u = 1 \/ u = 2 \/ u = 3) by lia.
      destruct K as [-> | [-> | [-> | ->]]]; vm_compute in El; injection El as <-; cbn in I; lia.
    - intros H. destruct H as [(-> & ->)|[(-> & H)|[(-> & ->)|(-> & ->)]]]; [exists [1]|exists [0; 2; 3]|exists [1]|exists [1]]; (split; [reflexivity|]); cbn; lia. }
  split; [reflexivity|]. split; [intros u v H; apply E in H; change (zlen [[1]; [0; 2; 3]; [1]; [1]]) with 4; lia|]. split; [intros u v H; rewrite E in *; lia|]. split; [|reflexivity].
  assert (To1 : forall u, vertex [[1]; [0; 2; 3]; [1]; [1]] u -> connected [[1]; [0; 2; 3]; [1]; [1]] u 1 /\ connected [[1]; [0; 2; 3]; [1]; [1]] 1 u).
  { intros u Hu. unfold vertex in Hu. change (zlen [[1]; [0; 2; 3]; [1]; [1]]) with 4 in Hu. destruct (Z.eq_dec u 1) as [->|N]; [split; exists 0; apply BFS_proof.reach_end|].
    split; exists (1 + 0); [exists [u; 1]|exists [1; u]]; [apply (route_step _ u 1 1 [1] 1 0)|apply (route_step _ 1 u u [u] 1 0)]; try constructor; try (apply E; lia); reflexivity. }
  intros u v Hu Hv. apply (conn_via _ u 1 v); apply To1; auto.
Qed.
