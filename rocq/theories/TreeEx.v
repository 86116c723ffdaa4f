(* a tree of five vertices for the examples: 0 - 1, 1 - 2, 1 - 3, 3 - 4 *)
From Verif Require Import Base BaseLemmas Graph_spec Tree_spec BFS_proof BFS_proof2.
Definition ex_tree : list (list Z) := [[1]; [0; 2; 3]; [1]; [1; 4]; [3]].
Lemma cvia g u w v : connected g u w -> connected g w v -> connected g u v.
Proof. intros (a & A) (b & B). exists (a + b). eapply reach_trans; eauto. Qed.
Lemma ex_tree_ok : tree ex_tree.
Proof.
  assert (Z5 : zlen ex_tree = 5) by reflexivity.
  assert (E : forall u v, edge ex_tree u v <-> (u = 0 /\ v = 1) \/ (u = 1 /\ (v = 0 \/ v = 2 \/ v = 3)) \/ (u = 2 /\ v = 1) \/ (u = 3 /\ (v = 1 \/ v = 4)) \/ (u = 4 /\ v = 3)).
  { intros u v. unfold edge. split.
    - intros (l & El & I). pose proof (vget_range _ _ _ El) as Ru. rewrite Z5 in Ru. assert (K : u = 0 \/ u = 1 \/ u = 2 \/ u = 3 \/ u = 4) by lia.
      destruct K as [-> | [-> | [-> | [-> | ->]]]]; vm_compute in El; injection El as <-; cbn in I; lia.
    - intros H. destruct H as [(-> & ->)|[(-> & H)|[(-> & ->)|[(-> & H)|(-> & ->)]]]]; [exists [1]|exists [0; 2; 3]|exists [1]|exists [1; 4]|exists [3]]; (split; [reflexivity|]); cbn; lia. }
  split; [reflexivity|]. split; [intros u v H; apply E in H; rewrite Z5; lia|]. split; [intros u v H; rewrite E in *; lia|]. split; [|reflexivity].
  assert (C1 : forall u v, edge ex_tree u v -> connected ex_tree u v). { intros u v H. exists (1 + 0), [u; v]. apply (route_step _ u v v [v] 1 0); [split; auto|constructor]. }
  assert (To1 : forall u, vertex ex_tree u -> connected ex_tree u 1 /\ connected ex_tree 1 u).
  { intros u Hu. unfold vertex in Hu. rewrite Z5 in Hu. destruct (Z.eq_dec u 1) as [->|N]; [split; exists 0; apply BFS_proof.reach_end|]. destruct (Z.eq_dec u 4) as [->|N4].
    - split; apply (cvia _ _ 3 _); apply C1, E; lia.
    - split; apply C1, E; lia. }
  intros u v Hu Hv. apply (cvia _ u 1 v); apply To1; auto.
Qed.
