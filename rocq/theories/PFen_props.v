(* C106: persistent Fenwick tree (library/datastructure/fenwick_tree/persistent_fenwick_tree.hpp) *)
From Verif Require Import Base BaseLemmas PFen_spec PFen_model PFen_proof PFen_proof2.

(* Every history of constructions PersistentFenwickTree(n), add and sum on any of the trees made so far gets the answers of independent arrays:
   an add is seen by the new tree only, whatever was or will be derived from the old one, although all trees share their nodes in one pool. *)
Theorem persistent_fenwick_correct ops answers : spec_history ops [] = Some answers -> pf_history ops ([], []) = Ok answers.
Proof. apply pf_history_ok. split; [reflexivity|]. intros k t A E. apply vget_range in E. change (zlen (snd (@nil (Z * Z * Z), @nil (Z * Z)))) with 0 in E. lia. Qed.
Print Assumptions persistent_fenwick_correct.
Example pfen_ex : spec_history [New 5; Add 0 4 7; Add 1 2 10; Add 0 3 5; Sum 2 1 5; Sum 3 1 5; Sum 1 4 5; Sum 0 0 5] [] = Some [0; 1; 2; 3; 17; 5; 7; 0] /\
  pf_history [New 5; Add 0 4 7; Add 1 2 10; Add 0 3 5; Sum 2 1 5; Sum 3 1 5; Sum 1 4 5; Sum 0 0 5] ([], []) = Ok [0; 1; 2; 3; 17; 5; 7; 0].
Proof. split; reflexivity. Qed.

(* The constructor PersistentFenwickTree(dat) does not copy the values: whatever dat is, every sum over the new tree is 0 *)
Theorem persistent_fenwick_values_refuted : forall h dat, 1 <= zlen dat -> exists h' t, of_values h dat = Ok (h', t) /\ forall l r, 0 <= l <= r -> r <= zlen dat -> sum h' t l r = Ok 0.
Proof.
  intros h dat H. destruct (of_values_ok h dat H) as (h' & t & E & _ & _ & S). exists h', t. split; auto. intros l r Hl Hr. rewrite (sum_stands h' t _ l r S Hl) by (rewrite zlen_vrep; lia). now rewrite !psum_zero.
Qed.
Print Assumptions persistent_fenwick_values_refuted.
Example values_ex : exists h t, of_values [] [3; 1; 4] = Ok (h, t) /\ sum h t 0 3 = Ok 0 /\ total [3; 1; 4] = 8.
Proof. eexists _, _. split; [reflexivity|]. split; reflexivity. Qed.
