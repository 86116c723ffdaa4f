(* C98: centroids *)
From Verif Require Import Base Graph_spec Tree_spec TreeEx Centroid_spec Centroid_model Centroid_proof Centroid_proof2.

(* In every tree, find_centroids(g) returns (its assertion holds and it never leaves its arrays) the centroids of the tree,
   each once, and there are one or two of them *)
Theorem find_centroids_correct g : tree g -> exists rs, find_centroids g = Ok rs /\ NoDup rs /\ (zlen rs = 1 \/ zlen rs = 2) /\ forall v, In v rs <-> centroid g v.
Proof. exact (find_centroids_ok g). Qed.
Print Assumptions find_centroids_correct.
Example find_centroids_example : tree ex_tree /\ find_centroids ex_tree = Ok [1] /\ find_centroids [[1]; [0; 2]; [1; 3]; [2]] = Ok [2; 1].
Proof. split; [exact ex_tree_ok|]. split; reflexivity. Qed.
