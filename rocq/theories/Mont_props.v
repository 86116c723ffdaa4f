(* C116: the table of Montmort numbers counts derangements. *)
From Verif Require Import Base BaseLemmas Seq Kron_alg Mont_spec Mont_model Mont_proof.
(* montmort_number(n) has n + 1 entries and entry i is the number of derangements of i elements, modulo m *)
Theorem montmort_number_correct m n : 0 < m -> -1 <= n ->
  exists r, montmort_number m n = Ok r /\ zlen r = n + 1 /\ forall i c, 0 <= i <= n -> derangements i c -> vget r i = Ok (c mod m).
Proof.
  intros Hm Hn. eexists. split; [now apply montmort_ok|]. pose proof (map_rep (fun i => D i mod m) (n + 1) ltac:(lia)) as R. split; [exact (proj1 R)|].
  intros i c Hi Hc. rewrite (rep_get _ _ _ _ R) by lia. now rewrite (derangements_fun i c (D i) Hc (derangements_E i ltac:(lia))).
Qed.
Print Assumptions montmort_number_correct.
(* the number of derangements exists for every n, so the theorem above determines every entry *)
Theorem derangements_exist n : 0 <= n -> exists c, derangements n c.
Proof. intros Hn. exists (D n). now apply derangements_E. Qed.
Print Assumptions derangements_exist.
Theorem montmort_number_negative m n : n < -1 -> montmort_number m n = Abort.
Proof. intros Hn. unfold montmort_number, for_. replace (Z.to_nat (n + 1 - 2)) with O by lia. cbn [for_up bind]. now rewrite (proj2 (Z.ltb_lt (n + 1) 0)) by lia. Qed.
Print Assumptions montmort_number_negative.
Example montmort_example : montmort_number 1000 7 = Ok [1; 0; 1; 2; 9; 44; 265; 854] /\ montmort_number 5 0 = Ok [1] /\ derangement 3 [1; 2; 0] /\ ~ derangement 3 [1; 0; 2].
Proof.
  repeat split; try (vm_compute; reflexivity).
  - change (zrange 3) with ([0] ++ [1; 2]). change [1; 2; 0] with ([1; 2] ++ [0]). apply Permutation_app_comm.
  - intros [|[|[|i]]]; cbn; try discriminate. now destruct i.
  - intros [_ H]. now apply (H 2%nat).
Qed.
