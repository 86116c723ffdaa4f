(* C109: manhattan_minimum_distances *)
From Verif Require Import Base MMD_spec MMD_model MMD_proof.
(* C109: for pairwise different points, whatever std::sort does with equivalent elements, each entry of the result is the distance from that point to the nearest other point *)
Theorem manhattan_minimum_distances_correct : forall srt pts, is_sort srt -> NoDup pts ->
  exists r, manhattan_minimum_distances srt pts = Ok r /\ zlen r = zlen pts /\ forall i o, vget r i = Ok o -> nearest pts i o.
Proof. intros srt pts H N. exact (mmd_ok srt H pts N). Qed.
Print Assumptions manhattan_minimum_distances_correct.
(* C109, finding: when a point occurs twice, the first copy never sees the second one (with insertion sort, which std::sort uses on at most 16 elements), so its entry is not 0 *)
Theorem manhattan_minimum_distances_duplicates_refuted : exists srt pts r o,
  is_sort srt /\ manhattan_minimum_distances srt pts = Ok r /\ vget r 0 = Ok o /\ ~ nearest pts 0 o.
Proof.
  exists stable_sort, [(0, 0); (0, 0); (3, 4)], [Some 7; Some 0; Some 7], (Some 7). split; [exact stable_sort_ok|]. split; [vm_compute; reflexivity|]. split; [reflexivity|].
  intros H. destruct (H (0, 0) eq_refl) as (_ & K). specialize (K 1 (0, 0) ltac:(discriminate) eq_refl). now vm_compute in K.
Qed.
Print Assumptions manhattan_minimum_distances_duplicates_refuted.
Example manhattan_minimum_distances_some : is_sort stable_sort /\ NoDup [(0, 0); (3, 4); (-2, 5); (4, 4)] /\ manhattan_minimum_distances stable_sort [(0, 0); (3, 4); (-2, 5); (4, 4)] = Ok [Some 7; Some 1; Some 6; Some 1].
Proof. split; [exact stable_sort_ok|]. split; [repeat constructor; cbn; intuition congruence|]. vm_compute. reflexivity. Qed.
