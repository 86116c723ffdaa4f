(* C96: iteration over subsets and bits *)
From Verif Require Import Base BaseLemmas Bits SubIt_spec SubIt_model SubIt_proof SubIt_proof2.
From Coq Require Import Sorted.

(* C96.  for (T t : all_subset(s)): every subset of s once, largest first, for unsigned T of W bits and s other than all ones. *)
Theorem all_subset_enumerates :
  forall W s, 0 < W -> 0 <= s < 2 ^ W - 1 -> exists l, all_subset W s = Ok l /\ StronglySorted Z.gt l /\ forall x, In x l <-> subset x s.
Proof. exact all_subset_ok. Qed.
Print Assumptions all_subset_enumerates.

(* C96.  all_setbit: the positions of the ones, in increasing order. *)
Theorem all_setbit_enumerates :
  forall W s, 0 <= W -> 0 <= s < 2 ^ W -> exists l, all_setbit W s = Ok l /\ StronglySorted Z.lt l /\ forall i, In i l <-> 0 <= i /\ Z.testbit s i = true.
Proof. exact all_setbit_ok. Qed.
Print Assumptions all_setbit_enumerates.

(* C96.  all_subset_k(s, k) (W = 32) and all_subset_k_64 (W = 64): every k-element subset of s once, in increasing order, unless k = 1 and s has W-1 elements. *)
Theorem all_subset_k_enumerates :
  forall W s k, W = 32 \/ W = 64 -> 0 <= s < 2 ^ W - 1 -> 0 <= k < W -> k <> 1 \/ card s < W - 1 ->
  exists l, all_subset_k W s k = Ok l /\ StronglySorted Z.lt l /\ forall x, In x l <-> subset x s /\ card x = k.
Proof. intros W s k [-> | ->]; apply subset_k_ok; lia. Qed.
Print Assumptions all_subset_k_enumerates.

(* C96, excluded cases.  With all bits set, all_subset visits nothing; with W-1 bits set and k = 1 the last increment shifts by W. *)
Theorem all_subset_full_refuted : forall W, 0 < W -> all_subset W (2 ^ W - 1) = Ok [] /\ subset 0 (2 ^ W - 1).
Proof.
  intros W HW. split.
  - unfold all_subset, uw. replace (2 ^ W - 1 + 1) with (2 ^ W) by ring. rewrite Z.mod_same by (pose proof (p2 W); lia). rewrite Nat.add_comm. reflexivity.
  - split; [lia|reflexivity].
Qed.
Print Assumptions all_subset_full_refuted.
Theorem all_subset_k_single_refuted : all_subset_k 32 (2 ^ 31 - 1) 1 = UB /\ all_subset_k 64 (2 ^ 63 - 1) 1 = UB.
Proof.
  split.
  - unfold all_subset_k. replace (Z.to_nat (2 ^ card (2 ^ 31 - 1)) + 1)%nat with (40 + Z.to_nat (2 ^ 31 - 39))%nat by (change (card (2 ^ 31 - 1)) with 31; lia).
    generalize (Z.to_nat (2 ^ 31 - 39)). intros m. vm_compute. reflexivity.
  - unfold all_subset_k. replace (Z.to_nat (2 ^ card (2 ^ 63 - 1)) + 1)%nat with (70 + Z.to_nat (2 ^ 63 - 69))%nat by (change (card (2 ^ 63 - 1)) with 63; lia).
    generalize (Z.to_nat (2 ^ 63 - 69)). intros m. vm_compute. reflexivity.
Qed.
Print Assumptions all_subset_k_single_refuted.

Example subset_iterator_example :
  all_subset 32 13 = Ok [13; 12; 9; 8; 5; 4; 1; 0] /\ all_setbit 32 26 = Ok [1; 3; 4] /\ all_subset_k 32 29 2 = Ok [5; 9; 12; 17; 20; 24] /\
  all_subset_k 64 29 0 = Ok [0] /\ all_subset_k 32 29 5 = Ok [] /\ all_subset_k 32 (2 ^ 32 - 1) 2 = Abort.
Proof. repeat split. Qed.
