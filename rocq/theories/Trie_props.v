(* C30: BinaryTrie *)
From Verif Require Import Base Hist Heap_spec Trie_model Trie_spec Wavelet_spec Trie_proof2.

(* C30.  Every history of calls on a trie of words of any number of bits answers as the multiset
   of words it holds. *)
Theorem binary_trie_history :
  forall bit_length ops, Forall (bt_call bit_length) ops ->
    answers bt_spec [] ops (run (bt_step bit_length) bt_new ops).
Proof. exact bt_history. Qed.
Print Assumptions binary_trie_history.

Example binary_trie_example :
  let ops := [TInsert 5 2; TInsert 3 1; TInsert 12 1; TInsert 5 1; TErase 5 1; TCount 5; TSize; TKthMin 6 1; TKthMax 6 0; TLt 6 5; TLower 6 5 99;
              TCeil 6 6 99; TFloor 0 4 99; THigher 0 12 99; TLeq 0 5; TPrefix 4 2; TEraseAll 5; TContains 5; TMin 0; TKthMin 0 2] in
  Forall (bt_call 4) ops /\
  run (bt_step 4) bt_new ops
  = ([TNum 2; TNum 1; TNum 1; TNum 3; TNum 1; TNum 2; TNum 4; TNum 3; TNum 10; TNum 2; TNum 3; TNum 10; TNum 3; TNum 99; TNum 3; TNum 2; TNum 2; TBool false; TNum 3], Abort).
Proof. split; [repeat constructor; cbn; unfold word; cbn; lia|vm_compute; reflexivity]. Qed.

(* C30, failing cases.  max() of a trie that holds the one word v is the complement of v. *)
Theorem binary_trie_max_refuted :
  forall bits v, word bits v -> bt_max bits (Z.of_nat bits) (snd (bt_insert bits bt_new v 1)) = Ok (2 ^ Z.of_nat bits - 1 - v).
Proof. exact bt_max_single. Qed.
Print Assumptions binary_trie_max_refuted.

Example binary_trie_max_example : word 8 3 /\ bt_max 8 8 (snd (bt_insert 8 bt_new 3 1)) = Ok 252.
Proof. split; [unfold word; cbn; lia|vm_compute; reflexivity]. Qed.

(* xor_count_leq(1, 0) on the multiset {1} is 0 although 1 ^ 1 <= 0: the claim of bt_spec for
   xor_count_leq fails for x <> 0, and xor_higher, xor_floor, xor_count_gt with it. *)
Theorem binary_trie_xor_leq_refuted :
  let t := snd (bt_insert 32 bt_new 1 1) in
  bt_leq 32 t 1 0 = 0 /\ count_if (fun w => Z.lxor 1 w <=? 0) [1] = 1 /\
  bt_higher 32 t 1 0 99 = Ok 0 /\ bt_gt 32 t 1 0 = 1 /\ bt_floor 32 t 1 0 99 = Ok 99.
Proof. exact (conj eq_refl (conj eq_refl (conj eq_refl (conj eq_refl eq_refl)))). Qed.
Print Assumptions binary_trie_xor_leq_refuted.
