(* Properties of number_of_nonempty_subsequences (C76). *)
From Coq Require Import Permutation Sorted.
From Verif Require Import Base BaseLemmas Sorting NumSubseq_model NumSubseq_spec NumSubseq_proof.

(* the number of distinct non-empty subsequences, exactly (M = 0) or modulo M *)
Theorem number_of_nonempty_subsequences_correct :
  forall M sort a, sorts_pairs sort ->
  exists c, counts_subseqs a c /\ number_of_nonempty_subsequences M sort a = Ok (if M =? 0 then c else c mod M).
Proof. intros M sort a Hs. destruct (subseqs_ok M sort a Hs) as (r & c & E & C & ->). exists c. split; [exact C|exact E]. Qed.
Print Assumptions number_of_nonempty_subsequences_correct.

Definition lex_leb (x y : Z * Z) : bool := (fst x <? fst y) || ((fst x =? fst y) && (snd x <=? snd y)).
Example number_of_nonempty_subsequences_example :
  sorts_pairs (isort lex_leb) /\
  number_of_nonempty_subsequences 0 (isort lex_leb) [1; 2; 1; 1] = Ok 9 /\
  number_of_nonempty_subsequences 7 (isort lex_leb) [1; 2; 1; 1] = Ok 2 /\
  number_of_nonempty_subsequences 0 (isort lex_leb) [] = Ok 0.
Proof.
  split; [|repeat split]. intro l. split; [apply isort_perm|].
  apply StronglySorted_impl with (fun x y => lex_leb x y = true); [|apply isort_sorted]; unfold lex_leb, lex_le; intros; lia.
Qed.
