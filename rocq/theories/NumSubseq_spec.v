(* Subsequences. *)
From Coq Require Import Permutation Sorted.
From Verif Require Import Base.

Inductive subseq : list Z -> list Z -> Prop :=
| sub_nil : subseq [] []
| sub_skip x s a : subseq s a -> subseq s (x :: a)
| sub_take x s a : subseq s a -> subseq (x :: s) (x :: a).

(* c is the number of distinct non-empty subsequences of a *)
Definition counts_subseqs (a : list Z) (c : Z) : Prop :=
  exists l, NoDup l /\ (forall s, In s l <-> s <> [] /\ subseq s a) /\ zlen l = c.

(* a correct sort of pairs in lexicographic order *)
Definition lex_le (x y : Z * Z) : Prop := fst x < fst y \/ fst x = fst y /\ snd x <= snd y.
Definition sorts_pairs (sort : list (Z * Z) -> list (Z * Z)) : Prop :=
  forall l, Permutation (sort l) l /\ StronglySorted lex_le (sort l).
