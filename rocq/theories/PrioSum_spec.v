(* Sums of the first k elements under an order. *)
From Coq Require Import Permutation.
From Verif Require Import Base PrioSum_model.

(* [s] is the sum of the [k] elements of [l] that come first under [cmp] (all of them
   when there are fewer) *)
Definition sum_first (cmp : Z -> Z -> bool) (k : Z) (l : list Z) (s : Z) : Prop :=
  exists l1 l2, Permutation (l1 ++ l2) l /\ zlen l1 = Z.min k (zlen l) /\
    (forall x y, In x l1 -> In y l2 -> cmp y x = false) /\ s = fold_right Z.add 0 l1.

(* contents and k after the calls *)
Fixpoint inserted (ops : list ps_op) : list Z :=
  match ops with [] => [] | PInsert v :: ops => v :: inserted ops | PSetK _ :: ops => inserted ops end.
Fixpoint last_k (k : Z) (ops : list ps_op) : Z :=
  match ops with [] => k | PInsert _ :: ops => last_k k ops | PSetK k' :: ops => last_k k' ops end.
