(* Queries on a plain list of integers; [slice l r a] (Seq.v) is a[l .. r-1]. *)
From Verif Require Import Base Seq.
From Coq Require Import Permutation Sorted.

Definition count_if {A} (p : A -> bool) (a : list A) : Z := zlen (filter p a).
(* y is the k-th (from 0) element of s put in increasing order *)
Definition kth_smallest (s : list Z) (k y : Z) : Prop :=
  exists t, Permutation t s /\ StronglySorted Z.le t /\ vget t k = Ok y.
Definition kth_largest (s : list Z) (k y : Z) : Prop :=
  exists t, Permutation t s /\ StronglySorted (fun a b => b <= a) t /\ vget t k = Ok y.
Definition least (s : list Z) (P : Z -> Prop) (y : Z) : Prop := In y s /\ P y /\ forall z, In z s -> P z -> y <= z.
Definition greatest (s : list Z) (P : Z -> Prop) (y : Z) : Prop := In y s /\ P y /\ forall z, In z s -> P z -> z <= y.
(* The outcome of a search among the elements v of s, judged by x ^ v: either some v for which
   x ^ v is the best value satisfying P, or the default when none satisfies P. *)
Definition found (s : list Z) (x : Z) (P : Z -> Prop) (best : list Z -> (Z -> Prop) -> Z -> Prop) (d : Z) (o : res Z) : Prop :=
  (exists v, o = Ok v /\ In v s /\ best (map (Z.lxor x) s) P (Z.lxor x v)) \/
  (o = Ok d /\ forall v, In v s -> ~ P (Z.lxor x v)).
