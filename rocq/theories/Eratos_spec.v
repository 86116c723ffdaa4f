(* Prime power decompositions (in any order) and lists of divisors. *)
From Verif Require Import Base.
From Coq Require Import Znumtheory.

Definition prime_powers (n : Z) (l : list (Z * Z)) : Prop :=
  NoDup (map fst l) /\ (forall p c, In (p, c) l -> prime p /\ 1 <= c) /\
  fold_right (fun a r => fst a ^ snd a * r) 1 l = n.
Definition divisor_list (n : Z) (l : list Z) : Prop :=
  NoDup l /\ forall d, In d l <-> 0 < d /\ (d | n).
