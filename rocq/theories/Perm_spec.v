(* What a permutation is, and powers of one. *)
From Verif Require Import Base.
From Coq Require Import Permutation Factorial.

(* a rearrangement of 0, 1, ..., n-1 *)
Definition is_perm (p : list Z) : Prop := Permutation p (zrange (zlen p)).
(* k steps i -> p[i] *)
Fixpoint jump (p : list Z) (k : nat) (i : Z) : res Z :=
  match k with O => Ok i | S k => let* j := vget p i in jump p k j end.
