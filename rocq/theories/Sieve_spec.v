(* Least prime divisors, lists of primes and factorisations. *)
From Verif Require Import Base.
From Coq Require Import Znumtheory Sorted.

Definition least_prime_factor (m p : Z) : Prop := prime p /\ (p | m) /\ forall q, prime q -> (q | m) -> p <= q.
Definition primes_upto (n : Z) (l : list Z) : Prop :=
  StronglySorted Z.lt l /\ forall p, In p l <-> prime p /\ p <= n.
Definition factorization (n : Z) (l : list (Z * Z)) : Prop :=
  StronglySorted (fun a b => fst a < fst b) l /\ (forall p c, In (p, c) l -> prime p /\ 1 <= c) /\
  fold_right (fun a r => fst a ^ snd a * r) 1 l = n.
