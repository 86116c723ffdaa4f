(* The Moebius function *)
From Verif Require Import Base.
From Coq Require Import Znumtheory.
(* mu(n) = 0 when the square of a prime divides n, and otherwise -1 to the number of primes dividing n *)
Definition moebius (n x : Z) : Prop :=
  (exists p, prime p /\ (p * p | n)) /\ x = 0 \/
  (forall p, prime p -> ~ (p * p | n)) /\ exists ps, NoDup ps /\ (forall p, In p ps <-> prime p /\ (p | n)) /\ x = (-1) ^ zlen ps.
