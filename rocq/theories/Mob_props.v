(* C103: MobiusFunction<N> (library/number/mobius_function.hpp) *)
From Verif Require Import Base Sieve_spec Mob_spec Mob_model Mob_proof.
From Coq Require Import Znumtheory.

(* For every N: the table is built without leaving its arrays; mobius(n) is the Moebius function on [1, N], min_prime_factor(n) the least prime factor on [2, N],
   factorize(n) the factorisation with increasing primes on [1, N], and is_prime decides primality on [0, N] *)
Theorem mobius_function_correct N : 0 <= N -> exists f, mob_new N = Ok f /\
  (forall n, 1 <= n <= N -> exists x, mob_at f n = Ok x /\ moebius n x) /\
  (forall n, 2 <= n <= N -> exists p, mob_mpf f n = Ok p /\ least_prime_factor n p) /\
  (forall n, 1 <= n <= N -> exists l, mob_factorize f n = Ok l /\ factorization n l) /\
  (forall n, 0 <= n <= N -> exists b, mob_is_prime f n = Ok b /\ (b = true <-> prime n)).
Proof. exact (mobius_ok N). Qed.
Print Assumptions mobius_function_correct.
Example mobius_function_ex : (let* f := mob_new 30 in let* a := mob_at f 1 in let* b := mob_at f 7 in let* c := mob_at f 12 in let* d := mob_at f 30 in let* e := mob_at f 6 in let* p := mob_mpf f 25 in Ok [a; b; c; d; e; p]) = Ok [1; -1; 0; -1; 1; 5].
Proof. vm_compute. reflexivity. Qed.
