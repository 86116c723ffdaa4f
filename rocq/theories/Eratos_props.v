(* C47: SimpleSieve and Sieve (sieve of Eratosthenes) *)
From Verif Require Import Base Sieve_spec Eratos_model Eratos_spec Eratos_proof Eratos_proof2 Eratos_proof3.
From Coq Require Import Znumtheory.

(* SimpleSieve<N>: construction succeeds, is_prime is primality for every p the array
   covers (in particular every p <= N) and prime_list lists the primes up to its bound *)
Theorem simple_sieve_correct N : 0 <= N -> exists flag, ss_make N = Ok flag /\
  (forall p, 0 <= p <= N -> exists b, ss_is_prime flag p = Ok b /\ (b = true <-> prime p)) /\
  (forall m, m <= N -> exists l, ss_prime_list (ss_siz N) flag m = Ok l /\ primes_upto m l).
Proof. exact (simple_sieve_ok N). Qed.
Print Assumptions simple_sieve_correct.
Example simple_sieve_example : (let* f := ss_make 100 in ss_prime_list (ss_siz 100) f 50) = Ok [2; 3; 5; 7; 11; 13; 17; 19; 23; 29; 31; 37; 41; 43; 47].
Proof. vm_compute. reflexivity. Qed.

(* Sieve<N>: is_prime and prime_factor *)
Theorem sieve_is_prime N : 0 <= N -> exists pf, es_make N = Ok pf /\
  (forall p, 0 <= p <= N -> exists b, es_is_prime pf p = Ok b /\ (b = true <-> prime p)) /\
  (forall p, 2 <= p <= N -> exists q, es_prime_factor pf p = Ok q /\ prime q /\ (q | p)).
Proof. exact (sieve_query_ok N). Qed.
Print Assumptions sieve_is_prime.
Example sieve_is_prime_example : (let* f := es_make 400 in let* a := es_is_prime f 397 in let* b := es_prime_factor f 391 in Ok (a, b)) = Ok (true, 17).
Proof. vm_compute. reflexivity. Qed.

(* factorize: each prime once with a positive exponent, product n; divisors: every
   positive divisor exactly once; outside [1, N] both assertions fail *)
Theorem sieve_factorize_divisors N pf n : 0 <= N -> es_make N = Ok pf ->
  (1 <= n <= N -> (exists l, es_factorize N pf n = Ok l /\ prime_powers n l) /\ (exists l, es_divisors N pf n = Ok l /\ divisor_list n l)) /\
  (n < 1 \/ N < n -> es_factorize N pf n = Abort /\ es_divisors N pf n = Abort).
Proof. exact (fun HN E => conj (fun H => conj (es_factorize_ok N pf HN E n H) (es_divisors_ok N pf HN E n H)) (es_abort N pf n)). Qed.
Print Assumptions sieve_factorize_divisors.
Example sieve_divisors_example : (let* f := es_make 400 in es_divisors 400 f 98) = Ok [1; 2; 7; 49; 14; 98].
Proof. vm_compute. reflexivity. Qed.
