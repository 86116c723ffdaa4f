(* C22: LinearSieve *)
From Verif Require Import Base Sieve_model Sieve_spec Sieve_proof.
From Coq Require Import Znumtheory.

(* the sieve never reads or writes out of range, lists exactly the primes up to n in
   increasing order and stores the least prime factor of every m in [2, n] *)
Theorem linear_sieve_correct n : -1 <= n -> exists s, sieve_make n = Ok s /\
  primes_upto n (get_prime_list s) /\ prime_num s = zlen (get_prime_list s) /\
  (forall m, 2 <= m <= n -> exists p, vget (get_min_prime_factor s) m = Ok p /\ least_prime_factor m p).
Proof. exact (sieve_spec_ok n). Qed.
Print Assumptions linear_sieve_correct.
Example linear_sieve_example : exists s, sieve_make 30 = Ok s /\ get_prime_list s = [2; 3; 5; 7; 11; 13; 17; 19; 23; 29] /\ vget (get_min_prime_factor s) 25 = Ok 5.
Proof. eexists. split; [vm_compute; reflexivity|]. split; reflexivity. Qed.

(* factorize(m) is the prime factorisation of m, primes increasing; outside [1, n] the assertion fails *)
Theorem linear_sieve_factorize n s m : sieve_make n = Ok s ->
  (1 <= m <= n -> exists l, sv_factorize s m = Ok l /\ factorization m l) /\ (m < 1 \/ n < m -> sv_factorize s m = Abort).
Proof. exact (fun E => conj (sieve_factor_ok n m s E) (sieve_factor_abort n m s E)). Qed.
Print Assumptions linear_sieve_factorize.
Example linear_sieve_factorize_example : (let* s := sieve_make 100 in sv_factorize s 84) = Ok [(2, 2); (3, 1); (7, 1)].
Proof. vm_compute. reflexivity. Qed.
